(** split_edge preserves well-formedness and subdivides the edge. *)
From Coq Require Import List Arith Bool Lia Permutation.
From Verif Require Import Lib Mesh MeshSpec MeshFacts MeshProofs MeshAddFace MeshSplitFace.
Import ListNotations.
Local Open Scope opt_scope.

(** ** Positions *)
Lemma combine_seq_in (es : list nat) : forall s h p,
  In (h, p) (combine es (seq s (length es))) <-> s <= p /\ nth_error es (p - s) = Some h.
Proof.
  induction es as [|a es IH]; intros s h p; simpl.
  - split; [tauto|]. intros [_ H]. destruct (p - s); discriminate.
  - rewrite IH. split.
    + intros [E|[H1 H2]].
      * inversion E; subst. split; [lia|]. rewrite Nat.sub_diag. reflexivity.
      * split; [lia|]. replace (p - s) with (S (p - S s)) by lia. exact H2.
    + intros [H1 H2]. destruct (Nat.eq_dec p s) as [->|N].
      * rewrite Nat.sub_diag in H2. inversion H2. auto.
      * right. split; [lia|]. replace (p - s) with (S (p - S s)) in H2 by lia. exact H2.
Qed.

Lemma pos_in_inv es h p : pos_in es h = Some p -> nth_error es p = Some h.
Proof.
  unfold pos_in. destruct (find _ _) as [[h' p']|] eqn:F; [|discriminate]. intros E. inversion E; subst. simpl in *.
  apply find_some in F. destruct F as [F1 F2]. apply Nat.eqb_eq in F2. simpl in F2. subst h'.
  apply in_rev in F1. apply combine_seq_in in F1. rewrite Nat.sub_0_r in F1. apply F1.
Qed.

Lemma pos_in_none es h : pos_in es h = None <-> ~ In h es.
Proof.
  split.
  - intros E H. apply In_nth_error in H. destruct H as [p Hp].
    unfold pos_in in E. destruct (find _ _) eqn:F; [discriminate|].
    assert (K := find_none _ _ F (h, p)). cbv beta in K. cbn [fst] in K. rewrite Nat.eqb_refl in K. discriminate K.
    apply -> in_rev. apply combine_seq_in. rewrite Nat.sub_0_r. split; [lia|exact Hp].
  - intros H. destruct (pos_in es h) eqn:E; auto. apply pos_in_inv, nth_error_In in E. contradiction.
Qed.

Lemma pos_in_some es h p : NoDup es -> nth_error es p = Some h -> pos_in es h = Some p.
Proof.
  intros D H. destruct (pos_in es h) as [q|] eqn:E.
  - apply pos_in_inv in E. f_equal. eapply NoDup_nth_error; eauto. + apply nth_error_Some. congruence. + congruence.
  - apply pos_in_none in E. apply nth_error_In in H. contradiction.
Qed.

Lemma NoDup_map_in {A B} (f : A -> B) l : NoDup l ->
  (forall x y, In x l -> In y l -> f x = f y -> x = y) -> NoDup (map f l).
Proof.
  induction l as [|a l IH]; intros D H; simpl; [constructor|]. inversion_clear D as [|? ? N D'].
  constructor.
  - intros C. apply in_map_iff in C. destruct C as (y & E & Hy). assert (y = a) by (apply H; simpl; auto). subst. auto.
  - apply IH; auto. intros x y Hx Hy. apply H; simpl; auto.
Qed.

Lemma NoDup_app_disj {A} (l1 l2 : list A) : NoDup l1 -> NoDup l2 -> (forall x, In x l1 -> ~ In x l2) -> NoDup (l1 ++ l2).
Proof.
  induction l1 as [|a l IH]; intros D1 D2 H; simpl; auto. inversion_clear D1 as [|? ? N D'].
  constructor. - rewrite in_app_iff. intros [C|C]; auto. apply (H a); simpl; auto.
  - apply IH; auto. intros x Hx. apply H. simpl; auto.
Qed.

(** ** insert_all, exactly *)
Lemma insert_all_exact os : forall (a : ids) ns,
  length ns = length os -> NoDup os -> NoDup ns ->
  (forall o, In o os -> o < length a /\ ~ In o ns) -> (forall n, In n ns -> n < length a) ->
  exists a', insert_all a (combine os ns) = Some a' /\ length a' = length a /\
    (forall p o n, nth_error os p = Some o -> nth_error ns p = Some n ->
       rd a' o = Some n /\ rd a' n = rd a o) /\
    (forall j, ~ In j os -> ~ In j ns -> rd a' j = rd a j).
Proof.
  induction os as [|o os IH]; intros a ns Hl D1 D2 Ho Hn; destruct ns as [|n ns]; try discriminate.
  - exists a. simpl. split; auto. split; auto. split; auto. intros p o n H. destruct p; discriminate.
  - simpl. inversion_clear D1 as [|? ? N1 D1']. inversion_clear D2 as [|? ? N2 D2'].
    destruct (Ho o) as [Lo No]; [now left|]. assert (o <> n) by (intros ->; apply No; now left).
    destruct (insert_spec a o n) as (a1 & E1 & L1 & R1); auto. { apply Hn; now left. }
    rewrite E1. destruct (IH a1 ns) as (a2 & E2 & L2 & R2 & R2'); auto.
    { intros o' Ho'. rewrite L1. destruct (Ho o') as [? Hx]; [now right|]. simpl in Hx. tauto. }
    { intros n' Hn'. rewrite L1. apply Hn. now right. }
    exists a2. split; [assumption|]. split; [lia|]. split.
    + intros p o' n' H1 H2. destruct p; simpl in H1, H2.
      * inversion H1; inversion H2; subst o' n'. rewrite !R2'; auto.
        -- rewrite !R1. rewrite !Nat.eqb_refl. rewrite (proj2 (Nat.eqb_neq o n)) by auto. auto.
        -- intros C. destruct (Ho n) as [_ Hx]; [now right|]. apply Hx. now left.
        -- intros C. apply No. now right.
      * destruct (R2 p o' n' H1 H2) as [K1 K2]. split; [exact K1|]. rewrite K2, R1.
        apply nth_error_In in H1. apply nth_error_In in H2.
        destruct (Ho o') as [_ Hx]; [now right|].
        rewrite (proj2 (Nat.eqb_neq o' n)) by (intros ->; apply Hx; now left).
        rewrite (proj2 (Nat.eqb_neq o' o)) by (intros ->; contradiction). reflexivity.
    + intros j H1 H2. rewrite R2' by tauto. rewrite R1.
      rewrite (proj2 (Nat.eqb_neq j n)), (proj2 (Nat.eqb_neq j o)); auto.
Qed.

Section Split.
Variables (es : list nat) (N : nat).
Let k := length es.
Let ns := seq N k.
Hypothesis DE : NoDup es.
Hypothesis BE : forall h, In h es -> h < N.

Definition nw (h : nat) : nat := match pos_in es h with Some p => nth p (seq N (length es)) 0 | None => h end.

Lemma nw_pos p h : nth_error es p = Some h -> nw h = N + p.
Proof.
  intros H. unfold nw. rewrite (pos_in_some es h p DE H). rewrite seq_nth; auto. apply nth_error_Some. congruence.
Qed.
Lemma nw_out h : ~ In h es -> nw h = h.
Proof. intros H. unfold nw. apply pos_in_none in H. rewrite H. reflexivity. Qed.
Lemma nw_in h : In h es -> N <= nw h < N + length es /\ nth_error es (nw h - N) = Some h.
Proof.
  intros H. apply In_nth_error in H. destruct H as [p Hp]. rewrite (nw_pos p h Hp).
  assert (p < length es) by (apply nth_error_Some; congruence). split; [lia|].
  replace (N + p - N) with p by lia. exact Hp.
Qed.
Lemma nw_inj h1 h2 : h1 < N -> h2 < N -> nw h1 = nw h2 -> h1 = h2.
Proof.
  intros B1 B2 E. destruct (in_dec Nat.eq_dec h1 es) as [H1|H1], (in_dec Nat.eq_dec h2 es) as [H2|H2].
  - apply nw_in in H1, H2. rewrite E in H1. destruct H1 as [_ H1], H2 as [_ H2]. congruence.
  - rewrite (nw_out _ H2) in E. apply nw_in in H1. lia.
  - rewrite (nw_out _ H1) in E. apply nw_in in H2. lia.
  - rewrite !nw_out in E; auto.
Qed.
Lemma nw_not_es h : h < N -> ~ In (nw h) es.
Proof.
  intros B C. destruct (in_dec Nat.eq_dec h es) as [H|H].
  - apply nw_in in H. apply BE in C. lia.
  - rewrite nw_out in C; auto.
Qed.

Lemma to_new_map l : to_new es (seq N (length es)) l = map nw l.
Proof. reflexivity. Qed.

Lemma positions_es l : map (fun p => nth p es 0) (positions es l) = filter (fun h => inb h es) l.
Proof.
  induction l as [|h l IH]; simpl; auto. unfold positions in *. simpl. rewrite map_app, IH.
  destruct (pos_in es h) as [p|] eqn:E.
  - pose proof (pos_in_inv _ _ _ E) as H. rewrite (proj2 (inb_In h es)) by (eapply nth_error_In; eauto).
    simpl. f_equal. apply nth_error_nth. exact H.
  - apply pos_in_none in E. rewrite (proj2 (inb_nIn h es)) by exact E. reflexivity.
Qed.
Lemma positions_ns l : map (fun p => nth p (seq N (length es)) 0) (positions es l) = map nw (filter (fun h => inb h es) l).
Proof.
  induction l as [|h l IH]; simpl; auto. unfold positions in *. simpl. rewrite map_app, IH.
  destruct (pos_in es h) as [p|] eqn:E.
  - pose proof (pos_in_inv _ _ _ E) as H. rewrite (proj2 (inb_In h es)) by (eapply nth_error_In; eauto).
    simpl. f_equal. unfold nw. rewrite E. reflexivity.
  - apply pos_in_none in E. rewrite (proj2 (inb_nIn h es)) by exact E. reflexivity.
Qed.

(** The halfedges of a face after the split. *)
Definition ext (h : nat) : list nat := if inb h es then [h; nw h] else [h].

Lemma path_split f g t : forall a z,
  (forall h, In h es -> g h = Some (nw h) /\ g (nw h) = f h) ->
  (forall h, h < N -> ~ In h es -> g h = f h) ->
  (forall h, h = a \/ In h t -> h < N) ->
  path f a t z -> path g a (tl (ext a) ++ flat_map ext t) z.
Proof.
  induction t as [|b t IH]; intros a z G1 G2 B P; simpl in P.
  - simpl. rewrite app_nil_r. unfold ext. destruct (inb a es) eqn:E; simpl.
    + apply inb_In in E. destruct (G1 a E) as [K1 K2]. rewrite K2. auto.
    + apply inb_nIn in E. rewrite G2; auto.
  - destruct P as [E P]. assert (P' := IH b z G1 G2). simpl. 
    assert (X : ext b = b :: tl (ext b)) by (unfold ext; destruct (inb b es); reflexivity).
    rewrite X. unfold ext at 1. destruct (inb a es) eqn:Ea; simpl.
    + apply inb_In in Ea. destruct (G1 a Ea) as [K1 K2]. rewrite K2, K1. split; auto. split; auto.
      apply P'; auto. intros h Hh. apply B. simpl. intuition.
    + apply inb_nIn in Ea. rewrite G2 by auto. split; auto. apply P'; auto.
      intros h Hh. apply B. simpl. intuition.
Qed.

Lemma linked_split f g l :
  (forall h, In h es -> g h = Some (nw h) /\ g (nw h) = f h) ->
  (forall h, h < N -> ~ In h es -> g h = f h) -> (forall h, In h l -> h < N) ->
  linked f l -> linked g (flat_map ext l).
Proof.
  destruct l as [|a t]; simpl; auto. intros G1 G2 B P.
  assert (X : ext a = a :: tl (ext a)) by (unfold ext; destruct (inb a es); reflexivity).
  rewrite X. simpl. eapply path_split; eauto. intros h [->|Hh]; auto.
Qed.

Lemma in_ext l h : In h (flat_map ext l) <-> In h l \/ exists h', In h' l /\ In h' es /\ h = nw h'.
Proof.
  rewrite in_flat_map. split.
  - intros (h' & H1 & H2). unfold ext in H2. destruct (inb h' es) eqn:E; simpl in H2.
    + apply inb_In in E. destruct H2 as [<-|[<-|[]]]; eauto.
    + destruct H2 as [<-|[]]; auto.
  - intros [H|(h' & H1 & H2 & ->)].
    + exists h. split; auto. unfold ext. destruct (inb h es); simpl; auto.
    + exists h'. split; auto. unfold ext. apply inb_In in H2. rewrite H2. simpl. auto.
Qed.

Lemma NoDup_ext l : NoDup l -> (forall h, In h l -> h < N) -> NoDup (flat_map ext l).
Proof.
  induction l as [|a l IH]; intros D B; simpl; [constructor|]. inversion_clear D as [|? ? Na D'].
  apply NoDup_app_disj.
  - unfold ext. destruct (inb a es) eqn:E; [|constructor; [simpl; tauto|constructor]].
    apply inb_In in E. apply nw_in in E. specialize (B a (or_introl eq_refl)).
    constructor; [|constructor; [simpl; tauto|constructor]]. intros [C|[]]. lia.
  - apply IH; auto. intros h Hh. apply B. now right.
  - intros x Hx C. apply in_ext in C. specialize (B a (or_introl eq_refl)) as Ba.
    assert (Hx' : x = a \/ (In a es /\ x = nw a)).
    { unfold ext in Hx. destruct (inb a es) eqn:E; simpl in Hx; [apply inb_In in E|]; intuition. }
    destruct Hx' as [->|[Ea ->]].
    + destruct C as [C|(h' & C1 & C2 & C3)]; auto. apply nw_in in C2. lia.
    + destruct C as [C|(h' & C1 & C2 & C3)].
      * apply nw_in in Ea. specialize (B _ (or_intror C)). lia.
      * apply nw_inj in C3; auto. subst. contradiction.
Qed.
End Split.


Theorem split_edge_ok m e es h0 va vb :
  well_formed m -> e < n_e m -> edge_halfedges m e = Some es -> nth_error es 0 = Some h0 ->
  goes m h0 va vb -> va <> vb ->
  let N := n_h m in
  exists m', split_edge m e = Some (m', n_v m) /\ well_formed m' /\
    n_v m' = S (n_v m) /\ n_e m' = S (n_e m) /\ n_f m' = n_f m /\ n_h m' = N + length es /\
    (forall f l, f < n_f m -> face_halfedges m f = Some l ->
       face_halfedges m' f = Some (flat_map (ext es N) l)) /\
    (forall h, h < N -> rd (he_vert m') h = rd (he_vert m) h /\ rd (he_face m') h = rd (he_face m) h /\
       (rd (he_edge m) h <> Some e -> rd (he_edge m') h = rd (he_edge m) h /\ tip m' h = tip m h)) /\
    (forall h, rd (he_edge m) h = Some e -> let n := nw es N h in
       rd (he_vert m') n = Some (n_v m) /\ tip m' h = Some (n_v m) /\ tip m' n = tip m h /\
       rd (he_face m') n = rd (he_face m) h /\
       (goes m h va vb -> rd (he_edge m') h = Some e /\ rd (he_edge m') n = Some (n_e m)) /\
       (goes m h vb va -> rd (he_edge m') h = Some (n_e m) /\ rd (he_edge m') n = Some e)) /\
    (forall v, v < n_v m -> rd (v_he m') v = rd (v_he m) v) /\ rd (v_he m') (n_v m) = Some N.
Proof.
  intros W Be EH E0 G0 Hab N.
  destruct (wf_counts _ W) as (Cv & Cf & Ce & Ch).
  destruct (wf_lengths _ W) as (Lv & Le & Lf & Li & Lo & Ls).
  destruct (wf_parts m W) as (PF & PE & PO & PI).
  fold N in Ch, Lv, Le, Lf, Li, Lo, Ls.
  destruct (edge_halfedges_ok m e W Be) as (es' & EH' & _ & (_ & DE & LKE & IE)).
  assert (es' = es) by congruence. subst es'. clear EH'.
  assert (BE : forall h, In h es -> h < N).
  { intros h Hh. apply IE in Hh. apply rd_lt in Hh. lia. }
  pose proof (nth_error_In _ _ E0) as I0.
  set (k := length es). set (ns := seq N k).
  assert (Hk : 0 < k) by (unfold k; destruct es; [discriminate|simpl; lia]).
  assert (NSI : forall n, In n ns <-> N <= n < N + k) by (intros n; unfold ns; rewrite in_seq; lia).
  assert (NSL : length ns = length es) by apply seq_length.
  assert (DN : NoDup ns) by apply seq_NoDup.
  set (NV := n_v m).
  (* directions *)
  assert (J : forall h, In h es -> goes m h va vb \/ goes m h vb va).
  { destruct (wf_ends _ W e Be) as (u & w & J). intros h Hh. apply IE in Hh. apply IE in I0.
    specialize (J h Hh) as Jx. specialize (J h0 I0). destruct G0 as [G1 G2].
    unfold joins, goes in *.
    destruct J as [[J1 J2]|[J1 J2]]; assert (Q : forall y z : nat, Some y = Some z -> y = z) by congruence;
    pose proof (Q _ _ (eq_trans (eq_sym J1) G1)); pose proof (Q _ _ (eq_trans (eq_sym J2) G2)); subst; tauto. }
  destruct G0 as [G1 G2].
  assert (Bva : va < NV). { destruct (wf_vert _ W h0 (BE _ I0)) as (? & ? & ?). unfold NV. congruence. }
  assert (Bvb : vb < NV). { destruct (wf_tip m h0 W (BE _ I0)) as (? & ? & ?). unfold NV. congruence. }
  (* the run *)
  unfold split_edge. rewrite EH, E0, G1, G2. unfold new_vertices. app_simpl.
  unfold new_halfedges. app_simpl. rewrite <- Ch, <- Cv. fold k. fold ns. fold NV.
  destruct (wr_spec (resize (v_he m) (NV + 1)) NV N) as (vh & E1 & L1 & R1).
  { rewrite resize_len; unfold NV; lia. }
  rewrite E1. app_simpl. rewrite resize_len in L1 by (unfold NV; lia).
  assert (VHO : forall v, v < NV -> rd vh v = rd (v_he m) v).
  { intros v Hv. rewrite R1. rewrite (proj2 (Nat.eqb_neq v NV)) by lia. apply rd_resize. unfold NV; lia. }
  assert (VHN : rd vh NV = Some N) by (rewrite R1, Nat.eqb_refl; reflexivity).
  assert (RL : forall a : ids, length a = N -> length (resize a (N + k)) = N + k /\ forall j, rd (resize a (N + k)) j = rd a j).
  { intros a La. split; [apply resize_len; lia|]. intros j. apply rd_resize. lia. }
  destruct (RL (he_vert m) Lv) as [Qv Rv]. destruct (RL (he_next m) (eq_sym Ch)) as [Qn Rn].
  destruct (RL (he_edge m) Le) as [Qe Re]. destruct (RL (he_face m) Lf) as [Qf Rf].
  destruct (RL (in_next m) Li) as [Qi Ri]. destruct (RL (out_next m) Lo) as [Qo Ro].
  destruct (RL (sib m) Ls) as [Qs Rs].
  destruct (writes_const (resize (he_vert m) (N + k)) ns NV) as (hv & E2 & L2 & R2).
  { intros n Hn. apply NSI in Hn. lia. }
  rewrite E2. app_simpl.
  set (m1 := Mesh vh (resize (he_next m) (N + k)) hv (f_he m) (n_v m + 1) (n_h m + k) (n_f m) (n_e m)
       (resize (he_edge m) (N + k)) (resize (he_face m) (N + k)) (resize (in_next m) (N + k))
       (resize (out_next m) (N + k)) (resize (sib m) (N + k)) (e_he m)).
  assert (IN : forall v hv', rd (he_vert m) hv' = Some v -> exists l,
    incoming_halfedges m1 v = Some l /\
    cycle (rd (in_next m)) (fun x => tip m x = Some v) l).
  { intros v hv' Hv'. pose proof (rd_lt _ _ _ Hv') as B'. rewrite Lv in B'.
    assert (Bv : v < NV). { destruct (wf_vert _ W hv' B') as (? & ? & ?). unfold NV. congruence. }
    destruct (wf_vertex _ W v Bv) as [(_ & Nn)|((h & Eh1 & Eh2) & _ & [l L])]; [exfalso; eapply Nn; eauto|].
    assert (Bh : h < N) by (apply rd_lt in Eh2; lia).
    destruct (wf_hface _ W h Bh) as (f & Bf & Ef). destruct (PF h f Ef) as [lf LF].
    destruct (cycle_from _ _ _ _ LF Ef) as [t (_ & Dt & LKt & It)].
    destruct (prev_linked (resize (he_next m) (N + k)) h t Dt) as (p & Ep & Np & _).
    { revert LKt. apply linked_ext. intros x _. symmetry. apply Rn. }
    assert (C2 : cycle (rd (resize (in_next m) (N + k))) (fun x => tip m x = Some v) l).
    { revert L. apply cycle_ext; [tauto|]. intros x _. symmetry. apply Ri. }
    destruct (circulate_cycle _ _ _ p C2) as (r & Er & Cr & _).
    { unfold tip. rewrite Rn in Np. rewrite Np. exact Eh2. }
    exists r. unfold incoming_halfedges, he_prev, m1. app_simpl. rewrite VHO, Eh1 by exact Bv. rewrite Ep.
    split; [exact Er|]. revert Cr. apply cycle_ext; [tauto|]. intros x _. apply Ri. }
  destruct (IN va h0 G1) as (ina & Eina & (_ & Da & LKa & Ia)). 
  match goal with |- context [incoming_halfedges ?M va] => change (incoming_halfedges M va) with (incoming_halfedges m1 va) end.
  rewrite Eina.
  assert (exists h1, rd (he_vert m) h1 = Some vb) as [h1 G1'].
  { unfold tip in G2. destruct (rd (he_next m) h0) as [h1|]; [eauto|discriminate]. }
  destruct (IN vb h1 G1') as (inb' & Einb & (_ & Db & LKb & Ib)). 
  match goal with |- context [incoming_halfedges ?M vb] => change (incoming_halfedges M vb) with (incoming_halfedges m1 vb) end.
  rewrite Einb. clear IN Eina Einb h1 G1'.
  change (to_new es ns ina) with (map (nw es N) ina). change (to_new es ns inb') with (map (nw es N) inb').
  assert (PN : forall l, map (fun p => nth p ns 0) (positions es l) = map (nw es N) (filter (fun h => inb h es) l)).
  { intros l. apply positions_ns. }
  rewrite !PN, !positions_es.
  set (Ea := filter (fun h => inb h es) ina). set (Eb := filter (fun h => inb h es) inb').
  assert (Ba : forall h, tip m h <> None -> h < N).
  { intros h Hh. destruct (Nat.lt_ge_cases h N); auto. exfalso. apply Hh. unfold tip. rewrite rd_ge by lia. reflexivity. }
  assert (IEa : forall h, In h Ea <-> In h es /\ tip m h = Some va).
  { intros h. unfold Ea. rewrite filter_In, Ia, inb_In. tauto. }
  assert (IEb : forall h, In h Eb <-> In h es /\ tip m h = Some vb).
  { intros h. unfold Eb. rewrite filter_In, Ib, inb_In. tauto. }
  assert (nwI : forall h1 h2, h1 < N -> h2 < N -> nw es N h1 = nw es N h2 -> h1 = h2) by (apply nw_inj; auto).
  assert (nwE : forall h, In h es -> N <= nw es N h < N + k /\ nth_error es (nw es N h - N) = Some h) by (apply nw_in; auto).
  assert (nwO : forall h, ~ In h es -> nw es N h = h) by (apply nw_out; auto).
  assert (nwN : forall h, h < N -> ~ In (nw es N h) es) by (apply nw_not_es; auto).
  assert (nwB : forall h, h < N -> nw es N h < N + k).
  { intros h Hh. destruct (in_dec Nat.eq_dec h es) as [H|H]; [apply nwE in H; lia|rewrite nwO by auto; lia]. }
  assert (nwP : forall n, N <= n < N + k -> exists h, In h es /\ nw es N h = n).
  { intros n Hn. destruct (nth_error_ex es (n - N)) as [h Hh]; [fold k; lia|]. exists h.
    split; [eapply nth_error_In; eauto|]. rewrite (nw_pos es N DE (n - N) h Hh). lia. }
  (* in_next *)
  assert (BVA : forall h, In h ina -> h < N) by (intros h Hh; apply Ba; apply Ia in Hh; congruence).
  assert (BVB : forall h, In h inb' -> h < N) by (intros h Hh; apply Ba; apply Ib in Hh; congruence).
  assert (DVA : NoDup (map (nw es N) ina)) by (apply NoDup_map_in; auto).
  assert (DVB : NoDup (map (nw es N) inb')) by (apply NoDup_map_in; auto).
  destruct (windows_writes (resize (in_next m) (N + k)) (map (nw es N) ina)) as (a1 & E3 & L3 & K3 & R3); auto.
  { intros i Hi. apply in_map_iff in Hi. destruct Hi as (h & <- & Hh). rewrite Qi. auto. }
  rewrite E3.
  destruct (windows_writes a1 (map (nw es N) inb')) as (a2 & E4 & L4 & K4 & R4); auto.
  { intros i Hi. apply in_map_iff in Hi. destruct Hi as (h & <- & Hh). rewrite L3, Qi. auto. }
  rewrite E4.
  destruct (windows_writes a2 es) as (a3 & E5 & L5 & K5 & R5); auto.
  { intros i Hi. specialize (BE i Hi). lia. }
  rewrite E5. app_simpl.
  assert (DJ1 : forall x, In x (map (nw es N) ina) -> ~ In x (map (nw es N) inb')).
  { intros x H1 H2. apply in_map_iff in H1, H2. destruct H1 as (x1 & <- & H1), H2 as (x2 & E & H2).
    apply nwI in E; auto. subst. apply Ia in H1. apply Ib in H2. congruence. }
  assert (DJ2 : forall x l, (forall h, In h l -> h < N) -> In x (map (nw es N) l) -> ~ In x es).
  { intros x l Bl H1. apply in_map_iff in H1. destruct H1 as (x1 & <- & H1). auto. }
  assert (KA : linked (rd a3) (map (nw es N) ina)).
  { revert K3. apply linked_ext. intros x Hx. rewrite R5, R4; eauto. }
  assert (KB : linked (rd a3) (map (nw es N) inb')).
  { revert K4. apply linked_ext. intros x Hx. rewrite R5; eauto. }
  (* out_next *)
  destruct (windows_writes (resize (out_next m) (N + k)) ns) as (o1 & E6 & L6 & K6 & R6); auto.
  { intros i Hi. apply NSI in Hi. lia. }
  rewrite E6. app_simpl.
  (* siblings *)
  set (EVA := Eb ++ map (nw es N) Ea). set (EVB := Ea ++ map (nw es N) Eb).
  assert (DEa : NoDup Ea) by (apply NoDup_filter; auto). assert (DEb : NoDup Eb) by (apply NoDup_filter; auto).
  assert (BEa : forall h, In h Ea -> h < N) by (intros h Hh; apply IEa in Hh; apply BE; tauto).
  assert (BEb : forall h, In h Eb -> h < N) by (intros h Hh; apply IEb in Hh; apply BE; tauto).
  assert (NEa : forall x, In x (map (nw es N) Ea) -> N <= x < N + k).
  { intros x Hx. apply in_map_iff in Hx. destruct Hx as (h & <- & Hh). apply nwE. apply IEa in Hh. tauto. }
  assert (NEb : forall x, In x (map (nw es N) Eb) -> N <= x < N + k).
  { intros x Hx. apply in_map_iff in Hx. destruct Hx as (h & <- & Hh). apply nwE. apply IEb in Hh. tauto. }
  assert (DEVA : NoDup EVA).
  { apply NoDup_app_disj; auto. - apply NoDup_map_in; auto. - intros x H1 H2. apply BEb in H1. apply NEa in H2. lia. }
  assert (DEVB : NoDup EVB).
  { apply NoDup_app_disj; auto. - apply NoDup_map_in; auto. - intros x H1 H2. apply BEa in H1. apply NEb in H2. lia. }
  assert (DJE : forall x, In x EVA -> ~ In x EVB).
  { intros x H1 H2. unfold EVA, EVB in *. rewrite in_app_iff in *. destruct H1 as [H1|H1], H2 as [H2|H2].
    - apply IEb in H1. apply IEa in H2. destruct H1, H2. congruence.
    - apply BEb in H1. apply NEb in H2. lia.
    - apply BEa in H2. apply NEa in H1. lia.
    - apply in_map_iff in H1, H2. destruct H1 as (x1 & <- & H1), H2 as (x2 & E & H2). apply nwI in E; auto. subst.
      apply IEa in H1. apply IEb in H2. destruct H1, H2. congruence. }
  assert (BEVA : forall x, In x EVA -> x < N + k).
  { intros x H. apply in_app_iff in H. destruct H as [H|H]; [apply BEb in H; lia|apply NEa in H; lia]. }
  assert (BEVB : forall x, In x EVB -> x < N + k).
  { intros x H. apply in_app_iff in H. destruct H as [H|H]; [apply BEa in H; lia|apply NEb in H; lia]. }
  destruct (windows_writes (resize (sib m) (N + k)) EVA) as (s1 & E7 & L7 & K7 & R7); auto.
  { intros i Hi. rewrite Qs. auto. }
  rewrite E7.
  destruct (windows_writes s1 EVB) as (s2 & E8 & L8 & K8 & R8); auto.
  { intros i Hi. rewrite L7, Qs. auto. }
  rewrite E8. app_simpl.
  assert (KEVA : linked (rd s2) EVA).
  { revert K7. apply linked_ext. intros x Hx. symmetry. apply R8. auto. }
  (* he_next *)
  destruct (insert_all_exact es (resize (he_next m) (N + k)) ns) as (hn & E9 & L9 & R9 & R9'); auto.
  { intros o Ho. specialize (BE o Ho). split; [lia|]. intros C. apply NSI in C. lia. }
  { intros n Hn. apply NSI in Hn. lia. }
  rewrite E9. app_simpl.
  (* he_edge *)
  destruct (writes_const (resize (he_edge m) (N + k)) EVA e) as (he1 & E10 & L10 & R10).
  { intros i Hi. rewrite Qe. auto. }
  rewrite E10. app_simpl. unfold new_edges. app_simpl. rewrite <- Ce.
  destruct (writes_const he1 EVB (n_e m)) as (he2 & E11 & L11 & R11).
  { intros i Hi. rewrite L10, Qe. auto. }
  rewrite E11. app_simpl.
  assert (I0b : In h0 Eb) by (apply IEb; auto).
  assert (exists ha0 EVA', EVA = ha0 :: EVA') as (ha0 & EVA' & XA).
  { unfold EVA. destruct Eb; [destruct I0b|]. simpl. eauto. }
  assert (exists hb0 EVB', EVB = hb0 :: EVB') as (hb0 & EVB' & XB).
  { assert (In (nw es N h0) EVB). { unfold EVB. apply in_app_iff. right. apply in_map. exact I0b. }
    destruct EVB; [destruct H|]. eauto. }
  replace (nth_error EVA 0) with (Some ha0) by (rewrite XA; reflexivity).
  destruct (wr_spec (resize (e_he m) (n_e m + 1)) e ha0) as (eh1 & E12 & L12 & R12).
  { rewrite resize_len; lia. }
  rewrite E12. replace (nth_error EVB 0) with (Some hb0) by (rewrite XB; reflexivity).
  rewrite resize_len in L12 by lia.
  destruct (wr_spec eh1 (n_e m) hb0) as (eh2 & E13 & L13 & R13); [lia|]. rewrite E13. app_simpl.
  destruct (copy_all_spec es (resize (he_face m) (N + k)) ns) as (hf & E14 & L14 & R14); auto.
  { intros o Ho. specialize (BE o Ho). split; [lia|]. intros C. apply NSI in C. lia. }
  { intros n Hn. apply NSI in Hn. lia. }
  rewrite E14. app_simpl.
  set (m' := Mesh vh hn hv (f_he m) (n_v m + 1) (n_h m + k) (n_f m) (n_e m + 1) he2 hf a3 o1 s2 eh2).
  (* reading facts *)
  assert (VO : forall h, h < N -> rd hv h = rd (he_vert m) h).
  { intros h Hh. rewrite R2. rewrite (proj2 (inb_nIn h ns)) by (rewrite NSI; lia). apply Rv. }
  assert (VN : forall h, N <= h < N + k -> rd hv h = Some NV).
  { intros h Hh. rewrite R2. rewrite (proj2 (inb_In h ns)) by (rewrite NSI; lia). reflexivity. }
  assert (NE : forall h, In h es -> rd hn h = Some (nw es N h) /\ rd hn (nw es N h) = rd (he_next m) h).
  { intros h Hh. apply In_nth_error in Hh. destruct Hh as [p Hp]. rewrite (nw_pos es N DE p h Hp).
    assert (p < k) by (apply nth_error_Some; congruence).
    assert (Hp' : nth_error ns p = Some (N + p)) by (apply nth_seq; auto).
    destruct (R9 p h (N + p) Hp Hp') as [K1 K2]. rewrite K1, K2. split; auto. }
  assert (NO : forall h, h < N -> ~ In h es -> rd hn h = rd (he_next m) h).
  { intros h Hh H. rewrite R9'; auto. rewrite NSI. lia. }
  assert (TE : forall h, In h es -> tip m' h = Some NV).
  { intros h Hh. unfold tip. cbn [m' he_next he_vert]. rewrite (proj1 (NE h Hh)). apply VN. apply nwE in Hh. tauto. }
  assert (TNW : forall h, In h es -> tip m' (nw es N h) = tip m h).
  { intros h Hh. unfold tip. cbn [m' he_next he_vert]. rewrite (proj2 (NE h Hh)).
    destruct (wf_next m h W (BE h Hh)) as (h' & Bh' & -> & _). apply VO. exact Bh'. }
  assert (TO : forall h, h < N -> ~ In h es -> tip m' h = tip m h).
  { intros h Hh H. unfold tip. cbn [m' he_next he_vert]. rewrite NO by auto.
    destruct (wf_next m h W Hh) as (h' & Bh' & -> & _). apply VO. exact Bh'. }
  assert (TZ : forall h, N + k <= h -> tip m' h = None).
  { intros h Hh. unfold tip. cbn [m' he_next]. rewrite rd_ge by lia. reflexivity. }
  assert (FO : forall h, h < N -> rd hf h = rd (he_face m) h).
  { intros h Hh. rewrite R14. unfold ns, k. rewrite copied_old by auto. apply Rf. }
  assert (FN : forall h, In h es -> rd hf (nw es N h) = rd (he_face m) h).
  { intros h Hh. apply In_nth_error in Hh. destruct Hh as [p Hp]. rewrite (nw_pos es N DE p h Hp).
    rewrite R14. unfold ns, k. rewrite (copied_new _ _ _ _ _ Hp). apply Rf. }
  assert (EE : forall h, rd he2 h = if inb h EVB then Some (n_e m) else if inb h EVA then Some e else rd (he_edge m) h).
  { intros h. rewrite R11, R10, Re. reflexivity. }
  assert (GA : forall h, In h es -> goes m h va vb -> In h EVA /\ In (nw es N h) EVB).
  { intros h Hh [_ G]. assert (In h Eb) by (apply IEb; auto). split; apply in_app_iff; [auto|].
    right. apply in_map. auto. }
  assert (GB : forall h, In h es -> goes m h vb va -> In h EVB /\ In (nw es N h) EVA).
  { intros h Hh [_ G]. assert (In h Ea) by (apply IEa; auto). split; apply in_app_iff; [auto|].
    right. apply in_map. auto. }
  assert (EVAi : forall h, In h EVA -> rd he2 h = Some e).
  { intros h Hh. rewrite EE. rewrite (proj2 (inb_nIn h EVB)) by auto. rewrite (proj2 (inb_In h EVA)) by auto. reflexivity. }
  assert (EVBi : forall h, In h EVB -> rd he2 h = Some (n_e m)).
  { intros h Hh. rewrite EE. rewrite (proj2 (inb_In h EVB)) by auto. reflexivity. }
  assert (EVes : forall h, In h EVA \/ In h EVB -> h < N -> In h es).
  { intros h [Hh|Hh] B; apply in_app_iff in Hh; destruct Hh as [Hh|Hh].
    - apply IEb in Hh; tauto. - apply NEa in Hh; lia. - apply IEa in Hh; tauto. - apply NEb in Hh; lia. }
  assert (EO : forall h, h < N -> ~ In h es -> rd he2 h = rd (he_edge m) h).
  { intros h Hh H. rewrite EE. rewrite (proj2 (inb_nIn h EVB)), (proj2 (inb_nIn h EVA)); auto. }
  assert (ELT : forall h g, rd (he_edge m) h = Some g -> g < n_e m /\ h < N).
  { intros h g H. pose proof (rd_lt _ _ _ H) as K. rewrite Le in K.
    destruct (wf_hedge _ W h K) as (g' & ? & ?). assert (g = g') by congruence. subst. auto. }
  assert (FLT : forall h g, rd (he_face m) h = Some g -> g < n_f m /\ h < N).
  { intros h g H. pose proof (rd_lt _ _ _ H) as K. rewrite Lf in K.
    destruct (wf_hface _ W h K) as (g' & ? & ?). assert (g = g') by congruence. subst. auto. }
  assert (VLT : forall h g, rd (he_vert m) h = Some g -> g < NV /\ h < N).
  { intros h g H. pose proof (rd_lt _ _ _ H) as K. rewrite Lv in K.
    destruct (wf_vert _ W h K) as (g' & ? & ?). assert (g = g') by congruence. subst. auto. }
  assert (CASE : forall h, h < N + k -> (h < N /\ ~ In h es) \/ In h es \/ exists h', In h' es /\ h = nw es N h').
  { intros h Hh. destruct (Nat.lt_ge_cases h N).
    - destruct (in_dec Nat.eq_dec h es); auto.
    - right. right. destruct (nwP h) as (h' & K1 & K2); eauto. }
  assert (INV_A : forall h, rd he2 h = Some e <-> In h EVA).
  { intros h. split; auto. intros H. rewrite EE in H. destruct (inb h EVB) eqn:EB; [inversion H; lia|].
    destruct (inb h EVA) eqn:EA; [now apply inb_In|]. exfalso. apply IE in H as H'.
    destruct (J h H') as [G|G]; [destruct (GA h H' G) as [K _]|destruct (GB h H' G) as [K _]];
      [apply inb_nIn in EA|apply inb_nIn in EB]; contradiction. }
  assert (INV_B : forall h, rd he2 h = Some (n_e m) <-> In h EVB).
  { intros h. split; auto. intros H. rewrite EE in H. destruct (inb h EVB) eqn:EB; [now apply inb_In|].
    destruct (inb h EVA); [inversion H; lia|]. apply ELT in H. lia. }
  assert (INV_O : forall h g, g <> e -> g <> n_e m -> (rd he2 h = Some g <-> rd (he_edge m) h = Some g)).
  { intros h g H1 H2. rewrite EE. destruct (inb h EVB) eqn:EB.
    - apply inb_In in EB. split; [congruence|]. intros H. exfalso.
      assert (In h es) by (apply EVes; [auto|]; apply ELT in H; tauto). apply IE in H0. congruence.
    - destruct (inb h EVA) eqn:EA; [|tauto]. apply inb_In in EA. split; [congruence|]. intros H. exfalso.
      assert (In h es) by (apply EVes; [auto|]; apply ELT in H; tauto). apply IE in H0. congruence. }
  (* face cycles *)
  assert (FCY : forall f l, cycle (rd (he_next m)) (fun h => rd (he_face m) h = Some f) l ->
            cycle (rd hn) (fun h => rd hf h = Some f) (flat_map (ext es N) l)).
  { intros f l (Nl & Dl & Kl & Il).
    assert (Bl : forall h, In h l -> h < N) by (intros h Hh; apply Il in Hh; apply FLT in Hh; tauto).
    split; [|split; [|split]].
    - destruct l as [|a t]; [congruence|]. simpl. unfold ext. destruct (inb a es); discriminate.
    - apply NoDup_ext; auto.
    - eapply linked_split; eauto.
    - intros h. rewrite in_ext. split.
      + intros [H|(h' & H1 & H2 & ->)].
        * rewrite FO by auto. apply Il. exact H.
        * rewrite FN by auto. apply Il. exact H1.
      + intros H. assert (Bh : h < N + k) by (apply rd_lt in H; lia).
        destruct (CASE h Bh) as [[B _]|[H1|(h' & H1 & ->)]].
        * left. apply Il. rewrite <- FO; auto.
        * left. apply Il. rewrite <- FO; auto.
        * right. exists h'. rewrite FN in H by auto. apply Il in H. auto. }
  assert (WF' : well_formed m').
  { apply wf_of_parts; unfold m'; app_simpl.
    - unfold lens. app_simpl. lia.
    - intros h Hh. fold N in Hh. destruct (Nat.lt_ge_cases h N).
      + rewrite VO by auto. destruct (wf_vert _ W h) as (v & ? & ?); auto. exists v. split; [lia|auto].
      + rewrite VN by lia. exists NV. split; [unfold NV; lia|auto].
    - intros h Hh. fold N in Hh. destruct (CASE h Hh) as [[B H]|[H|(h' & H & ->)]].
      + rewrite EO by auto. destruct (wf_hedge _ W h) as (v & ? & ?); auto. exists v. split; [lia|auto].
      + destruct (J h H) as [G|G]; [destruct (GA h H G) as [K _]; exists e|destruct (GB h H G) as [K _]; exists (n_e m)]; split; auto; lia.
      + destruct (J h' H) as [G|G]; [destruct (GA h' H G) as [_ K]; exists (n_e m)|destruct (GB h' H G) as [_ K]; exists e]; split; auto; lia.
    - intros h Hh. fold N in Hh. destruct (CASE h Hh) as [[B H]|[H|(h' & H & ->)]].
      + rewrite FO by auto. apply (wf_hface _ W h B).
      + rewrite FO by auto. apply (wf_hface _ W h); auto.
      + rewrite FN by auto. apply (wf_hface _ W h'); auto.
    - intros f Hf. destruct (wf_face _ W f Hf) as [(h & Eh1 & Eh2) _]. exists h. split; auto.
      rewrite FO; auto. apply FLT in Eh2. tauto.
    - intros g Hg. rewrite R13, R12. destruct (Nat.eqb_spec g (n_e m)) as [->|Hn].
      + exists hb0. split; auto. apply EVBi. rewrite XB. now left.
      + destruct (Nat.eqb_spec g e) as [->|Hn'].
        * exists ha0. split; auto. apply EVAi. rewrite XA. now left.
        * destruct (wf_edge _ W g) as [(h & Eh1 & Eh2) _]; [lia|]. exists h. rewrite rd_resize by lia. split; auto.
          apply INV_O; auto.
    - intros g Hg. destruct (Nat.eq_dec g (n_e m)) as [->|Hn]; [|destruct (Nat.eq_dec g e) as [->|Hn']].
      + exists NV, vb. intros h Hh. apply INV_B in Hh. apply in_app_iff in Hh. destruct Hh as [Hh|Hh].
        * (* an old halfedge vb -> new *)
          right. apply IEa in Hh. destruct Hh as [H1 H2]. destruct (J h H1) as [[_ G]|[G _]]; [congruence|].
          split; [cbn [m' he_vert]; app_simpl; rewrite VO by auto; exact G|apply TE; auto].
        * left. apply in_map_iff in Hh. destruct Hh as (h' & <- & Hh). apply IEb in Hh. destruct Hh as [H1 H2].
          split; [cbn [m' he_vert]; app_simpl; apply VN; apply nwE; auto|]. 
          exact (eq_trans (TNW h' H1) H2).
      + exists va, NV. intros h Hh. apply INV_A in Hh. apply in_app_iff in Hh. destruct Hh as [Hh|Hh].
        * left. apply IEb in Hh. destruct Hh as [H1 H2]. destruct (J h H1) as [[G _]|[_ G]]; [|congruence].
          split; [cbn [m' he_vert]; app_simpl; rewrite VO by auto; exact G|apply TE; auto].
        * right. apply in_map_iff in Hh. destruct Hh as (h' & <- & Hh). apply IEa in Hh. destruct Hh as [H1 H2].
          split; [cbn [m' he_vert]; app_simpl; apply VN; apply nwE; auto|].
          exact (eq_trans (TNW h' H1) H2).
      + destruct (wf_ends _ W g) as (a & b & Jg); [lia|]. exists a, b. intros h Hh. apply INV_O in Hh; auto.
        assert (h < N) by (apply ELT in Hh; tauto).
        assert (~ In h es) by (intros C; apply IE in C; congruence).
        specialize (Jg h Hh). unfold joins, goes in *. fold m'. rewrite TO by auto. unfold m'. app_simpl.
        rewrite VO by auto. exact Jg.
    - intros v Hv. fold NV in Hv. destruct (Nat.eq_dec v NV) as [->|Hn].
      + right. exists N. split; auto. apply VN. lia.
      + rewrite VHO by lia. destruct (wf_vertex _ W v) as [(N1 & N2)|((h & Eh1 & Eh2) & _)]; [unfold NV in *; lia| |].
        * left. split; auto. intros h Hh. assert (Bh := rd_lt _ _ _ Hh). rewrite L2, Qv in Bh.
          destruct (Nat.lt_ge_cases h N); [rewrite VO in Hh by auto; eapply N2; eauto|].
          rewrite VN in Hh by lia. congruence.
        * right. exists h. split; auto. rewrite VO; auto. apply VLT in Eh2. tauto.
    - intros h f Hh. assert (Q : exists h', rd (he_face m) h' = Some f).
      { assert (Bh := rd_lt _ _ _ Hh). rewrite L14, Qf in Bh. destruct (CASE h Bh) as [[B H]|[H|(h' & H & ->)]].
        - rewrite FO in Hh by auto. eauto. - rewrite FO in Hh by auto. eauto. - rewrite FN in Hh by auto. eauto. }
      destruct Q as [h' Q]. destruct (PF h' f Q) as [l L]. exists (flat_map (ext es N) l). apply FCY. exact L.
    - intros h g Hh. destruct (Nat.eq_dec g (n_e m)) as [->|Hn]; [|destruct (Nat.eq_dec g e) as [->|Hn']].
      + exists EVB. split; [rewrite XB; discriminate|]. split; [auto|]. split; [auto|]. intros x. symmetry. apply INV_B.
      + exists EVA. split; [rewrite XA; discriminate|]. split; [auto|]. split; [auto|]. intros x. symmetry. apply INV_A.
      + apply INV_O in Hh; auto. destruct (PE h g Hh) as [l L]. exists l. revert L. apply cycle_ext.
        * intros x. symmetry. apply INV_O; auto.
        * intros x Hx. assert (x < N) by (apply ELT in Hx; tauto).
          assert (~ In x es) by (intros C; apply IE in C; congruence).
          rewrite R8, R7, Rs; auto; intros C; apply H0; apply EVes; auto.
    - intros h v Hh. assert (Bh := rd_lt _ _ _ Hh). rewrite L2, Qv in Bh.
      destruct (Nat.lt_ge_cases h N).
      + rewrite VO in Hh by auto. destruct (PO h v Hh) as [l L]. exists l.
        assert (v < NV) by (apply VLT in Hh; tauto).
        revert L. apply cycle_ext.
        * intros x. split.
          -- intros K. rewrite VO; auto. apply VLT in K. tauto.
          -- intros K. assert (Bx := rd_lt _ _ _ K). rewrite L2, Qv in Bx.
             destruct (Nat.lt_ge_cases x N); [rewrite VO in K; auto|]. rewrite VN in K by lia. inversion K; lia.
        * intros x Hx. apply VLT in Hx. rewrite R6 by (rewrite NSI; lia). symmetry. apply Ro.
      + rewrite VN in Hh by lia. inversion Hh; subst v. exists ns. split.
        * intros C. apply (f_equal (@length nat)) in C. rewrite NSL in C. fold k in C. simpl in C. lia.
        * split; [exact DN|]. split; [exact K6|]. intros x. rewrite NSI. split; [apply VN|].
          intros K. assert (Bx := rd_lt _ _ _ K). rewrite L2, Qv in Bx.
          destruct (Nat.lt_ge_cases x N); [|lia]. rewrite VO in K by auto. apply VLT in K. lia.
    - fold m'. intros h v Hh. assert (Bh : h < N + k).
      { destruct (Nat.lt_ge_cases h (N + k)); auto. rewrite TZ in Hh by auto. discriminate. }
      assert (TIN : forall x u, u <> NV -> (tip m' x = Some u <-> exists y, tip m y = Some u /\ x = nw es N y)).
      { intros x u Hu. split.
        - intros K. assert (Bx : x < N + k).
          { destruct (Nat.lt_ge_cases x (N + k)); auto. rewrite TZ in K by auto. discriminate. }
          destruct (CASE x Bx) as [[B H]|[H|(x' & H & ->)]].
          + exists x. rewrite nwO by auto. rewrite TO in K by auto. auto.
          + rewrite TE in K by auto. congruence.
          + exists x'. rewrite TNW in K by auto. auto.
        - intros (y & K & ->). assert (y < N) by (apply Ba; congruence).
          destruct (in_dec Nat.eq_dec y es) as [H'|H'].
          + rewrite TNW by auto. exact K.
          + rewrite nwO by auto. rewrite TO by auto. exact K. }
      destruct (Nat.eq_dec v NV) as [->|HnV].
      + exists es. split; [destruct es; [destruct I0|discriminate]|]. split; [exact DE|]. split; [exact K5|].
        intros x. split; [apply TE|]. intros K. assert (Bx : x < N + k).
        { destruct (Nat.lt_ge_cases x (N + k)); auto. rewrite TZ in K by auto. discriminate. }
        assert (TB : forall y, tip m y <> Some NV).
        { intros y Hy. unfold tip in Hy. destruct (rd (he_next m) y); [|discriminate]. apply VLT in Hy. lia. }
        destruct (CASE x Bx) as [[B H]|[H|(x' & H & ->)]]; auto.
        * rewrite TO in K by auto. exfalso. eapply TB; eauto.
        * rewrite TNW in K by auto. exfalso. eapply TB; eauto.
      + destruct (Nat.eq_dec v va) as [->|Hva]; [|destruct (Nat.eq_dec v vb) as [->|Hvb]].
        * exists (map (nw es N) ina). split.
          { apply TIN in Hh; auto. destruct Hh as (y & K & _). apply Ia in K. destruct ina; [destruct K|discriminate]. }
          split; [exact DVA|]. split; [exact KA|]. intros x. rewrite TIN by auto. rewrite in_map_iff.
          split; [intros (y & <- & K); exists y; split; auto; now apply Ia|intros (y & K & ->); exists y; split; auto; now apply Ia].
        * exists (map (nw es N) inb'). split.
          { apply TIN in Hh; auto. destruct Hh as (y & K & _). apply Ib in K. destruct inb'; [destruct K|discriminate]. }
          split; [exact DVB|]. split; [exact KB|]. intros x. rewrite TIN by auto. rewrite in_map_iff.
          split; [intros (y & <- & K); exists y; split; auto; now apply Ib|intros (y & K & ->); exists y; split; auto; now apply Ib].
        * apply TIN in Hh; auto. destruct Hh as (y & K & _). destruct (PI y v K) as [l L]. exists l.
          assert (NES : forall x, tip m x = Some v -> ~ In x es).
          { intros x Hx C. destruct (J x C) as [[_ G]|[_ G]]; congruence. }
          revert L. apply cycle_ext.
          -- intros x. rewrite TIN by auto. split.
             ++ intros Hx. exists x. split; auto. symmetry. apply nwO. auto.
             ++ intros (x' & Hx & ->). rewrite nwO by auto. exact Hx.
          -- intros x Hx. assert (x < N) by (apply Ba; congruence).
             assert (X1 : ~ In x (map (nw es N) ina)).
             { intros C. apply in_map_iff in C. destruct C as (y' & K1 & K2). rewrite <- (nwO x) in K1 by auto.
               apply nwI in K1; auto. subst. apply Ia in K2. congruence. }
             assert (X2 : ~ In x (map (nw es N) inb')).
             { intros C. apply in_map_iff in C. destruct C as (y' & K1 & K2). rewrite <- (nwO x) in K1 by auto.
               apply nwI in K1; auto. subst. apply Ib in K2. congruence. }
             rewrite R5, R4, R3, Ri; auto. }
  exists m'. split; [reflexivity|]. split; [exact WF'|]. 
  split; [unfold m'; app_simpl; lia|]. split; [unfold m'; app_simpl; lia|]. split; [reflexivity|]. split; [reflexivity|].
  split; [|split; [|split; [|split]]].
  - intros f l Bf Hl. destruct (face_halfedges_ok m f W Bf) as (l' & Hl' & Hd & C).
    assert (l' = l) by congruence. subst l'. apply FCY in C as C'. destruct C' as (_ & D' & K' & _).
    unfold face_halfedges. unfold m'. app_simpl.
    destruct l as [|a t]; [destruct C as [C _]; congruence|]. simpl in Hd. rewrite <- Hd.
    assert (X : ext es N a = a :: tl (ext es N a)) by (unfold ext; destruct (inb a es); reflexivity).
    cbn [flat_map] in *. rewrite X in *. apply circulate_linked; auto.
  - intros h Hh. fold N in Hh. unfold m' at 1 2. app_simpl. split; [auto|]. split; [auto|]. intros He.
    assert (~ In h es) by (rewrite IE; exact He). split; [apply EO; auto|]. apply TO; auto.
  - intros h He. apply IE in He. cbv zeta. unfold m' at 1. app_simpl. split; [apply VN; apply nwE; auto|].
    split; [apply TE; auto|]. split; [apply TNW; auto|]. split; [apply FN; auto|]. split; intros G.
    + destruct (GA h He G). split; [apply EVAi|apply EVBi]; auto.
    + destruct (GB h He G). split; [apply EVBi|apply EVAi]; auto.
  - exact VHO.
  - exact VHN.
Qed.
