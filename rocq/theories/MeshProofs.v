(** Well-formed meshes: iterators, split_face, add_face_by_halfedges. *)
From Coq Require Import List Arith Bool Lia Permutation.
From Verif Require Import Lib Mesh MeshSpec MeshFacts.
Import ListNotations.
Local Open Scope opt_scope.

(** ** Fuel: running out means that the loop of the code never ends. *)
Lemma circ_mono a first cur k l : circ a first cur k = Some l -> circ a first cur (S k) = Some l.
Proof.
  revert cur l. induction k as [|k IH]; intros cur l H; [discriminate|].
  change (circ a first cur (S (S k))) with
    (nx <- rd a cur ;; if nx =? first then Some [cur] else r <- circ a first nx (S k) ;; Some (cur :: r)).
  cbn [circ] in H. destruct (rd a cur) as [nx|]; [|discriminate].
  destruct (nx =? first); [assumption|].
  destruct (circ a first nx k) as [r|] eqn:E; [|discriminate]. rewrite (IH _ _ E). assumption.
Qed.

Lemma circ_path_of a first k : forall cur l, circ a first cur k = Some l ->
  exists t, l = cur :: t /\ path (rd a) cur t first /\ ~ In first t.
Proof.
  induction k as [|k IH]; intros cur l H; [discriminate|]. cbn [circ] in H.
  destruct (rd a cur) as [nx|] eqn:E; [|discriminate].
  destruct (Nat.eqb_spec nx first) as [->|Hn].
  - inversion H; subst. exists []. simpl. auto.
  - destruct (circ a first nx k) as [r|] eqn:C; [|discriminate]. inversion H; subst.
    destruct (IH _ _ C) as (t & -> & P & N). exists (nx :: t). simpl. intuition.
Qed.

Lemma path_ends_unique f a t1 t2 z : path f a t1 z -> path f a t2 z -> ~ In z t1 -> ~ In z t2 -> t1 = t2.
Proof. apply path_unique. Qed.

Lemma path_suffix_nodup f z : forall t a, path f a t z -> ~ In z t -> a <> z -> NoDup (a :: t).
Proof.
  induction t as [|b t IH]; intros a P N Hz.
  - constructor; auto. constructor.
  - destruct P as [E P]. assert (b <> z) by (intros ->; apply N; now left).
    assert (D : NoDup (b :: t)). { apply IH; auto. intros C; apply N; now right. }
    constructor; auto. intros Ha.
    (* a occurs again: the path from a to z has two different lengths *)
    destruct (in_split _ _ Ha) as (l1 & l2 & E').
    assert (P2 : path f a (b :: t) z) by (split; assumption).
    assert (P3 : path f a l2 z).
    { rewrite E' in P2. apply path_app in P2. apply P2. }
    assert (b :: t = l2).
    { apply (path_unique f a (b :: t) z l2 P2 P3); auto. intros C. apply N. rewrite E'.
      apply in_or_app. right. now right. }
    apply (f_equal (@length nat)) in E'. rewrite <- H0 in E'. rewrite app_length in E'. simpl in E'. lia.
Qed.

Lemma circ_fuel a first k l : circ a first first k = Some l -> circ a first first (length a) = Some l.
Proof.
  intros H. destruct (circ_path_of _ _ _ _ _ H) as (t & -> & P & N).
  apply circ_path; auto.
  - intros x Hx ->. contradiction.
  - assert (D : NoDup (first :: t)).
    { constructor; auto. destruct t as [|b t]; [constructor|]. destruct P as [_ P].
      apply (path_suffix_nodup (rd a) first t b P). - intros C; apply N; now right.
      - intros ->. apply N. now left. }
    pose proof (NoDup_bound _ _ D (linked_lt a (first :: t) P)) as K. simpl in K. lia.
Qed.

(** ** Well-formedness through classes *)
Definition lens (m : mesh) : Prop :=
  (n_v m = length (v_he m) /\ n_f m = length (f_he m) /\ n_e m = length (e_he m) /\
   n_h m = length (he_next m)) /\
  (length (he_vert m) = n_h m /\ length (he_edge m) = n_h m /\ length (he_face m) = n_h m /\
   length (in_next m) = n_h m /\ length (out_next m) = n_h m /\ length (sib m) = n_h m).

Definition total (c : nat -> option nat) (n k : nat) : Prop :=
  forall h, h < n -> exists v, v < k /\ c h = Some v.

Lemma wf_parts m : well_formed m ->
  parts (rd (he_next m)) (rd (he_face m)) /\ parts (rd (sib m)) (rd (he_edge m)) /\
  parts (rd (out_next m)) (rd (he_vert m)) /\ parts (rd (in_next m)) (tip m).
Proof.
  intros W. destruct (wf_lengths _ W) as (L1 & L2 & L3 & _). destruct (wf_counts _ W) as (_ & _ & _ & L4).
  split; [|split; [|split]].
  - intros h f H. pose proof (rd_lt _ _ _ H) as B. rewrite L3 in B.
    destruct (wf_hface _ W h B) as (f' & B' & E). assert (f = f') by congruence. subst f'.
    apply (wf_face _ W f B').
  - intros h e H. pose proof (rd_lt _ _ _ H) as B. rewrite L2 in B.
    destruct (wf_hedge _ W h B) as (f' & B' & E). assert (e = f') by congruence. subst f'.
    apply (wf_edge _ W e B').
  - intros h v H. pose proof (rd_lt _ _ _ H) as B. rewrite L1 in B.
    destruct (wf_vert _ W h B) as (f' & B' & E). assert (v = f') by congruence. subst f'.
    destruct (wf_vertex _ W v B') as [(_ & N)|(_ & O & _)]; [exfalso; eapply N; eauto|exact O].
  - intros h v H. unfold tip in H. destruct (rd (he_next m) h) as [h'|] eqn:E; [|discriminate].
    pose proof (rd_lt _ _ _ H) as B. rewrite L1 in B.
    destruct (wf_vert _ W h' B) as (f' & B' & E'). assert (v = f') by congruence. subst f'.
    destruct (wf_vertex _ W v B') as [(_ & N)|(_ & _ & I)]; [exfalso; eapply N; eauto|exact I].
Qed.

Lemma parts_succ f c h v : parts f c -> c h = Some v -> exists h', f h = Some h' /\ c h' = Some v.
Proof.
  intros P H. destruct (P h v H) as [l L]. destruct (cycle_from _ _ _ _ L H) as [t (_ & _ & L' & I)].
  destruct t as [|b t]; simpl in L'.
  - exists h. auto.
  - exists b. destruct L' as [E _]. split; auto. apply I. simpl. auto.
Qed.

Lemma parts_pred f c h v : parts f c -> c h = Some v -> exists h', f h' = Some h /\ c h' = Some v.
Proof.
  intros P H. destruct (P h v H) as [l L]. destruct (cycle_from _ _ _ _ L H) as [t (_ & _ & L' & I)].
  destruct (list_eq_dec Nat.eq_dec t []) as [->|N].
  - simpl in L'. exists h. auto.
  - destruct (last_ex t N) as (t' & z & ->). simpl in L'. apply path_app in L'. destruct L' as [_ L'].
    exists z. split; [exact L'|]. apply I. right. apply in_or_app. right. now left.
Qed.

Lemma wf_next m h : well_formed m -> h < n_h m ->
  exists h', h' < n_h m /\ rd (he_next m) h = Some h' /\ rd (he_face m) h' = rd (he_face m) h.
Proof.
  intros W B. destruct (wf_hface _ W h B) as (f & Bf & E).
  destruct (parts_succ _ _ h f (proj1 (wf_parts m W)) E) as (h' & E1 & E2).
  exists h'. split; [|split; congruence]. destruct (wf_lengths _ W) as (_ & _ & L & _).
  rewrite <- L. eapply rd_lt; eauto.
Qed.

Lemma wf_tip m h : well_formed m -> h < n_h m -> exists v, v < n_v m /\ tip m h = Some v.
Proof.
  intros W B. destruct (wf_next m h W B) as (h' & B' & E & _). unfold tip. rewrite E.
  apply (wf_vert _ W h' B').
Qed.

Lemma wf_of_parts m : lens m ->
  total (rd (he_vert m)) (n_h m) (n_v m) -> total (rd (he_edge m)) (n_h m) (n_e m) ->
  total (rd (he_face m)) (n_h m) (n_f m) ->
  (forall f, f < n_f m -> exists h, rd (f_he m) f = Some h /\ rd (he_face m) h = Some f) ->
  (forall e, e < n_e m -> exists h, rd (e_he m) e = Some h /\ rd (he_edge m) h = Some e) ->
  (forall e, e < n_e m -> exists a b, forall h, rd (he_edge m) h = Some e -> joins m h a b) ->
  (forall v, v < n_v m -> (rd (v_he m) v = None /\ forall h, rd (he_vert m) h <> Some v) \/
     exists h, rd (v_he m) v = Some h /\ rd (he_vert m) h = Some v) ->
  parts (rd (he_next m)) (rd (he_face m)) -> parts (rd (sib m)) (rd (he_edge m)) ->
  parts (rd (out_next m)) (rd (he_vert m)) -> parts (rd (in_next m)) (tip m) ->
  well_formed m.
Proof.
  intros [L1 L2] TV TE TF FH EH EE VH PF PE PO PI.
  split; auto.
  - intros f B. destruct (FH f B) as (h & E1 & E2). split; [eauto|]. apply (PF h f E2).
  - intros e B. destruct (EH e B) as (h & E1 & E2). split; [eauto|]. apply (PE h e E2).
  - intros v B. destruct (VH v B) as [N|(h & E1 & E2)]; [left; exact N|right].
    split; [eauto|]. split; [apply (PO h v E2)|].
    destruct L2 as (Lv & Le & Lf & _). destruct L1 as (_ & _ & _ & L1).
    pose proof (rd_lt _ _ _ E2) as Bh. rewrite Lv in Bh.
    destruct (TF h Bh) as (f & _ & Ef). destruct (parts_pred _ _ h f PF Ef) as (p & Ep & _).
    apply (PI p v). unfold tip. rewrite Ep. exact E2.
Qed.

(** ** Iterators on well-formed meshes *)
Lemma circulate_cycle a S l h : cycle (rd a) S l -> S h ->
  exists r, circulate a h = Some r /\ cycle (rd a) S r /\ hd_error r = Some h.
Proof.
  intros C H. destruct (cycle_from _ _ _ _ C H) as [t C']. exists (h :: t). split; [|auto].
  destruct C' as (_ & D & L & _). apply circulate_linked; auto.
Qed.

Lemma face_halfedges_ok m f : well_formed m -> f < n_f m ->
  exists l, face_halfedges m f = Some l /\ hd_error l = rd (f_he m) f /\
    cycle (rd (he_next m)) (fun h => rd (he_face m) h = Some f) l.
Proof.
  intros W B. destruct (wf_face _ W f B) as [(h & E1 & E2) [l L]].
  destruct (circulate_cycle _ _ _ h L E2) as (r & E & C & H).
  exists r. unfold face_halfedges. rewrite E1. auto.
Qed.

Lemma edge_halfedges_ok m e : well_formed m -> e < n_e m ->
  exists l, edge_halfedges m e = Some l /\ hd_error l = rd (e_he m) e /\
    cycle (rd (sib m)) (fun h => rd (he_edge m) h = Some e) l.
Proof.
  intros W B. destruct (wf_edge _ W e B) as [(h & E1 & E2) [l L]].
  destruct (circulate_cycle _ _ _ h L E2) as (r & E & C & H).
  exists r. unfold edge_halfedges. rewrite E1. auto.
Qed.

Lemma face_vertices_ok m f l : well_formed m -> face_halfedges m f = Some l -> f < n_f m ->
  exists vs, face_vertices m f = Some vs /\ omap (rd (he_vert m)) l = Some vs.
Proof.
  intros W E B. destruct (face_halfedges_ok m f W B) as (l' & E' & _ & (_ & _ & _ & I)).
  assert (l = l') by congruence. subst l'.
  destruct (omap_total (rd (he_vert m)) l) as [vs Hv].
  { intros h Hh. apply I in Hh. apply rd_lt in Hh. destruct (wf_lengths _ W) as (_ & _ & L & _).
    rewrite L in Hh. destruct (wf_vert _ W h Hh) as (v & _ & Ev). eauto. }
  exists vs. unfold face_vertices. rewrite E. auto.
Qed.

Lemma he_prev_ok m h : well_formed m -> h < n_h m ->
  exists p, he_prev m h = Some p /\ rd (he_next m) p = Some h /\ rd (he_face m) p = rd (he_face m) h /\
            p < n_h m.
Proof.
  intros W B. destruct (wf_hface _ W h B) as (f & Bf & Ef).
  destruct (wf_parts m W) as (PF & _). destruct (PF h f Ef) as [l L].
  destruct (cycle_from _ _ _ _ L Ef) as [t (_ & D & LK & I)].
  destruct (prev_linked (he_next m) h t D LK) as (p & E & Ep & Ip).
  exists p. split; [exact E|]. split; [exact Ep|]. apply I in Ip. split; [congruence|].
  apply rd_lt in Ep. destruct (wf_counts _ W) as (_ & _ & _ & ->). exact Ep.
Qed.

Lemma incoming_ok m v h : well_formed m -> rd (v_he m) v = Some h ->
  exists l, incoming_halfedges m v = Some l /\ cycle (rd (in_next m)) (fun x => tip m x = Some v) l.
Proof.
  intros W E. pose proof (rd_lt _ _ _ E) as B. destruct (wf_counts _ W) as (Lv & _).
  rewrite <- Lv in B. destruct (wf_vertex _ W v B) as [(N & _)|((h' & E1 & E2) & _ & [l L])]; [congruence|].
  assert (h' = h) by congruence. subst h'.
  assert (Bh : h < n_h m). { destruct (wf_lengths _ W) as (<- & _). eapply rd_lt; eauto. }
  destruct (he_prev_ok m h W Bh) as (p & Ep & Np & _ & _).
  destruct (circulate_cycle _ _ _ p L) as (r & Er & C & _). { unfold tip. rewrite Np. exact E2. }
  exists r. unfold incoming_halfedges. rewrite E, Ep. auto.
Qed.

Lemma outgoing_ok m v h : well_formed m -> rd (v_he m) v = Some h ->
  exists l, outgoing_halfedges m v = Some l /\
    cycle (rd (out_next m)) (fun x => rd (he_vert m) x = Some v) l.
Proof.
  intros W E. pose proof (rd_lt _ _ _ E) as B. destruct (wf_counts _ W) as (Lv & _).
  rewrite <- Lv in B. destruct (wf_vertex _ W v B) as [(N & _)|((h' & E1 & E2) & [l L] & _)]; [congruence|].
  assert (h' = h) by congruence. subst h'.
  destruct (circulate_cycle _ _ _ h L E2) as (r & Er & C & _).
  exists r. unfold outgoing_halfedges. rewrite E. auto.
Qed.

(** he_twin: the first sibling with another start vertex, or [hid] itself. *)
Lemma twin_path s v hid t : forall cur fuel x,
  path (rd s) cur t hid -> ~ In hid t -> length t < fuel ->
  rd v cur = Some x -> (forall y, In y t -> exists z, rd v y = Some z) ->
  exists r, twin_loop s v hid cur fuel = Some r /\
    ((In r t /\ rd v r <> Some x) \/ (r = hid /\ forall y, In y t -> rd v y = Some x)).
Proof.
  induction t as [|b t IH]; intros cur fuel x P N Hf Ex Hv; destruct fuel; simpl in *; try lia.
  - rewrite P, Nat.eqb_refl. exists hid. split; auto. right. split; auto. tauto.
  - destruct P as [-> P]. rewrite (proj2 (Nat.eqb_neq b hid)) by auto. rewrite Ex.
    destruct (Hv b) as [z Ez]; auto. rewrite Ez.
    destruct (Nat.eqb_spec x z) as [<-|Hxz]; simpl.
    + destruct (IH b fuel x) as (r & Er & Hr); auto; [lia|].
      exists r. split; auto. destruct Hr as [[H1 H2]|[H1 H2]]; [left; auto|right].
      split; auto. intros y [<-|Hy]; auto.
    + exists b. split; auto. left. split; auto. congruence.
Qed.

Lemma he_twin_ok m h a b e : well_formed m -> rd (he_edge m) h = Some e -> goes m h a b -> a <> b ->
  exists r, he_twin m h = Some r /\ rd (he_edge m) r = Some e /\
    (goes m r b a \/ (r = h /\ forall x, rd (he_edge m) x = Some e -> goes m x a b)).
Proof.
  intros W E G Hab. destruct (wf_parts m W) as (_ & PE & _).
  destruct (PE h e E) as [l L]. destruct (cycle_from _ _ _ _ L E) as [t (_ & D & LK & I)].
  inversion D as [|? ? N D']; subst. simpl in LK.
  destruct (wf_lengths _ W) as (Lv & Le & _ & _ & _ & Ls).
  assert (Be : e < n_e m).
  { pose proof (rd_lt _ _ _ E) as B. rewrite Le in B. destruct (wf_hedge _ W h B) as (e' & B' & E').
    congruence. }
  assert (J : forall x, rd (he_edge m) x = Some e -> joins m x a b).
  { destruct (wf_ends _ W e Be) as (u & w & J). intros x Hx. specialize (J x Hx) as Jx. specialize (J h E).
    unfold joins, goes in *. destruct G as [G1 G2].
    destruct J as [[J1 J2]|[J1 J2]]; assert (Q : forall y z : nat, Some y = Some z -> y = z) by congruence;
    pose proof (Q _ _ (eq_trans (eq_sym J1) G1)); pose proof (Q _ _ (eq_trans (eq_sym J2) G2)); subst; tauto. }
  assert (VT : forall y, In y t -> exists z, rd (he_vert m) y = Some z).
  { intros y Hy. assert (Hy' : rd (he_edge m) y = Some e) by (apply I; now right).
    apply rd_lt in Hy'. rewrite Le in Hy'. destruct (wf_vert _ W y Hy') as (z & _ & ?). eauto. }
  destruct G as [G1 G2].
  destruct (twin_path (sib m) (he_vert m) h t h (length (sib m)) a LK N) as (r & Er & Hr); auto.
  { pose proof (NoDup_bound _ _ D (linked_lt (sib m) (h :: t) LK)) as K. simpl in K. lia. }
  exists r. split; [exact Er|].
  destruct Hr as [[H1 H2]|[-> H2]].
  - assert (Hr : rd (he_edge m) r = Some e) by (apply I; now right). split; [exact Hr|]. left.
    destruct (J r Hr) as [[J1 J2]|J1]; [congruence|exact J1].
  - split; [exact E|]. right. split; auto. intros x Hx. pose proof (proj2 (I x) Hx) as Ix.
    assert (V : rd (he_vert m) x = Some a). { destruct Ix as [<-|Ix]; auto. }
    destruct (J x Hx) as [J1|[J1 J2]]; [exact J1|]. congruence.
Qed.
