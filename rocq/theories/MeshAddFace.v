(** add_face_by_halfedges preserves well-formedness and closes the loop. *)
From Coq Require Import List Arith Bool Lia Permutation.
From Verif Require Import Lib Mesh MeshSpec MeshFacts MeshProofs.
Import ListNotations.
Local Open Scope opt_scope.

(** The class of a halfedge after copying: that of the original. *)
Definition copied (c : nat -> option nat) (ps : list (nat * nat)) (x : nat) : option nat :=
  match find (fun p => snd p =? x) ps with Some p => c (fst p) | None => c x end.

Lemma copy_all_spec os : forall (a : ids) ns,
  length ns = length os -> (forall o, In o os -> o < length a /\ ~ In o ns) ->
  (forall n, In n ns -> n < length a) -> NoDup ns ->
  exists a', copy_all a (combine os ns) = Some a' /\ length a' = length a /\
    forall x, rd a' x = copied (rd a) (combine os ns) x.
Proof.
  induction os as [|o os IH]; intros a ns Hl Ho Hn D; destruct ns as [|n ns]; try discriminate.
  - exists a. simpl. auto.
  - simpl. inversion_clear D as [|? ? N D']. destruct (Ho o) as [Lo No]; [now left|].
    destruct (nth_error_ex a o Lo) as [y Ey]. rewrite Ey.
    destruct (set_spec a n y) as (a1 & E1 & L1 & R1); [apply Hn; now left|]. rewrite E1.
    destruct (IH a1 ns) as (a2 & E2 & L2 & R2); auto.
    { intros o' Ho'. rewrite L1. destruct (Ho o') as [? Hx]; [now right|]. simpl in Hx. tauto. }
    { intros n' Hn'. rewrite L1. apply Hn. now right. }
    exists a2. split; [assumption|]. split; [lia|]. intros x. rewrite R2. unfold copied. simpl.
    rewrite (Nat.eqb_sym n x).
    destruct (find (fun p => snd p =? x) (combine os ns)) as [p|] eqn:F.
    + apply find_some in F. destruct F as [F1 F2]. apply Nat.eqb_eq in F2. destruct p as [po pn].
      simpl in *. subst pn. pose proof (in_combine_r _ _ _ _ F1). pose proof (in_combine_l _ _ _ _ F1) as Il.
      rewrite R1. destruct (Nat.eqb_spec x n); [subst; contradiction|].
      destruct (Ho po) as [_ Hx]; [now right|]. rewrite (proj2 (Nat.eqb_neq po n)); auto.
    + rewrite R1. destruct (Nat.eqb_spec x n); [|reflexivity]. unfold rd. simpl. rewrite Ey. destruct y; auto.
Qed.

Lemma dup_eq ps : forall m, dup_halfedges m ps =
  (hv <- copy_all (he_vert m) ps ;; s <- insert_all (sib m) ps ;; i <- insert_all (in_next m) ps ;;
   o <- insert_all (out_next m) ps ;; he <- copy_all (he_edge m) ps ;;
   Some (set_he_edge (set_out_next (set_in_next (set_sib (set_he_vert m hv) s) i) o) he)).
Proof.
  induction ps as [|[o n] ps IH]; intros m.
  - destruct m; reflexivity.
  - cbn [dup_halfedges copy_all insert_all].
    destruct (nth_error (he_vert m) o) as [x|]; [|reflexivity].
    destruct (set (he_vert m) n x) as [hv|]; [|reflexivity].
    cbn [set_he_vert set_sib set_in_next set_out_next he_vert sib in_next out_next he_edge].
    destruct (insert_halfedge (sib m) o n) as [s|]; [|destruct (copy_all hv ps); reflexivity].
    cbn [set_he_vert set_sib set_in_next set_out_next he_vert sib in_next out_next he_edge].
    destruct (insert_halfedge (in_next m) o n) as [i|];
      [|destruct (copy_all hv ps); [destruct (insert_all s ps)|]; reflexivity].
    cbn [set_he_vert set_sib set_in_next set_out_next he_vert sib in_next out_next he_edge].
    destruct (insert_halfedge (out_next m) o n) as [u|];
      [|destruct (copy_all hv ps); [destruct (insert_all s ps); [destruct (insert_all i ps)|]|]; reflexivity].
    cbn [set_he_vert set_sib set_in_next set_out_next he_vert sib in_next out_next he_edge].
    destruct (nth_error (he_edge m) o) as [e|];
      [|destruct (copy_all hv ps); [destruct (insert_all s ps); [destruct (insert_all i ps); [destruct (insert_all u ps)|]|]|]; reflexivity].
    destruct (set (he_edge m) n e) as [he|];
      [|destruct (copy_all hv ps); [destruct (insert_all s ps); [destruct (insert_all i ps); [destruct (insert_all u ps)|]|]|]; reflexivity].
    rewrite IH. reflexivity.
Qed.

Lemma copied_old c os n0 x : x < n0 \/ n0 + length os <= x -> copied c (combine os (seq n0 (length os))) x = c x.
Proof.
  intros H. unfold copied.
  destruct (find (fun p => snd p =? x) (combine os (seq n0 (length os)))) as [[po pn]|] eqn:F; auto.
  apply find_some in F. destruct F as [F1 F2]. apply Nat.eqb_eq in F2. simpl in F2. subst pn.
  apply in_combine_r in F1. apply in_seq in F1. lia.
Qed.

Lemma copied_new c os : forall n0 i o, nth_error os i = Some o ->
  copied c (combine os (seq n0 (length os))) (n0 + i) = c o.
Proof.
  unfold copied. induction os as [|o' os IH]; intros n0 i o H; destruct i; simpl in *; try discriminate.
  - inversion H; subst. rewrite Nat.add_0_r, Nat.eqb_refl. reflexivity.
  - rewrite (proj2 (Nat.eqb_neq n0 (n0 + S i))) by lia.
    specialize (IH (S n0) i o H). replace (S n0 + i) with (n0 + S i) in IH by lia.
    destruct (find (fun p => snd p =? n0 + S i) (combine os (seq (S n0) (length os)))); auto.
Qed.

(** The end vertices of the old halfedges form a loop. *)
Definition closes (m : mesh) (hs : list nat) : Prop :=
  forall i h h', nth_error hs i = Some h -> nth_error (hs ++ firstn 1 hs) (S i) = Some h' ->
    exists v, tip m h = Some v /\ rd (he_vert m) h' = Some v.

Lemma path_at f t : forall a z i x y, path f a t z ->
  nth_error (a :: t) i = Some x -> nth_error (t ++ [z]) i = Some y -> f x = Some y.
Proof.
  induction t as [|b t IH]; intros a z i x y P Hx Hy.
  - destruct i; simpl in *; [|destruct i; discriminate]. congruence.
  - destruct P as [E P]. destruct i; simpl in Hx, Hy; [congruence|]. eapply IH; eauto.
Qed.

Lemma linked_at f l i x y : linked f l ->
  nth_error l i = Some x -> nth_error (l ++ firstn 1 l) (S i) = Some y -> f x = Some y.
Proof.
  destruct l as [|a t]; [destruct i; discriminate|]. intros L Hx Hy.
  simpl firstn in Hy. simpl in Hy. eapply (path_at f t a a i); eauto.
Qed.

Lemma omap_nth {A B} (f : A -> option B) (l : list A) (r : list B) : length r = length l ->
  (forall i x y, nth_error l i = Some x -> nth_error r i = Some y -> f x = Some y) ->
  omap f l = Some r.
Proof.
  revert r. induction l as [|a l IH]; intros r Hl H; destruct r as [|b r]; try discriminate; auto.
  simpl. rewrite (H 0 a b) by reflexivity. rewrite (IH r); auto.
  intros i x y Hx Hy. apply (H (S i)); auto.
Qed.

Lemma omap_nth_inv {A B} (f : A -> option B) (l : list A) : forall (r : list B), omap f l = Some r ->
  length r = length l /\
  forall i x y, nth_error l i = Some x -> nth_error r i = Some y -> f x = Some y.
Proof.
  induction l as [|a l IH]; intros r H; simpl in H.
  - inversion H; subst. split; auto. intros i x y Hx. destruct i; discriminate.
  - destruct (f a) as [b|] eqn:E; [|discriminate]. destruct (omap f l) as [r'|] eqn:E'; [|discriminate].
    inversion H; subst. destruct (IH r' eq_refl) as [L H']. split; [simpl; lia|].
    intros i x y Hx Hy. destruct i; simpl in *; [congruence|]. eauto.
Qed.

Lemma nth_seq n0 k i : i < k -> nth_error (seq n0 k) i = Some (n0 + i).
Proof.
  revert n0 i. induction k as [|k IH]; intros n0 i H; [lia|]. destruct i; simpl.
  - f_equal. lia.
  - rewrite IH by lia. f_equal. lia.
Qed.

Theorem add_face_ok m hs : well_formed m -> hs <> [] -> (forall h, In h hs -> h < n_h m) -> closes m hs ->
  exists m', add_face_by_halfedges m hs = Some (m', n_f m) /\ well_formed m' /\
    n_v m' = n_v m /\ n_e m' = n_e m /\ n_f m' = S (n_f m) /\ n_h m' = n_h m + length hs /\
    (* the new face: one new halfedge per given one, on the same edge, with the same start vertex *)
    face_halfedges m' (n_f m) = Some (seq (n_h m) (length hs)) /\
    (forall i h, nth_error hs i = Some h ->
       rd (he_vert m') (n_h m + i) = rd (he_vert m) h /\ rd (he_edge m') (n_h m + i) = rd (he_edge m) h /\
       tip m' (n_h m + i) = tip m h) /\
    (* everything else is as before *)
    (forall h, h < n_h m -> rd (he_next m') h = rd (he_next m) h /\ rd (he_vert m') h = rd (he_vert m) h /\
       rd (he_edge m') h = rd (he_edge m) h /\ rd (he_face m') h = rd (he_face m) h) /\
    (forall f, f < n_f m -> rd (f_he m') f = rd (f_he m) f) /\
    v_he m' = v_he m /\ e_he m' = e_he m.
Proof.
  intros W Hne Hb Hc.
  destruct (wf_counts _ W) as (Cv & Cf & Ce & Ch).
  destruct (wf_lengths _ W) as (Lv & Le & Lf & Li & Lo & Ls).
  destruct (wf_parts m W) as (PF & PE & PO & PI).
  set (N := n_h m) in *. set (k := length hs) in *.
  unfold add_face_by_halfedges. unfold new_halfedges. rewrite <- Ch. fold k. rewrite dup_eq.
  cbn [he_vert sib in_next out_next he_edge].
  set (ns := seq N k).
  assert (NSI : forall n, In n ns -> N <= n < N + k) by (intros n Hn; apply in_seq in Hn; lia).
  assert (NSL : length ns = length hs) by apply seq_length.
  assert (ND : NoDup ns) by apply seq_NoDup.
  (* he_vert *)
  destruct (copy_all_spec hs (resize (he_vert m) (N + k)) ns) as (hv & E1 & L1 & R1); auto.
  { intros o Ho. rewrite resize_len by lia. specialize (Hb o Ho). split; [lia|]. intros C. apply NSI in C. lia. }
  { intros n Hn. rewrite resize_len by lia. apply NSI in Hn. lia. }
  rewrite resize_len in L1 by lia. rewrite E1.
  (* sib, in, out *)
  assert (PP : forall (a : ids) c, length a = N -> parts (rd a) c -> (forall h, h < N -> c h <> None) ->
     (forall h, N <= h -> c h = None) ->
     exists a', insert_all (resize a (N + k)) (combine hs ns) = Some a' /\ length a' = N + k /\
       parts (rd a') (copied c (combine hs ns)) /\
       (forall x, ~ In x hs -> ~ In x ns -> rd a' x = rd a x)).
  { intros a c La P Ht Hz. destruct (insert_all_parts hs (resize a (N + k)) ns c) as (a' & E & L & P' & R'); auto.
    - revert P. apply parts_ext; auto. intros x _. symmetry. apply rd_resize. lia.
    - intros n Hn. rewrite resize_len by lia. apply NSI in Hn. split; [lia|]. apply Hz. lia.
    - exists a'. rewrite resize_len in L by lia. repeat (split; [assumption|]).
      intros x H1 H2. rewrite R' by assumption. apply rd_resize. lia. }
  assert (TV : forall h, h < N -> rd (he_vert m) h <> None).
  { intros h Hh. destruct (wf_vert _ W h Hh) as (v & _ & E). congruence. }
  assert (TE : forall h, h < N -> rd (he_edge m) h <> None).
  { intros h Hh. destruct (wf_hedge _ W h Hh) as (v & _ & E). congruence. }
  assert (TT : forall h, h < N -> tip m h <> None).
  { intros h Hh. destruct (wf_tip m h W Hh) as (v & _ & E). congruence. }
  assert (TZ : forall h, N <= h -> tip m h = None).
  { intros h Hh. unfold tip. rewrite rd_ge by lia. reflexivity. }
  destruct (PP (sib m) (rd (he_edge m))) as (s & E2 & L2 & P2 & R2); auto; [intros; apply rd_ge; lia|]. rewrite E2.
  destruct (PP (in_next m) (tip m)) as (i & E3 & L3 & P3 & R3); auto. rewrite E3.
  destruct (PP (out_next m) (rd (he_vert m))) as (o & E4 & L4 & P4 & R4); auto; [intros; apply rd_ge; lia|]. rewrite E4.
  destruct (copy_all_spec hs (resize (he_edge m) (N + k)) ns) as (he & E5 & L5 & R5); auto.
  { intros x Ho. rewrite resize_len by lia. specialize (Hb x Ho). split; [lia|]. intros C. apply NSI in C. lia. }
  { intros n Hn. rewrite resize_len by lia. apply NSI in Hn. lia. }
  rewrite resize_len in L5 by lia. rewrite E5.
  cbn [he_next set_he_edge set_out_next set_in_next set_sib set_he_vert].
  destruct (windows_writes (resize (he_next m) (N + k)) ns) as (hn & E6 & L6 & K6 & R6); auto.
  { intros n Hn. rewrite resize_len by lia. apply NSI in Hn. lia. }
  rewrite resize_len in L6 by lia. rewrite E6.
  unfold new_faces. cbn [set_he_next f_he he_face set_he_edge set_out_next set_in_next set_sib set_he_vert].
  destruct (writes_const (resize (he_face m) (N + k)) ns (length (f_he m))) as (hf & E7 & L7 & R7).
  { intros n Hn. rewrite resize_len by lia. apply NSI in Hn. lia. }
  rewrite resize_len in L7 by lia. rewrite E7.
  cbn [set_he_face f_he].
  assert (Hk : 0 < k) by (unfold k; destruct hs; [congruence|simpl; lia]).
  unfold ns at 1. rewrite nth_seq by lia. rewrite Nat.add_0_r.
  destruct (wr_spec (resize (f_he m) (length (f_he m) + 1)) (length (f_he m)) N) as (fh & E8 & L8 & R8).
  { rewrite resize_len by lia. lia. }
  rewrite resize_len in L8 by lia. rewrite E8.
  rewrite Cf.
  (* reading facts *)
  assert (CR : forall a x, length a = N -> copied (rd (resize a (N + k))) (combine hs ns) x = copied (rd a) (combine hs ns) x).
  { intros a x La. unfold copied. destruct (find _ _); apply rd_resize; lia. }
  assert (CO : forall c x, x < N -> copied c (combine hs ns) x = c x).
  { intros c x Hx. apply copied_old. left. exact Hx. }
  assert (CN : forall c j h, nth_error hs j = Some h -> copied c (combine hs ns) (N + j) = c h).
  { intros. unfold ns, k. now apply copied_new. }
  assert (CZ : forall c x, N + k <= x -> copied c (combine hs ns) x = c x).
  { intros c x Hx. apply copied_old. right. exact Hx. }
  assert (HN : forall x, x < N -> rd hn x = rd (he_next m) x).
  { intros x Hx. rewrite R6 by (intros C; apply NSI in C; lia). apply rd_resize. lia. }
  assert (HV : forall x, rd hv x = copied (rd (he_vert m)) (combine hs ns) x) by (intros; rewrite R1; apply CR; lia).
  assert (HE : forall x, rd he x = copied (rd (he_edge m)) (combine hs ns) x) by (intros; rewrite R5; apply CR; lia).
  set (m' := Mesh (v_he m) hn hv fh (n_v m) (N + k) (length (f_he m) + 1) (n_e m) he hf i o s (e_he m)).
  assert (TO : forall x, tip m' x = copied (tip m) (combine hs ns) x).
  { intros x. unfold tip at 1. cbn [m' he_next he_vert].
    destruct (Nat.lt_ge_cases x N) as [Hx|Hx].
    - rewrite HN by lia. rewrite CO by lia. unfold tip.
      destruct (wf_next m x W Hx) as (x' & Bx & -> & _). rewrite HV, CO by assumption. reflexivity.
    - destruct (Nat.lt_ge_cases x (N + k)) as [Hx'|Hx'].
      + destruct (nth_error_ex hs (x - N)) as [h Eh]; [fold k; lia|].
        replace x with (N + (x - N)) at 2 by lia. rewrite (CN _ _ _ Eh).
        assert (Ex : nth_error ns (x - N) = Some x).
        { unfold ns. rewrite nth_seq by lia. f_equal. lia. }
        destruct (nth_error_ex (hs ++ firstn 1 hs) (S (x - N))) as [h' Eh'].
        { rewrite app_length, firstn_length. fold k. lia. }
        destruct (nth_error_ex (ns ++ firstn 1 ns) (S (x - N))) as [x' Ex'].
        { rewrite app_length, firstn_length, NSL. fold k. lia. }
        rewrite (linked_at _ _ _ _ _ K6 Ex Ex'). rewrite HV.
        destruct (Hc _ _ _ Eh Eh') as (v & -> & Ev).
        destruct (Nat.lt_ge_cases (S (x - N)) k) as [Hj|Hj].
        * rewrite nth_error_app1 in Ex' by lia. rewrite nth_error_app1 in Eh' by (fold k; lia).
          unfold ns in Ex'. rewrite nth_seq in Ex' by lia. inversion Ex'; subst x'.
          rewrite (CN _ _ _ Eh'). assumption.
        * assert (S (x - N) = k) by lia.
          rewrite nth_error_app2 in Ex' by (rewrite NSL; fold k; lia).
          rewrite nth_error_app2 in Eh' by (fold k; lia).
          rewrite NSL in Ex'. fold k in Ex', Eh'. rewrite H, Nat.sub_diag in Ex', Eh'.
          destruct hs as [|h0 hs']; [congruence|]. simpl in Eh'. inversion Eh'; subst h'.
          unfold ns, k in Ex'. simpl in Ex'. inversion Ex'; subst x'.
          replace N with (N + 0) at 1 by lia. rewrite (CN _ 0 h0) by reflexivity. assumption.
      + rewrite CZ by lia. rewrite TZ by lia. rewrite rd_ge by lia. reflexivity. }
  assert (FN : forall x, rd hf x = if inb x ns then Some (length (f_he m)) else rd (he_face m) x).
  { intros x. rewrite R7. destruct (inb x ns); auto. apply rd_resize. lia. }
  assert (FO : forall x, x < N -> rd hf x = rd (he_face m) x).
  { intros x Hx. rewrite FN. replace (inb x ns) with false; auto. symmetry. apply inb_nIn. intros C. apply NSI in C. lia. }
  assert (FHO : forall f, f < length (f_he m) -> rd fh f = rd (f_he m) f).
  { intros f Hf. rewrite R8. rewrite (proj2 (Nat.eqb_neq f (length (f_he m)))) by lia. apply rd_resize. lia. }
  assert (WF' : well_formed m').
  { apply wf_of_parts; cbn [m' n_h n_v n_e n_f v_he he_next he_vert f_he he_edge he_face in_next out_next sib e_he].
    - unfold lens. cbn [m' n_h n_v n_e n_f v_he he_next he_vert f_he he_edge he_face in_next out_next sib e_he].
      lia.
    - intros h Hh. rewrite HV. destruct (Nat.lt_ge_cases h N).
      + rewrite CO by lia. apply (wf_vert _ W h). assumption.
      + destruct (nth_error_ex hs (h - N)) as [h0 Eh]; [fold k; fold N in Hh; lia|].
        replace h with (N + (h - N)) by lia. rewrite (CN _ _ _ Eh). apply (wf_vert _ W).
        apply Hb. eapply nth_error_In; eauto.
    - intros h Hh. rewrite HE. destruct (Nat.lt_ge_cases h N).
      + rewrite CO by lia. apply (wf_hedge _ W h). assumption.
      + destruct (nth_error_ex hs (h - N)) as [h0 Eh]; [fold k; fold N in Hh; lia|].
        replace h with (N + (h - N)) by lia. rewrite (CN _ _ _ Eh). apply (wf_hedge _ W).
        apply Hb. eapply nth_error_In; eauto.
    - intros h Hh. rewrite FN. destruct (inb h ns) eqn:Eb.
      + exists (length (f_he m)). split; [lia|reflexivity].
      + destruct (Nat.lt_ge_cases h N).
        * destruct (wf_hface _ W h) as (f & Bf & Ef); auto. exists f. split; [lia|exact Ef].
        * exfalso. apply inb_nIn in Eb. apply Eb. apply in_seq. fold N in Hh. lia.
    - intros f Hf. destruct (Nat.eq_dec f (length (f_he m))) as [->|].
      + exists N. rewrite R8, Nat.eqb_refl. split; [reflexivity|]. rewrite FN.
        replace (inb N ns) with true; auto. symmetry. apply inb_In. apply in_seq. lia.
      + destruct (wf_face _ W f) as [(h & Eh1 & Eh2) _]; [lia|].
        exists h. rewrite FHO by lia. split; auto. rewrite FO; auto.
        apply rd_lt in Eh2. fold N in Lf. lia.
    - intros e He. destruct (wf_edge _ W e He) as [(h & Eh1 & Eh2) _]. exists h. split; auto.
      rewrite HE, CO; auto. apply rd_lt in Eh2. fold N in Le. lia.
    - intros e He. destruct (wf_ends _ W e He) as (a & b & J). exists a, b. intros h Hh.
      rewrite HE in Hh. unfold joins, goes in *. rewrite TO. cbn [m' he_vert]. rewrite HV.
      destruct (Nat.lt_ge_cases h N).
      + rewrite !CO in * by lia. apply J. exact Hh.
      + destruct (Nat.lt_ge_cases h (N + k)).
        * assert (exists j, h = N + j) as [j ->] by (exists (h - N); lia).
          destruct (nth_error_ex hs j) as [h0 Eh]; [fold k; lia|].
          rewrite (CN _ _ _ Eh) in Hh. rewrite !(CN _ _ _ Eh). apply J. exact Hh.
        * rewrite CZ in Hh by lia. rewrite rd_ge in Hh by lia. discriminate.
    - intros v Hv. destruct (wf_vertex _ W v Hv) as [(N1 & N2)|((h & Eh1 & Eh2) & _)].
      + left. split; auto. intros h. rewrite HV. unfold copied. destruct (find _ _); apply N2.
      + right. exists h. split; auto. rewrite HV, CO; auto. apply rd_lt in Eh2. fold N in Lv. lia.
    - intros h f Hf. rewrite FN in Hf. destruct (inb h ns) eqn:Eb.
      + inversion Hf; subst f. exists ns. split; [|split; [|split]]; auto.
        * intros C. apply (f_equal (@length nat)) in C. rewrite NSL in C. fold k in C. simpl in C. lia.
        * intros x. rewrite FN. split.
          -- intros Hx. apply inb_In in Hx. rewrite Hx. reflexivity.
          -- destruct (inb x ns) eqn:Ex; [now apply inb_In in Ex|]. intros C. apply rd_lt in C as C1.
             destruct (wf_hface _ W x) as (f & Bf & Ef); [fold N; lia|]. assert (f = length (f_he m)) by congruence. lia.
      + destruct (PF h f Hf) as [l L]. exists l. revert L. apply cycle_ext.
        * intros x. rewrite FN. destruct (inb x ns) eqn:Ex; [|tauto]. apply inb_In in Ex. apply NSI in Ex.
          rewrite rd_ge by lia. split; [discriminate|]. intros C. inversion C; subst f.
          apply rd_lt in Hf as C1. destruct (wf_hface _ W h) as (f & Bf & Ef); [fold N; lia|].
          assert (f = length (f_he m)) by congruence. lia.
        * intros x Hx. symmetry. apply HN. apply rd_lt in Hx. lia.
    - revert P2. apply parts_ext; auto.
    - revert P4. apply parts_ext; auto.
    - revert P3. apply parts_ext; auto. }
  exists m'. split; [reflexivity|]. split; [exact WF'|].
  cbn [m' n_h n_v n_e n_f v_he he_next he_vert f_he he_edge he_face in_next out_next sib e_he].
  repeat (split; [lia || reflexivity|]). split; [|split; [|split; [|split]]].
  - unfold face_halfedges. cbn [m' f_he he_next]. rewrite R8, Nat.eqb_refl.
    unfold ns in K6, ND. destruct k as [|k']; [lia|]. simpl in K6, ND. apply circulate_linked; auto.
  - intros j h Ej. change (n_h m) with N. rewrite HV, HE, TO, !(CN _ _ _ Ej). auto.
  - intros h Hh. rewrite HV, HE, HN, FO, !CO by exact Hh. auto.
  - exact FHO.
  - auto.
Qed.
