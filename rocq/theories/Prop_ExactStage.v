(** C34 over ideal arithmetic, and the composition of C29, C30 and C31-C33:
    the dispatch over kernels made of the exact stage decides the geometric
    predicates of the points that the arguments denote. *)
From Coq Require Import Reals Lra List ZArith Lia.
From Verif Require Import GenericFormulas Geo Prop_Formulas Dispatch Orient Prop_Dispatch ExactStage.
Import ListNotations.
Local Open Scope R_scope.

(** Real arithmetic as an exact number; the normalisation multiplies a cache
    by an arbitrary positive factor [s]. *)
Definition Rexact (s : cache R -> R) : exact_num R R := {|
  x_ops := Rops;
  x_of := fun x => x;
  x_neg := Ropp;
  x_negative := fun x => if Rlt_dec x 0 then true else false;
  x_not_zero := fun x => if Req_EM_T x 0 then false else true;
  x_normalize := fun c => Cache (s c * lx c) (s c * ly c) (s c * lz c) (s c * ld c);
  x_sign := fun x => Some (ori_of x) |}.

Definition V (p : pt3 R) : vec3 := V3 (p3x p) (p3y p) (p3z p).

(** The point that a line/plane intersection denotes, and when it exists. *)
Definition lpi_cacheR (l : lpi_pt R) : cache R := lpi_R (V (lp l)) (V (lq l)) (V (lr l)) (V (ls l)) (V (lt l)).
Definition tpi_cacheR (t : tpi_pt R) : cache R :=
  tpi_R (V (tv1 t)) (V (tv2 t)) (V (tv3 t)) (V (tw1 t)) (V (tw2 t)) (V (tw3 t)) (V (tu1 t)) (V (tu2 t)) (V (tu3 t)).
Definition is_lpi (l : lpi_pt R) (x : vec3) : Prop :=
  on_line (V (lp l)) (V (lq l)) x /\ on_plane (V (lr l)) (V (ls l)) (V (lt l)) x /\
  (forall y, on_line (V (lp l)) (V (lq l)) y -> on_plane (V (lr l)) (V (ls l)) (V (lt l)) y -> y = x).
Definition is_tpi (t : tpi_pt R) (x : vec3) : Prop :=
  (on_plane (V (tv1 t)) (V (tv2 t)) (V (tv3 t)) x /\ on_plane (V (tw1 t)) (V (tw2 t)) (V (tw3 t)) x /\
   on_plane (V (tu1 t)) (V (tu2 t)) (V (tu3 t)) x) /\
  (forall y, on_plane (V (tv1 t)) (V (tv2 t)) (V (tv3 t)) y -> on_plane (V (tw1 t)) (V (tw2 t)) (V (tw3 t)) y ->
    on_plane (V (tu1 t)) (V (tu2 t)) (V (tu3 t)) y -> y = x).

(** The geometric condition under which an implicit point exists: line not
    parallel to the plane, normals of the three planes independent. *)
Definition lpi_ok (l : lpi_pt R) : Prop :=
  dot (vsub (V (lp l)) (V (lq l))) (normal (V (lr l)) (V (ls l)) (V (lt l))) <> 0.
Definition tpi_ok (t : tpi_pt R) : Prop :=
  det3 (normal (V (tv1 t)) (V (tv2 t)) (V (tv3 t))) (normal (V (tw1 t)) (V (tw2 t)) (V (tw3 t)))
       (normal (V (tu1 t)) (V (tu2 t)) (V (tu3 t))) <> 0.

Lemma lpi_ok_d l : lpi_ok l <-> ld (lpi_cacheR l) <> 0.
Proof.
  unfold lpi_ok, lpi_cacheR. rewrite lpi_denominator.
  match goal with |- ?a <> 0 <-> ?b <> 0 => replace b with a by (unf; ring) end. reflexivity.
Qed.
Lemma tpi_ok_d t : tpi_ok t <-> ld (tpi_cacheR t) <> 0.
Proof. unfold tpi_ok, tpi_cacheR. rewrite tpi_denominator. reflexivity. Qed.

(** What a successful exact stage delivers: homogeneous coordinates with a
    positive denominator of a point [P]. *)
Definition homog (c : cache R) (P : vec3) : Prop :=
  0 < ld c /\ lx c = ld c * vx P /\ ly c = ld c * vy P /\ lz c = ld c * vz P.

Section S.
Context (s : cache R -> R).
Hypothesis Hs : forall c, 0 < s c.
Notation X := (Rexact s).

Lemma exact_cache_homog c : ld c <> 0 ->
  exists c', exact_cache X c = Some c' /\ homog c' (cache_point c).
Proof.
  intros Hd. unfold exact_cache. simpl.
  destruct (Rlt_dec (ld c) 0) as [Hn|Hn]; simpl;
  match goal with |- context [s ?k] => pose proof (Hs k) as Hk; set (f := s k) in * end.
  - destruct (Req_EM_T (f * - ld c) 0) as [Z|Z].
    { exfalso. apply Rmult_integral in Z. lra. }
    eexists. split; [reflexivity|]. unfold homog, cache_point; simpl. repeat split.
    + apply Rmult_lt_0_compat; lra.
    + field; auto.
    + field; auto.
    + field; auto.
  - destruct (Req_EM_T (f * ld c) 0) as [Z|Z].
    { exfalso. apply Rmult_integral in Z. lra. }
    eexists. split; [reflexivity|]. unfold homog, cache_point; simpl. repeat split.
    + apply Rmult_lt_0_compat; lra.
    + field; auto.
    + field; auto.
    + field; auto.
Qed.

Lemma exact_cache_zero c : ld c = 0 -> exact_cache X c = None.
Proof.
  intros Hd. unfold exact_cache. simpl.
  destruct (Rlt_dec (ld c) 0) as [Hn|Hn]; [lra|]. simpl.
  destruct (Req_EM_T (s c * ld c) 0) as [Z|Z]; auto. exfalso. apply Z. rewrite Hd. ring.
Qed.

Definition semL (l : lpi_pt R) : vec3 := cache_point (lpi_cacheR l).
Definition semT (t : tpi_pt R) : vec3 := cache_point (tpi_cacheR t).

Lemma semL_is l : lpi_ok l -> is_lpi l (semL l).
Proof. rewrite lpi_ok_d. exact (lpi_is_intersection (V (lp l)) (V (lq l)) (V (lr l)) (V (ls l)) (V (lt l))). Qed.
Lemma semT_is t : tpi_ok t -> is_tpi t (semT t).
Proof.
  rewrite tpi_ok_d.
  exact (tpi_is_intersection (V (tv1 t)) (V (tv2 t)) (V (tv3 t)) (V (tw1 t)) (V (tw2 t)) (V (tw3 t))
           (V (tu1 t)) (V (tu2 t)) (V (tu3 t))).
Qed.

Lemma lpi_exact_R l : lpi_exact X l = exact_cache X (lpi_cacheR l).
Proof. unfold lpi_exact, lpi_cacheR, lpi_R, V. cbn [x_of x_ops Rexact vx vy vz]. reflexivity. Qed.
Lemma tpi_exact_R t : tpi_exact X t = exact_cache X (tpi_cacheR t).
Proof. unfold tpi_exact, tpi_cacheR, tpi_R, V. cbn [x_of x_ops Rexact vx vy vz]. reflexivity. Qed.

Lemma lpi_exact_ok l : lpi_ok l -> exists c, lpi_exact X l = Some c /\ homog c (semL l).
Proof.
  rewrite lpi_ok_d, lpi_exact_R. unfold semL. generalize (lpi_cacheR l). exact exact_cache_homog.
Qed.
Lemma tpi_exact_ok t : tpi_ok t -> exists c, tpi_exact X t = Some c /\ homog c (semT t).
Proof.
  rewrite tpi_ok_d, tpi_exact_R. unfold semT. generalize (tpi_cacheR t). exact exact_cache_homog.
Qed.

Ltac hom c := let H := fresh "Hd" in let x := fresh "kx" in let y := fresh "ky" in
  let z := fresh "kz" in let d := fresh "kd" in destruct c as [x y z d];
  match goal with Hh : homog _ _ |- _ => destruct Hh as (H & ? & ? & ?); simpl in * |- ; subst end.

Lemma ori_scale k x : 0 < k -> Some (ori_of (k * x)) = Some (ori_of x).
Proof. intros. now rewrite ori_mul_pos. Qed.

Ltac pos := repeat apply Rmult_lt_0_compat; assumption.

Lemma stage_ieee_R c P a b e : homog c P ->
  stage_ieee X (Some c) a b e = Some (ori_of (o3 P (V a) (V b) (V e))).
Proof.
  intros H. hom c. unfold stage_ieee, with1, o3. cbn [x_sign x_ops x_of Rexact lx ly lz ld].
  change (p3x a) with (vx (V a)); change (p3y a) with (vy (V a)); change (p3z a) with (vz (V a)).
  change (p3x b) with (vx (V b)); change (p3y b) with (vy (V b)); change (p3z b) with (vz (V b)).
  change (p3x e) with (vx (V e)); change (p3y e) with (vy (V e)); change (p3z e) with (vz (V e)).
  rewrite orient3d_ieee_formula. apply ori_scale; pos.
Qed.

Lemma stage_iiee_R c P d Q a b : homog c P -> homog d Q ->
  stage_iiee X (Some c) (Some d) a b = Some (ori_of (o3 P Q (V a) (V b))).
Proof.
  intros H H'. hom c. hom d. unfold stage_iiee, with2, o3. cbn [x_sign x_ops x_of Rexact lx ly lz ld].
  change (p3x a) with (vx (V a)); change (p3y a) with (vy (V a)); change (p3z a) with (vz (V a)).
  change (p3x b) with (vx (V b)); change (p3y b) with (vy (V b)); change (p3z b) with (vz (V b)).
  rewrite orient3d_iiee_formula. apply ori_scale; pos.
Qed.

Lemma stage_iiie_R c P d Q e S' a : homog c P -> homog d Q -> homog e S' ->
  stage_iiie X (Some c) (Some d) (Some e) a = Some (ori_of (o3 P Q S' (V a))).
Proof.
  intros H H' H''. hom c. hom d. hom e. unfold stage_iiie, with3, o3. cbn [x_sign x_ops x_of Rexact lx ly lz ld].
  change (p3x a) with (vx (V a)); change (p3y a) with (vy (V a)); change (p3z a) with (vz (V a)).
  rewrite orient3d_iiie_formula. apply ori_scale; pos.
Qed.

Lemma stage_iiii_R c P d Q e S' f T' : homog c P -> homog d Q -> homog e S' -> homog f T' ->
  stage_iiii X (Some c) (Some d) (Some e) (Some f) = Some (ori_of (o3 P Q S' T')).
Proof.
  intros H H' H'' H'''. hom c. hom d. hom e. hom f.
  unfold stage_iiii, with4, o3. cbn [x_sign x_ops x_of Rexact lx ly lz ld].
  rewrite orient3d_iiii_formula. apply ori_scale; pos.
Qed.

Ltac axes axis := destruct axis as [|[|[|axis]]]; [| | |try (exfalso; lia)].

Lemma stage_iee_R axis (Hax : (axis <= 2)%nat) c P a b : homog c P ->
  stage_iee X axis (Some c) a b = Some (ori_of (o2 axis P (V a) (V b))).
Proof.
  intros H. hom c. unfold stage_iee, with1, o2. axes axis; cbn [c_u c_v p_u p_v proj fst snd x_sign x_ops x_of Rexact lx ly lz ld];
  rewrite orient2d_iee_formula; apply ori_scale; pos.
Qed.
Lemma stage_iie_R axis (Hax : (axis <= 2)%nat) c P d Q a : homog c P -> homog d Q ->
  stage_iie X axis (Some c) (Some d) a = Some (ori_of (o2 axis P Q (V a))).
Proof.
  intros H H'. hom c. hom d. unfold stage_iie, with2, o2. axes axis; cbn [c_u c_v p_u p_v proj fst snd x_sign x_ops x_of Rexact lx ly lz ld];
  rewrite orient2d_iie_formula; apply ori_scale; pos.
Qed.
Lemma stage_iii_R axis (Hax : (axis <= 2)%nat) c P d Q e S' : homog c P -> homog d Q -> homog e S' ->
  stage_iii X axis (Some c) (Some d) (Some e) = Some (ori_of (o2 axis P Q S')).
Proof.
  intros H H' H''. hom c. hom d. hom e. unfold stage_iii, with3, o2.
  axes axis; cbn [c_u c_v proj fst snd x_sign x_ops x_of Rexact lx ly lz ld];
  rewrite orient2d_iii_formula; apply ori_scale; pos.
Qed.
Lemma stage_ie_R axis c P b : homog c P ->
  stage_ie X axis (Some c) b = Some (ori_of (coord axis P - coord axis (V b))).
Proof.
  intros H. hom c. unfold stage_ie, with1. axes axis; cbn [c_w p_w coord x_sign x_ops x_of Rexact lx ly lz ld];
  rewrite less_than_ie_formula; apply ori_scale; pos.
Qed.
Lemma stage_ii_R axis c P d Q : homog c P -> homog d Q ->
  stage_ii X axis (Some c) (Some d) = Some (ori_of (coord axis P - coord axis Q)).
Proof.
  intros H H'. hom c. hom d. unfold stage_ii, with2. axes axis; cbn [c_w p_w coord x_sign x_ops x_of Rexact lx ly lz ld];
  rewrite less_than_ii_formula; apply ori_scale; pos.
Qed.

Definition okE (_ : pt3 R) : Prop := True.
(** The ideal predicates on explicit points. *)
Definition eeeeR (a b c d : pt3 R) : res := Some (ori_of (o3 (V a) (V b) (V c) (V d))).
Definition eeeR (axis : nat) (a b c : pt3 R) : res := Some (ori_of (o2 axis (V a) (V b) (V c))).
Definition eeR (axis : nat) (a b : pt3 R) : res := Some (ori_of (coord axis (V a) - coord axis (V b))).

Ltac getx p :=
  match goal with
  | H : lpi_ok p |- _ => let c := fresh "c" in let E := fresh "E" in let Hh := fresh "Hh" in
      destruct (lpi_exact_ok p H) as (c & E & Hh); rewrite E; clear E H
  | H : tpi_ok p |- _ => let c := fresh "c" in let E := fresh "E" in let Hh := fresh "Hh" in
      destruct (tpi_exact_ok p H) as (c & E & Hh); rewrite E; clear E H
  end.
Ltac stage :=
  repeat match goal with
  | |- context [lpi_exact _ ?p] => getx p
  | |- context [tpi_exact _ ?p] => getx p
  end;
  eauto using stage_ieee_R, stage_iiee_R, stage_iiie_R, stage_iiii_R, stage_iee_R, stage_iie_R,
    stage_iii_R, stage_ie_R, stage_ii_R.

Lemma exact_kernels3_sound : sound_kernels3 V semL semT okE lpi_ok tpi_ok (exact_kernels3 X eeeeR).
Proof. split; intros a b c d Ha Hb Hc Hd; simpl; stage; reflexivity. Qed.
Lemma exact_kernels2_sound axis (Hax : (axis <= 2)%nat) : sound_kernels2 V semL semT okE lpi_ok tpi_ok axis (exact_kernels2 X eeeR axis).
Proof. split; intros a b c Ha Hb Hc; simpl; stage; reflexivity. Qed.
Lemma exact_kernels1_sound axis : sound_kernels1 V semL semT okE lpi_ok tpi_ok axis (exact_kernels1 X eeR axis).
Proof. split; intros a b Ha Hb; simpl; stage; reflexivity. Qed.

(** What a point argument denotes. *)
Inductive denotes : point3d (pt3 R) (lpi_pt R) (tpi_pt R) -> vec3 -> Prop :=
| den_e p : denotes (Explicit p) (V p)
| den_l l x : lpi_ok l -> is_lpi l x -> denotes (LPI l) x
| den_t t x : tpi_ok t -> is_tpi t x -> denotes (TPI t) x.

Lemma denotes_sem p x : denotes p x ->
  ok okE lpi_ok tpi_ok p /\ sem V semL semT p = x.
Proof.
  intros H. destruct H as [p|l x Hl (H1 & H2 & H3)|t x Ht ((H1 & H2 & H3) & H4)]; simpl; (split; [exact I || assumption|]).
  - reflexivity.
  - destruct (semL_is l Hl) as (A & B & _). auto.
  - destruct (semT_is t Ht) as ((A & B & C) & _). auto.
Qed.

(** The public predicates, on any mixture of kinds, return the sign for the
    intersection points themselves. *)
Theorem orient3d_exact_correct pa pb pc pd a b c d :
  denotes pa a -> denotes pb b -> denotes pc c -> denotes pd d ->
  orient3d (exact_kernels3 X eeeeR) pa pb pc pd = Some (ori_of (- orient3 a b c d)).
Proof.
  intros Ha Hb Hc Hd.
  destruct (denotes_sem _ _ Ha), (denotes_sem _ _ Hb), (denotes_sem _ _ Hc), (denotes_sem _ _ Hd).
  rewrite (orient3d_dispatch V semL semT okE lpi_ok tpi_ok) by (auto; apply exact_kernels3_sound).
  unfold o3. congruence.
Qed.

Theorem orient2d_exact_correct axis pa pb pc a b c :
  denotes pa a -> denotes pb b -> denotes pc c ->
  orient2d_by_axis (exact_kernels2 X eeeR) pa pb pc axis = Some (ori_of (o2 axis a b c)).
Proof.
  intros Ha Hb Hc.
  destruct (denotes_sem _ _ Ha), (denotes_sem _ _ Hb), (denotes_sem _ _ Hc).
  rewrite (orient2d_dispatch V semL semT okE lpi_ok tpi_ok) by (auto; apply exact_kernels2_sound).
  congruence.
Qed.

(** Partial in the argument kinds (see [less_than_refuted]). *)
Theorem less_than_exact_partial axis pa pb a b :
  (axis <= 2)%nat -> exchanged pa pb = false ->
  denotes pa a -> denotes pb b ->
  less_than_axis axis (exact_kernels1 X eeR) pa pb = Some (ori_of (coord axis a - coord axis b)).
Proof.
  intros Hax He Ha Hb.
  destruct (denotes_sem _ _ Ha), (denotes_sem _ _ Hb).
  rewrite (less_than_partial V semL semT okE lpi_ok tpi_ok) by (auto; apply exact_kernels1_sound).
  congruence.
Qed.

Theorem less_than_exact_refuted axis pa pb a b :
  (axis <= 2)%nat -> exchanged pa pb = true ->
  denotes pa a -> denotes pb b -> coord axis a <> coord axis b ->
  less_than_axis axis (exact_kernels1 X eeR) pa pb = Some (ori_of (coord axis b - coord axis a)).
Proof.
  intros Hax He Ha Hb Hne.
  destruct (denotes_sem _ _ Ha), (denotes_sem _ _ Hb).
  rewrite (less_than_dispatch V semL semT okE lpi_ok tpi_ok) by (auto; apply exact_kernels1_sound).
  rewrite He. cbv zeta. rewrite <- ori_opp. do 2 f_equal. subst. ring.
Qed.

(** A degenerate implicit point makes the answer [Undefined], whatever the
    other points are. *)
Theorem orient3d_degenerate_undefined l a b c :
  ~ lpi_ok l -> orient3d (exact_kernels3 X eeeeR) (LPI l) (Explicit a) (Explicit b) (Explicit c) = Some Undefined.
Proof.
  intros H. cbn [orient3d o3_leee exact_kernels3]. rewrite lpi_exact_R, exact_cache_zero; [reflexivity|].
  destruct (Req_dec (ld (lpi_cacheR l)) 0); auto. exfalso. apply H. now apply lpi_ok_d.
Qed.
End S.

(** Non-vacuity: a line/plane and a three-plane intersection. *)
Definition ex_l : lpi_pt R := LP (P3 0 0 (-1)) (P3 0 0 1) (P3 (-1) (-1) 0) (P3 1 (-1) 0) (P3 0 1 0).
Definition ex_t : tpi_pt R := TP (P3 1 0 0) (P3 1 1 0) (P3 1 0 1) (P3 0 2 0) (P3 0 2 1) (P3 1 2 0)
            (P3 0 0 3) (P3 1 0 3) (P3 0 1 3).
Example ex_l_ok : lpi_ok ex_l.
Proof. unfold lpi_ok, ex_l, V. cbn. unf. lra. Qed.
Example ex_t_ok : tpi_ok ex_t.
Proof. unfold tpi_ok, ex_t, V. cbn. unf. lra. Qed.
Example ex_l_denotes : denotes (LPI ex_l) (V3 0 0 0).
Proof.
  constructor; [exact ex_l_ok|].
  pose proof (semL_is ex_l ex_l_ok) as H.
  assert (E : semL ex_l = V3 0 0 0).
  { unfold semL, lpi_cacheR, ex_l, V. cbn. unf. f_equal; field. }
  now rewrite <- E.
Qed.
Example ex_t_denotes : denotes (TPI ex_t) (V3 1 2 3).
Proof.
  constructor; [exact ex_t_ok|].
  pose proof (semT_is ex_t ex_t_ok) as H.
  assert (E : semT ex_t = V3 1 2 3).
  { unfold semT, tpi_cacheR, ex_t, V. cbn. unf. f_equal; field. }
  now rewrite <- E.
Qed.
Example ex_orient3d :
  orient3d (exact_kernels3 (Rexact (fun _ => 1)) eeeeR)
    (Explicit (P3 1 0 0)) (LPI ex_l) (TPI ex_t) (Explicit (P3 0 1 0)) = Some Positive.
Proof.
  rewrite (orient3d_exact_correct _ (fun _ => Rlt_0_1) _ _ _ _ (V3 1 0 0) (V3 0 0 0) (V3 1 2 3) (V3 0 1 0)).
  - f_equal. apply ori_pos. unf. lra.
  - apply den_e.
  - apply ex_l_denotes.
  - apply ex_t_denotes.
  - apply den_e.
Qed.
Example ex_less_than_wrong :
  less_than_axis 0 (exact_kernels1 (Rexact (fun _ => 1)) eeR) (Explicit (P3 1 0 0)) (LPI ex_l) = Some Negative.
Proof.
  rewrite (less_than_exact_refuted _ (fun _ => Rlt_0_1) 0 _ _ (V3 1 0 0) (V3 0 0 0)); auto.
  - f_equal. apply ori_neg. simpl. lra.
  - apply den_e.
  - apply ex_l_denotes.
  - simpl. lra.
Qed.

Print Assumptions orient3d_exact_correct.
Print Assumptions orient2d_exact_correct.
Print Assumptions less_than_exact_partial.
Print Assumptions less_than_exact_refuted.
Print Assumptions orient3d_degenerate_undefined.
