(** C37: the projection axis of a triangle. *)
From Coq Require Import ZArith Reals List Bool Lia Lra Psatz.
From Flocq Require Import Core BinarySingleNaN.
From Verif Require Import Lib F64 F64Facts Expansion GenericFormulas Filters ExpReal ExpFloat ExpZero ExpEst ExpSpec ExplicitSpec ExplicitProofs
  Prop_Explicit ErrBound ErrStageA ErrStatic MaxComp MaxCompProofs.
Import ListNotations.
Local Open Scope R_scope.

(** * Specification *)
Definition vec : Type := R * R * R.
Definition at3 (k : nat) (p : vec) : R := let '(x, y, z) := p in match k with 0%nat => x | 1%nat => y | _ => z end.
(** The points lie on a line: a combination of the two edges from [a] is zero. *)
Definition collinear (a b c : vec) : Prop :=
  exists s t, (s <> 0 \/ t <> 0) /\ forall k, s * (at3 k b - at3 k a) + t * (at3 k c - at3 k a) = 0.
(** The two coordinates left when axis [k] is dropped, in cyclic order. *)
Definition fst_axis (k : nat) : nat := match k with 0%nat => 1%nat | 1%nat => 2%nat | _ => 0%nat end.
Definition snd_axis (k : nat) : nat := match k with 0%nat => 2%nat | 1%nat => 0%nat | _ => 1%nat end.
(** Twice the signed area of the triangle projected along axis [k], which is
    the component [k] of its normal. *)
Definition projected_area (k : nat) (a b c : vec) : R :=
  orient2d_det (at3 (fst_axis k) a) (at3 (snd_axis k) a) (at3 (fst_axis k) b) (at3 (snd_axis k) b) (at3 (fst_axis k) c) (at3 (snd_axis k) c).
Definition point3 (x y z : f64) : vec := (B2R x, B2R y, B2R z).

Lemma area_normal : forall a b c, (forall k, (k < 3)%nat -> projected_area k a b c = 0) -> collinear a b c.
Proof.
  intros [[ax ay] az] [[bx by_] bz] [[cx cy] cz] H.
  assert (H0 := H 0%nat ltac:(lia)). assert (H1 := H 1%nat ltac:(lia)). assert (H2 := H 2%nat ltac:(lia)). clear H.
  unfold projected_area, fst_axis, snd_axis, at3 in *. unfold collinear, at3.
  assert (E0 : (by_ - ay) * (cz - az) - (bz - az) * (cy - ay) = 0) by (rewrite <- H0; det_unf; ring).
  assert (E1 : (bz - az) * (cx - ax) - (bx - ax) * (cz - az) = 0) by (rewrite <- H1; det_unf; ring).
  assert (E2 : (bx - ax) * (cy - ay) - (by_ - ay) * (cx - ax) = 0) by (rewrite <- H2; det_unf; ring). clear H0 H1 H2.
  destruct (Req_dec (bx - ax) 0) as [X|X]; [destruct (Req_dec (by_ - ay) 0) as [Y|Y]; [destruct (Req_dec (bz - az) 0) as [Z|Z]|]|].
  - exists 1, 0. split; [lra|]. intros [|[|k]]; lra.
  - exists (cz - az), (- (bz - az)). split; [right; lra|]. intros [|[|k]]; nra.
  - exists (cy - ay), (- (by_ - ay)). split; [right; lra|]. intros [|[|k]]; nra.
  - exists (cx - ax), (- (bx - ax)). split; [right; lra|]. intros [|[|k]]; nra.
Qed.

(** * Theorems *)
Section Opaque.
Local Opaque fadd fsub fmul fabs fneg fmax tri_normal_eps.
Lemma filter_ok : forall ax ay az bx by_ bz cx cy cz k,
  coord ax -> coord ay -> coord az -> coord bx -> coord by_ -> coord bz -> coord cx -> coord cy -> coord cz ->
  max_comp_in_tri_normal_filter ax ay az bx by_ bz cx cy cz = k ->
  k = 3%nat \/ (k < 3)%nat /\ projected_area k (point3 ax ay az) (point3 bx by_ bz) (point3 cx cy cz) <> 0.
Proof.
  intros ax ay az bx by_ bz cx cy cz k Ax Ay Az Bx By Bz Cx Cy Cz. coords.
  unfold max_comp_in_tri_normal_filter, max_comp_in_tri_normal_impl. cbn [nadd nsub nmul f64_ops].
  assert (S : forall a b, num (-180) 100 a -> num (-180) 100 b -> num (-180) 101 (fsub a b)).
  { intros a b Na Nb. apply (num_sub (-180) 100 a b Na Nb); lia. }
  destruct (abs_max_ok (-180) 101 [fsub cx bx; fsub cy by_; fsub cz bz; fsub bx ax; fsub by_ ay; fsub bz az]) as (NM & M0 & HM);
    [discriminate|repeat (apply Forall_cons; [apply S; auto|]); apply Forall_nil|].
  set (M := abs_max _) in *. clearbody M.
  assert (H1 : Rabs (val (fsub cx bx)) <= val M) by (apply HM; simpl; auto). assert (H2 : Rabs (val (fsub cy by_)) <= val M) by (apply HM; simpl; auto).
  assert (H3 : Rabs (val (fsub cz bz)) <= val M) by (apply HM; simpl; auto 7). assert (H4 : Rabs (val (fsub bx ax)) <= val M) by (apply HM; simpl; auto 7).
  assert (H5 : Rabs (val (fsub by_ ay)) <= val M) by (apply HM; simpl; auto 8). assert (H6 : Rabs (val (fsub bz az)) <= val M) by (apply HM; simpl; auto 9).
  destruct (cross_ok M by_ cz bz cy ay bz az by_) as (F1 & Q1); auto.
  destruct (cross_ok M cx bz cz bx bx az bz ax) as (F2 & Q2); auto.
  destruct (cross_ok M bx cy by_ cx ax by_ ay bx) as (F3 & Q3); auto.
  set (x := fsub (fmul (fsub by_ ay) (fsub cz bz)) _) in *. set (y := fsub (fmul (fsub cx bx) (fsub bz az)) _) in *. set (z := fsub (fmul (fsub bx ax) (fsub cy by_)) _) in *.
  destruct (max_index_ok (fabs x) (fabs y) (fabs z)) as (j & v & -> & Fv & _ & _ & _ & D); try (rewrite fabs_fin; auto).
  unfold projected_area, fst_axis, snd_axis, point3, at3.
  destruct (flt _ v) eqn:E; intros <-; [right|left; auto].
  destruct D as [(-> & ->)|[(-> & ->)|(-> & ->)]]; (split; [lia|]); intros Z; [apply (Q1 E)|apply (Q2 E)|apply (Q3 E)];
  rewrite <- Z; det_unf; ring.
Qed.
Lemma exact_ok : forall ax ay az bx by_ bz cx cy cz,
  coord ax -> coord ay -> coord az -> coord bx -> coord by_ -> coord bz -> coord cx -> coord cy -> coord cz ->
  exists k, max_comp_in_tri_normal_exact (xof ax) (xof ay) (xof az) (xof bx) (xof by_) (xof bz) (xof cx) (xof cy) (xof cz) = Some k /\ (k < 3)%nat /\
    (projected_area k (point3 ax ay az) (point3 bx by_ bz) (point3 cx cy cz) = 0 ->
     collinear (point3 ax ay az) (point3 bx by_ bz) (point3 cx cy cz)).
Proof.
  intros ax ay az bx by_ bz cx cy cz Ax Ay Az Bx By Bz Cx Cy Cz. coords.
  unfold max_comp_in_tri_normal_exact, max_comp_in_tri_normal_impl. cbn [nadd nsub nmul xops].
  destruct (x_diff cx bx) as (h1 & E1 & R1); auto. destruct (x_diff cy by_) as (h2 & E2 & R2); auto. destruct (x_diff cz bz) as (h3 & E3 & R3); auto.
  destruct (x_diff bx ax) as (h4 & E4 & R4); auto. destruct (x_diff by_ ay) as (h5 & E5 & R5); auto. destruct (x_diff bz az) as (h6 & E6 & R6); auto.
  destruct (x_cross _ _ _ _ _ _ _ _ E5 E3 E6 E2 _ _ _ _ R5 R3 R6 R2) as (x & Lx & Fx & Sx).
  destruct (x_cross _ _ _ _ _ _ _ _ E1 E6 E3 E4 _ _ _ _ R1 R6 R3 R4) as (y & Ly & Fy & Sy).
  destruct (x_cross _ _ _ _ _ _ _ _ E4 E2 E5 E1 _ _ _ _ R4 R2 R5 R1) as (z & Lz & Fz & Sz).
  rewrite Lx, Ly, Lz. cbn [obind].
  destruct (max_index_ok (fabs x) (fabs y) (fabs z)) as (j & v & -> & Fv & L1 & L2 & L3 & D); try (rewrite fabs_fin; auto).
  exists j. split; auto. split; [intuition lia|]. intros Z.
  assert (V0 : val v = 0).
  { unfold projected_area, fst_axis, snd_axis, point3, at3 in Z.
    destruct D as [(-> & ->)|[(-> & ->)|(-> & ->)]]; rewrite fabs_val;
    [rewrite (proj2 Sx)|rewrite (proj2 Sy)|rewrite (proj2 Sz)]; try apply Rabs_R0; rewrite <- Z; det_unf; ring. }
  rewrite V0, fabs_val in L1, L2, L3.
  assert (N : forall t, Rabs (val t) <= 0 -> val t = 0).
  { intros t Ht. destruct (Req_dec (val t) 0) as [|Q]; auto. apply Rabs_pos_lt in Q. lra. }
  apply N, (proj1 Sx) in L1. apply N, (proj1 Sy) in L2. apply N, (proj1 Sz) in L3.
  apply area_normal. unfold projected_area, fst_axis, snd_axis, point3, at3.
  intros [|[|[|k]]] Hk; [| | |lia]; [rewrite <- L1|rewrite <- L2|rewrite <- L3]; det_unf; ring.
Qed.
End Opaque.

(** The call does not panic and returns an axis; for a triangle that is not
    degenerate it is one along which the projected triangle is not
    degenerate, whichever stage decides. *)
Theorem C37_projection : forall ax ay az bx by_ bz cx cy cz,
  coord ax -> coord ay -> coord az -> coord bx -> coord by_ -> coord bz -> coord cx -> coord cy -> coord cz ->
  let a := point3 ax ay az in let b := point3 bx by_ bz in let c := point3 cx cy cz in
  exists k, max_comp_in_tri_normal ax ay az bx by_ bz cx cy cz = Some k /\ (k < 3)%nat /\
    (~ collinear a b c -> projected_area k a b c <> 0).
Proof.
  intros. unfold max_comp_in_tri_normal.
  destruct (filter_ok ax ay az bx by_ bz cx cy cz _ H H0 H1 H2 H3 H4 H5 H6 H7 eq_refl) as [E|[L E]].
  - rewrite E. cbn [Nat.ltb Nat.leb]. destruct (exact_ok ax ay az bx by_ bz cx cy cz) as (k & Ek & L & Q); auto.
    exists k. split; auto.
  - rewrite (proj2 (Nat.ltb_lt _ _) L). eexists. split; [reflexivity|]. auto.
Qed.
(** That axis need not be the one of the largest component of the normal: the
    comparison is between rounded components. *)
Theorem C37_largest_refuted : exists ax ay az bx by_ bz cx cy cz k j,
  coord ax /\ coord ay /\ coord az /\ coord bx /\ coord by_ /\ coord bz /\ coord cx /\ coord cy /\ coord cz /\
  let a := point3 ax ay az in let b := point3 bx by_ bz in let c := point3 cx cy cz in
  max_comp_in_tri_normal ax ay az bx by_ bz cx cy cz = Some k /\ (j < 3)%nat /\
  Rabs (projected_area k a b c) < Rabs (projected_area j a b c).
Proof.
  exists (fl 0 0), (fl 1 (-60)), (fl 0 0), (fl 1 0), (fl 1 (-60)), (fl 0 0), (fl 1 0), (fl 1 0), (fl 1 0), 2%nat, 1%nat.
  do 9 (split; [apply coord_lit; lia|]). split; [vm_compute; reflexivity|]. split; [lia|].
  unfold projected_area, point3, fst_axis, snd_axis, at3. rewrite !(fun z e H1 H2 => proj2 (Prop_Explicit.fl_lit z e H1 H2)) by lia. det_unf.
  change (bpow radix2 0) with 1. set (t := bpow radix2 (-60)).
  assert (T : 0 < t < 1). { split; [apply bpow_gt_0|]. change 1 with (bpow radix2 0). apply bpow_lt. lia. }
  match goal with |- Rabs ?x < Rabs ?y => replace x with (1 - t) by ring; replace y with (-1) by ring end.
  rewrite (Rabs_pos_eq (1 - t)) by lra. rewrite Rabs_left by lra. lra.
Qed.

(** A triangle on which the filter decides, and one left to the exact stage. *)
Example C37_filter_decides : max_comp_in_tri_normal_filter (fl 0 0) (fl 0 0) (fl 0 0) (fl 1 0) (fl 0 0) (fl 0 0) (fl 0 0) (fl 1 0) (fl 3 0) = 1%nat.
Proof. vm_compute. reflexivity. Qed.
Example C37_exact_decides :
  max_comp_in_tri_normal_filter (fl 0 0) (fl 0 0) (fl 0 0) (fl 1 0) (fl 1 0) (fl 1 0) (fl 2 0) (fl 2 0) (fl 9007199254740993 (-52)) = 3%nat /\
  max_comp_in_tri_normal (fl 1 (-70)) (fl 0 0) (fl 0 0) (fl 1 0) (fl 1 0) (fl 1 0) (fl 2 0) (fl 2 0) (fl 2 0) = Some 2%nat.
Proof. vm_compute. split; reflexivity. Qed.
Example C37_not_collinear : ~ collinear (0, 0, 0) (1, 0, 0) (0, 1, 3).
Proof.
  intros (s & t & N & H). assert (H0 := H 0%nat). assert (H1 := H 1%nat). unfold at3 in *. lra.
Qed.

Print Assumptions C37_projection.
Print Assumptions C37_largest_refuted.
