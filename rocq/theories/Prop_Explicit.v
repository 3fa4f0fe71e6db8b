(** C34: the exact stages of the explicit predicates evaluate the determinant. *)
From Coq Require Import ZArith Reals List Bool Lia Lra.
From Flocq Require Import Core BinarySingleNaN.
From Verif Require Import Lib F64 F64Facts Expansion Explicit ExpReal ExpFloat ExpZero ExpEst ExpSpec ExplicitSpec ExplicitProofs ExplicitInc.
Import ListNotations.
Local Open Scope R_scope.

(** * The exact functions *)
(** insphere_exact returns a float with the sign of the 5 x 5 determinant of
    the rows (x, y, z, x^2 + y^2 + z^2, 1). *)
Theorem C34_insphere_exact : forall ax ay az bx by_ bz cx cy cz dx dy dz ex ey ez,
  coord ax -> coord ay -> coord az -> coord bx -> coord by_ -> coord bz -> coord cx -> coord cy -> coord cz ->
  coord dx -> coord dy -> coord dz -> coord ex -> coord ey -> coord ez ->
  exists r, insphere_exact ax ay az bx by_ bz cx cy cz dx dy dz ex ey ez = Some r /\
    same_sign r (insphere5_det (B2R ax) (B2R ay) (B2R az) (B2R bx) (B2R by_) (B2R bz) (B2R cx) (B2R cy) (B2R cz)
                   (B2R dx) (B2R dy) (B2R dz) (B2R ex) (B2R ey) (B2R ez)).
Proof. exact insphere_exact_ok. Qed.
(** orient4d_exact: the same with given heights in the fourth column. *)
Theorem C34_orient4d_exact : forall ax ay az bx by_ bz cx cy cz dx dy dz ex ey ez ah bh ch dh eh,
  coord ax -> coord ay -> coord az -> coord bx -> coord by_ -> coord bz -> coord cx -> coord cy -> coord cz ->
  coord dx -> coord dy -> coord dz -> coord ex -> coord ey -> coord ez ->
  height ah -> height bh -> height ch -> height dh -> height eh ->
  exists r, orient4d_exact ax ay az bx by_ bz cx cy cz dx dy dz ex ey ez ah bh ch dh eh = Some r /\
    same_sign r (orient4d_det (B2R ax) (B2R ay) (B2R az) (B2R bx) (B2R by_) (B2R bz) (B2R cx) (B2R cy) (B2R cz)
                   (B2R dx) (B2R dy) (B2R dz) (B2R ex) (B2R ey) (B2R ez) (B2R ah) (B2R bh) (B2R ch) (B2R dh) (B2R eh)).
Proof. exact orient4d_exact_ok. Qed.

(** * The adaptive functions
    Whatever bound [permanent] they are given, they do not panic, and a result
    that neither the second nor the third stage has certified (by exceeding
    its error bound) has the sign of the determinant.  That covers the return
    for zero tails and the last stage. *)
Theorem C34_orient2d : forall ax ay bx by_ cx cy detsum,
  coord ax -> coord ay -> coord bx -> coord by_ -> coord cx -> coord cy ->
  exists r, orient2d_adapt ax ay bx by_ cx cy detsum = Some r /\
    (same_sign r (orient2d_det (B2R ax) (B2R ay) (B2R bx) (B2R by_) (B2R cx) (B2R cy)) \/
     beyond r (fmul ccw_err_boundb detsum) = true \/
     exists det_b, beyond r (fadd (fmul ccw_err_boundc detsum) (fmul result_err_bound (fabs det_b))) = true).
Proof. exact orient2d_adapt_ok. Qed.
Theorem C34_incircle : forall ax ay bx by_ cx cy dx dy permanent,
  coord ax -> coord ay -> coord bx -> coord by_ -> coord cx -> coord cy -> coord dx -> coord dy ->
  exists r, incircle_adapt ax ay bx by_ cx cy dx dy permanent = Some r /\
    (same_sign r (incircle_det (B2R ax) (B2R ay) (B2R bx) (B2R by_) (B2R cx) (B2R cy) (B2R dx) (B2R dy)) \/
     beyond r (fmul icc_err_boundb permanent) = true \/
     exists det_b, beyond r (fadd (fmul icc_err_boundc permanent) (fmul result_err_bound (fabs det_b))) = true).
Proof. exact incircle_adapt_ok. Qed.
Theorem C34_insphere : forall ax ay az bx by_ bz cx cy cz dx dy dz ex ey ez permanent,
  coord ax -> coord ay -> coord az -> coord bx -> coord by_ -> coord bz -> coord cx -> coord cy -> coord cz ->
  coord dx -> coord dy -> coord dz -> coord ex -> coord ey -> coord ez ->
  exists r, insphere_adapt ax ay az bx by_ bz cx cy cz dx dy dz ex ey ez permanent = Some r /\
    (same_sign r (insphere5_det (B2R ax) (B2R ay) (B2R az) (B2R bx) (B2R by_) (B2R bz) (B2R cx) (B2R cy) (B2R cz)
                   (B2R dx) (B2R dy) (B2R dz) (B2R ex) (B2R ey) (B2R ez)) \/
     beyond r (fmul isp_err_boundb permanent) = true \/
     exists det_b, beyond r (fadd (fmul isp_err_boundc permanent) (fmul result_err_bound (fabs det_b))) = true).
Proof. exact insphere_adapt_ok. Qed.
Theorem C34_orient4d : forall ax ay az bx by_ bz cx cy cz dx dy dz ex ey ez ah bh ch dh eh permanent,
  coord ax -> coord ay -> coord az -> coord bx -> coord by_ -> coord bz -> coord cx -> coord cy -> coord cz ->
  coord dx -> coord dy -> coord dz -> coord ex -> coord ey -> coord ez ->
  height ah -> height bh -> height ch -> height dh -> height eh ->
  exists r, orient4d_adapt ax ay az bx by_ bz cx cy cz dx dy dz ex ey ez ah bh ch dh eh permanent = Some r /\
    (same_sign r (orient4d_det (B2R ax) (B2R ay) (B2R az) (B2R bx) (B2R by_) (B2R bz) (B2R cx) (B2R cy) (B2R cz)
                   (B2R dx) (B2R dy) (B2R dz) (B2R ex) (B2R ey) (B2R ez) (B2R ah) (B2R bh) (B2R ch) (B2R dh) (B2R eh)) \/
     beyond r (fmul isp_err_boundb permanent) = true \/
     exists det_b, beyond r (fadd (fmul isp_err_boundc permanent) (fmul result_err_bound (fabs det_b))) = true).
Proof. exact orient4d_adapt_ok. Qed.

(** orient3d_adapt: the last stage has a wrong argument (predicates.rs:731-733
    passes cdztail for cdxtail).  [rest a b] is what rounding took from the
    difference a - b.  The last stage evaluates the determinant plus an extra
    term, so it is right when that term is zero. *)
Definition rest (a b : f64) : R := B2R a - B2R b - B2R (fsub a b).
Theorem C34_orient3d_value : forall ax ay az bx by_ bz cx cy cz dx dy dz permanent,
  coord ax -> coord ay -> coord az -> coord bx -> coord by_ -> coord bz -> coord cx -> coord cy -> coord cz -> coord dx -> coord dy -> coord dz ->
  exists r, orient3d_adapt ax ay az bx by_ bz cx cy cz dx dy dz permanent = Some r /\
    (same_sign r (orient3d_det (B2R ax) (B2R ay) (B2R az) (B2R bx) (B2R by_) (B2R bz) (B2R cx) (B2R cy) (B2R cz) (B2R dx) (B2R dy) (B2R dz)
       + (rest cz dz - rest cx dx) * (rest ay dy * (B2R bz - B2R dz) - rest by_ dy * (B2R az - B2R dz))) \/
     beyond r (fmul o3d_err_boundb permanent) = true \/
     exists det_b, beyond r (fadd (fmul o3d_err_boundc permanent) (fmul result_err_bound (fabs det_b))) = true).
Proof. exact orient3d_adapt_ok. Qed.
(** Missing: the general case, which is false (next theorem). *)
Theorem C34_orient3d_partial : forall ax ay az bx by_ bz cx cy cz dx dy dz permanent,
  coord ax -> coord ay -> coord az -> coord bx -> coord by_ -> coord bz -> coord cx -> coord cy -> coord cz -> coord dx -> coord dy -> coord dz ->
  rest cz dz = rest cx dx \/ (rest ay dy = 0 /\ rest by_ dy = 0) ->
  exists r, orient3d_adapt ax ay az bx by_ bz cx cy cz dx dy dz permanent = Some r /\
    (same_sign r (orient3d_det (B2R ax) (B2R ay) (B2R az) (B2R bx) (B2R by_) (B2R bz) (B2R cx) (B2R cy) (B2R cz) (B2R dx) (B2R dy) (B2R dz)) \/
     beyond r (fmul o3d_err_boundb permanent) = true \/
     exists det_b, beyond r (fadd (fmul o3d_err_boundc permanent) (fmul result_err_bound (fabs det_b))) = true).
Proof.
  intros ax ay az bx by_ bz cx cy cz dx dy dz p Ax Ay Az Bx By Bz Cx Cy Cz Dx Dy Dz H.
  destruct (C34_orient3d_value ax ay az bx by_ bz cx cy cz dx dy dz p) as (r & E & S); auto. exists r. split; auto.
  destruct S as [S|S]; [|right; exact S]. left.
  match type of S with same_sign _ (?u + ?w) => replace (u + w) with u in S; auto; replace w with 0; [ring|] end.
  destruct H as [->|[-> ->]]; ring.
Qed.

(** Literals. *)
Lemma fl_lit : forall z e, (Z.abs z <= 2 ^ 53)%Z -> (-1074 <= e <= 900)%Z ->
  is_finite (fl z e) = true /\ B2R (fl z e) = IZR z * bpow radix2 e.
Proof.
  intros z e Hz He. pose proof (binary_normalize_correct prec emax eq_refl eq_refl mode_NE z e false) as C. cbv zeta in C.
  change (binary_normalize prec emax eq_refl eq_refl mode_NE z e false) with (fl z e) in C.
  assert (Fm : fmt (IZR z * B e)).
  { apply fmt_mult with e; [exists z; reflexivity|lia|]. rewrite Rabs_mult, (Rabs_pos_eq (B e)) by (left; apply B_pos).
    replace (e + 53)%Z with (53 + e)%Z by lia. rewrite (B_plus 53). apply Rmult_le_compat_r; [left; apply B_pos|].
    rewrite <- abs_IZR. change (B 53) with (IZR (2 ^ 53)). apply IZR_le. auto. }
  change (F2R {| Fnum := z; Fexp := e |}) with (IZR z * B e) in C.
  rewrite round_generic in C; [|apply valid_rnd_N|exact Fm].
  rewrite Rlt_bool_true in C.
  - destruct C as (V & F & _). split; auto.
  - rewrite Rabs_mult, (Rabs_pos_eq (B e)) by (left; apply B_pos). rewrite <- abs_IZR.
    apply Rle_lt_trans with (B 53 * B e).
    + apply Rmult_le_compat_r; [left; apply B_pos|]. change (B 53) with (IZR (2 ^ 53)). apply IZR_le. auto.
    + rewrite <- B_plus. apply bpow_lt. unfold emax. lia.
Qed.
Lemma coord_lit : forall z e, (Z.abs z <= 2 ^ 53)%Z -> (-180 <= e <= 40)%Z -> coord (fl z e).
Proof.
  intros z e Hz He. destruct (fl_lit z e Hz) as (F & V); [lia|]. split; auto. rewrite V. split.
  - exists (z * 2 ^ (e + 180))%Z. rewrite mult_IZR, (IZR_Zpower radix2) by lia. rewrite Rmult_assoc, <- bpow_plus. f_equal. f_equal. lia.
  - rewrite Rabs_mult, (Rabs_pos_eq (bpow radix2 e)) by apply bpow_ge_0. rewrite <- abs_IZR.
    apply Rle_trans with (B 53 * B e); [|rewrite <- B_plus; apply bpow_le; lia].
    apply Rmult_le_compat_r; [apply bpow_ge_0|]. change (B 53) with (IZR (2 ^ 53)). apply IZR_le. auto.
Qed.
(** Four points on the plane z = x + 2 y: orient3d says they are not coplanar. *)
Theorem C34_orient3d_refuted : exists ax ay az bx by_ bz cx cy cz dx dy dz r,
  coord ax /\ coord ay /\ coord az /\ coord bx /\ coord by_ /\ coord bz /\ coord cx /\ coord cy /\ coord cz /\ coord dx /\ coord dy /\ coord dz /\
  orient3d_det (B2R ax) (B2R ay) (B2R az) (B2R bx) (B2R by_) (B2R bz) (B2R cx) (B2R cy) (B2R cz) (B2R dx) (B2R dy) (B2R dz) = 0 /\
  orient3d ax ay az bx by_ bz cx cy cz dx dy dz = Some r /\ 0 < B2R r.
Proof.
  set (o := orient3d (fl 1 0) (fl 1 0) (fl 3 0) (fl 2 0) (fl 1 0) (fl 4 0) (fl 1 0) (fl 2 0) (fl 5 0) (fl 2 (-60)) (fl (-1) (-60)) (fl 0 0)).
  assert (P : match o with Some r => flt fzero r && is_finite r | None => false end = true) by (vm_compute; reflexivity).
  destruct o as [r|] eqn:Eo; [|discriminate]. apply andb_true_iff in P. destruct P as [P F].
  exists (fl 1 0), (fl 1 0), (fl 3 0), (fl 2 0), (fl 1 0), (fl 4 0), (fl 1 0), (fl 2 0), (fl 5 0), (fl 2 (-60)), (fl (-1) (-60)), (fl 0 0), r.
  do 12 (split; [apply coord_lit; lia|]). split; [|split; [exact Eo|]].
  - rewrite !(fun z e H1 H2 => proj2 (fl_lit z e H1 H2)) by lia. det_unf. change (bpow radix2 0) with 1.
    set (t := bpow radix2 (-60)). ring.
  - unfold flt in P. rewrite Bltb_correct in P; auto. revert P. case Rlt_bool_spec; auto. discriminate.
Qed.

(** * Concrete inputs *)
Example C34_inputs : coord (fl 1 0) /\ coord (fl 3 (-60)) /\ coord (fl (-7) 20) /\ coord fzero.
Proof. split; [|split; [|split]]; try (apply coord_lit; lia). change (coord (fl 0 0)). apply coord_lit; lia. Qed.
(** A near-degenerate triangle that reaches the last stage of orient2d: the
    returned float is positive and the B bound of the call is not met. *)
Example C34_orient2d_last_stage :
  let detsum := fl 4 0 in
  match orient2d_adapt (fl 1 0) (fl 1 0) (fl 2 0) (fl 2 0) (fl 1 (-60)) (fl 3 (-60)) detsum with
  | Some r => flt fzero r && negb (beyond r (fmul ccw_err_boundb detsum))
  | None => false end = true.
Proof. vm_compute. reflexivity. Qed.
Example C34_incircle_last_stage :
  match incircle_adapt (fl 1 0) (fl 0 0) (fl 0 0) (fl 1 0) (fl (-1) 0) (fl 0 0) (fl 0 0) (fl (-1152921504606846975) (-60)) (fl 8 0) with
  | Some r => is_finite r
  | None => false end = true.
Proof. vm_compute. reflexivity. Qed.
Example C34_insphere_exact_runs :
  match insphere_exact (fl 1 0) (fl 0 0) (fl 0 0) (fl 0 0) (fl 1 0) (fl 0 0) (fl 0 0) (fl 0 0) (fl 1 0) (fl (-1) 0) (fl 0 0) (fl 0 0)
          (fl 1 (-60)) (fl 1 (-60)) (fl 1 (-60)) with
  | Some r => nonzero r
  | None => false end = true.
Proof. vm_compute. reflexivity. Qed.

Print Assumptions C34_insphere_exact.
Print Assumptions C34_orient4d_exact.
Print Assumptions C34_orient2d.
Print Assumptions C34_incircle.
Print Assumptions C34_insphere.
Print Assumptions C34_orient4d.
Print Assumptions C34_orient3d_value.
Print Assumptions C34_orient3d_partial.
Print Assumptions C34_orient3d_refuted.
