(** C35: a result that a floating-point filter lets through has the sign of
    the exact determinant. *)
From Coq Require Import ZArith Reals List Bool Lia Lra.
From Flocq Require Import Core BinarySingleNaN.
From Verif Require Import Lib F64 F64Facts Expansion Explicit ExpReal ExpFloat ExpZero ExpEst ExpSpec ExplicitSpec ExplicitProofs ExplicitInc
  Prop_Explicit ErrBound ErrStageA ErrStatic Err2d.
Import ListNotations.
Local Open Scope R_scope.

(** * orient2d
    All of its stages: the two returns on the signs of the products, the
    first filter, the second and third stages and the exact stage. *)
Theorem C35_orient2d : forall ax ay bx by_ cx cy,
  coord ax -> coord ay -> coord bx -> coord by_ -> coord cx -> coord cy ->
  exists r, orient2d ax ay bx by_ cx cy = Some r /\
    same_sign r (orient2d_det (B2R ax) (B2R ay) (B2R bx) (B2R by_) (B2R cx) (B2R cy)).
Proof. exact orient2d_full. Qed.

(** * The first filter of the others
    Either the predicate returns a float with the sign of the determinant, or
    it hands over to its adaptive function, with the mass of the determinant
    as the bound. *)
Theorem C35_orient3d_filter : forall ax ay az bx by_ bz cx cy cz dx dy dz,
  coord ax -> coord ay -> coord az -> coord bx -> coord by_ -> coord bz -> coord cx -> coord cy -> coord cz -> coord dx -> coord dy -> coord dz ->
  (exists r, orient3d ax ay az bx by_ bz cx cy cz dx dy dz = Some r /\
     same_sign r (orient3d_det (B2R ax) (B2R ay) (B2R az) (B2R bx) (B2R by_) (B2R bz) (B2R cx) (B2R cy) (B2R cz) (B2R dx) (B2R dy) (B2R dz))) \/
  orient3d ax ay az bx by_ bz cx cy cz dx dy dz =
    orient3d_adapt ax ay az bx by_ bz cx cy cz dx dy dz (orient3d_permanent ax ay az bx by_ bz cx cy cz dx dy dz).
Proof. exact orient3d_filter_ok. Qed.
Theorem C35_incircle_filter : forall ax ay bx by_ cx cy dx dy,
  coord ax -> coord ay -> coord bx -> coord by_ -> coord cx -> coord cy -> coord dx -> coord dy ->
  (exists r, incircle ax ay bx by_ cx cy dx dy = Some r /\
     same_sign r (incircle_det (B2R ax) (B2R ay) (B2R bx) (B2R by_) (B2R cx) (B2R cy) (B2R dx) (B2R dy))) \/
  incircle ax ay bx by_ cx cy dx dy =
    incircle_adapt ax ay bx by_ cx cy dx dy (incircle_permanent ax ay bx by_ cx cy dx dy).
Proof. exact incircle_filter_ok. Qed.
(** insphere's first filter is a static one: the fifth power of the largest
    coordinate difference times a constant (predicates.rs:1544-1566). *)
Theorem C35_insphere_filter : forall ax ay az bx by_ bz cx cy cz dx dy dz ex ey ez,
  coord ax -> coord ay -> coord az -> coord bx -> coord by_ -> coord bz -> coord cx -> coord cy -> coord cz ->
  coord dx -> coord dy -> coord dz -> coord ex -> coord ey -> coord ez ->
  (exists r, insphere ax ay az bx by_ bz cx cy cz dx dy dz ex ey ez = Some r /\
     same_sign r (insphere5_det (B2R ax) (B2R ay) (B2R az) (B2R bx) (B2R by_) (B2R bz) (B2R cx) (B2R cy) (B2R cz)
                   (B2R dx) (B2R dy) (B2R dz) (B2R ex) (B2R ey) (B2R ez))) \/
  insphere ax ay az bx by_ bz cx cy cz dx dy dz ex ey ez =
    insphere_adapt ax ay az bx by_ bz cx cy cz dx dy dz ex ey ez
      (insphere_permanent ax ay az bx by_ bz cx cy cz dx dy dz ex ey ez).
Proof. exact insphere_filter_ok. Qed.
Theorem C35_orient4d_filter : forall ax ay az bx by_ bz cx cy cz dx dy dz ex ey ez ah bh ch dh eh,
  coord ax -> coord ay -> coord az -> coord bx -> coord by_ -> coord bz -> coord cx -> coord cy -> coord cz ->
  coord dx -> coord dy -> coord dz -> coord ex -> coord ey -> coord ez ->
  height ah -> height bh -> height ch -> height dh -> height eh ->
  (exists r, orient4d ax ay az bx by_ bz cx cy cz dx dy dz ex ey ez ah bh ch dh eh = Some r /\
     same_sign r (orient4d_det (B2R ax) (B2R ay) (B2R az) (B2R bx) (B2R by_) (B2R bz) (B2R cx) (B2R cy) (B2R cz)
                   (B2R dx) (B2R dy) (B2R dz) (B2R ex) (B2R ey) (B2R ez) (B2R ah) (B2R bh) (B2R ch) (B2R dh) (B2R eh))) \/
  orient4d ax ay az bx by_ bz cx cy cz dx dy dz ex ey ez ah bh ch dh eh =
    orient4d_adapt ax ay az bx by_ bz cx cy cz dx dy dz ex ey ez ah bh ch dh eh
      (orient4d_permanent ax ay az bx by_ bz cx cy cz dx dy dz ex ey ez ah bh ch dh eh).
Proof. exact orient4d_filter_ok. Qed.

(** * The whole predicates
    Full statement: the result has the sign of the determinant.  Missing: the
    results that the second or the third stage lets through, which the last
    two alternatives describe. *)
Theorem C35_incircle_partial : forall ax ay bx by_ cx cy dx dy,
  coord ax -> coord ay -> coord bx -> coord by_ -> coord cx -> coord cy -> coord dx -> coord dy ->
  let permanent := incircle_permanent ax ay bx by_ cx cy dx dy in
  exists r, incircle ax ay bx by_ cx cy dx dy = Some r /\
    (same_sign r (incircle_det (B2R ax) (B2R ay) (B2R bx) (B2R by_) (B2R cx) (B2R cy) (B2R dx) (B2R dy)) \/
     beyond r (fmul icc_err_boundb permanent) = true \/
     exists det_b, beyond r (fadd (fmul icc_err_boundc permanent) (fmul result_err_bound (fabs det_b))) = true).
Proof.
  intros. destruct (C35_incircle_filter ax ay bx by_ cx cy dx dy) as [(r & E & S)|E]; auto.
  - exists r. auto.
  - rewrite E. apply C34_incircle; auto.
Qed.
Theorem C35_insphere_partial : forall ax ay az bx by_ bz cx cy cz dx dy dz ex ey ez,
  coord ax -> coord ay -> coord az -> coord bx -> coord by_ -> coord bz -> coord cx -> coord cy -> coord cz ->
  coord dx -> coord dy -> coord dz -> coord ex -> coord ey -> coord ez ->
  let permanent := insphere_permanent ax ay az bx by_ bz cx cy cz dx dy dz ex ey ez in
  exists r, insphere ax ay az bx by_ bz cx cy cz dx dy dz ex ey ez = Some r /\
    (same_sign r (insphere5_det (B2R ax) (B2R ay) (B2R az) (B2R bx) (B2R by_) (B2R bz) (B2R cx) (B2R cy) (B2R cz)
                   (B2R dx) (B2R dy) (B2R dz) (B2R ex) (B2R ey) (B2R ez)) \/
     beyond r (fmul isp_err_boundb permanent) = true \/
     exists det_b, beyond r (fadd (fmul isp_err_boundc permanent) (fmul result_err_bound (fabs det_b))) = true).
Proof.
  intros. destruct (C35_insphere_filter ax ay az bx by_ bz cx cy cz dx dy dz ex ey ez) as [(r & E & S)|E]; auto.
  - exists r. auto.
  - rewrite E. apply C34_insphere; auto.
Qed.
Theorem C35_orient4d_partial : forall ax ay az bx by_ bz cx cy cz dx dy dz ex ey ez ah bh ch dh eh,
  coord ax -> coord ay -> coord az -> coord bx -> coord by_ -> coord bz -> coord cx -> coord cy -> coord cz ->
  coord dx -> coord dy -> coord dz -> coord ex -> coord ey -> coord ez ->
  height ah -> height bh -> height ch -> height dh -> height eh ->
  let permanent := orient4d_permanent ax ay az bx by_ bz cx cy cz dx dy dz ex ey ez ah bh ch dh eh in
  exists r, orient4d ax ay az bx by_ bz cx cy cz dx dy dz ex ey ez ah bh ch dh eh = Some r /\
    (same_sign r (orient4d_det (B2R ax) (B2R ay) (B2R az) (B2R bx) (B2R by_) (B2R bz) (B2R cx) (B2R cy) (B2R cz)
                   (B2R dx) (B2R dy) (B2R dz) (B2R ex) (B2R ey) (B2R ez) (B2R ah) (B2R bh) (B2R ch) (B2R dh) (B2R eh)) \/
     beyond r (fmul isp_err_boundb permanent) = true \/
     exists det_b, beyond r (fadd (fmul isp_err_boundc permanent) (fmul result_err_bound (fabs det_b))) = true).
Proof.
  intros. destruct (C35_orient4d_filter ax ay az bx by_ bz cx cy cz dx dy dz ex ey ez ah bh ch dh eh) as [(r & E & S)|E]; auto.
  - exists r. auto.
  - rewrite E. apply C34_orient4d; auto.
Qed.
(** Also missing for orient3d: its last stage, which is wrong
    (C34_orient3d_refuted), except when the extra term is zero. *)
Theorem C35_orient3d_partial : forall ax ay az bx by_ bz cx cy cz dx dy dz,
  coord ax -> coord ay -> coord az -> coord bx -> coord by_ -> coord bz -> coord cx -> coord cy -> coord cz -> coord dx -> coord dy -> coord dz ->
  rest cz dz = rest cx dx \/ (rest ay dy = 0 /\ rest by_ dy = 0) ->
  let permanent := orient3d_permanent ax ay az bx by_ bz cx cy cz dx dy dz in
  exists r, orient3d ax ay az bx by_ bz cx cy cz dx dy dz = Some r /\
    (same_sign r (orient3d_det (B2R ax) (B2R ay) (B2R az) (B2R bx) (B2R by_) (B2R bz) (B2R cx) (B2R cy) (B2R cz) (B2R dx) (B2R dy) (B2R dz)) \/
     beyond r (fmul o3d_err_boundb permanent) = true \/
     exists det_b, beyond r (fadd (fmul o3d_err_boundc permanent) (fmul result_err_bound (fabs det_b))) = true).
Proof.
  intros. destruct (C35_orient3d_filter ax ay az bx by_ bz cx cy cz dx dy dz) as [(r & E & S)|E]; auto.
  - exists r. auto.
  - rewrite E. apply C34_orient3d_partial; auto.
Qed.

(** * Concrete inputs
    Inputs in the domain on which each filter returns a non-zero value, and
    inputs on which it does not. *)
Example C35_orient2d_nearly : match orient2d (fl 1 0) (fl 1 0) (fl 2 0) (fl 2 0) (fl 1 (-60)) (fl 3 (-60)) with Some r => flt fzero r | None => false end = true.
Proof. vm_compute. reflexivity. Qed.
Example C35_orient3d_accepts :
  match orient3d (fl 1 0) (fl 0 0) (fl 0 0) (fl 0 0) (fl 1 0) (fl 0 0) (fl 0 0) (fl 0 0) (fl 1 0) (fl 3 (-60)) (fl 5 (-60)) (fl (-7) 0) with
  | Some r => nonzero r | None => false end = true.
Proof. vm_compute. reflexivity. Qed.
Example C35_insphere_accepts :
  match insphere (fl 1 0) (fl 0 0) (fl 0 0) (fl 0 0) (fl 1 0) (fl 0 0) (fl 0 0) (fl 0 0) (fl 1 0) (fl (-1) 0) (fl 0 0) (fl 0 0)
          (fl 1 (-60)) (fl 1 (-60)) (fl 1 (-60)) with
  | Some r => nonzero r | None => false end = true.
Proof. vm_compute. reflexivity. Qed.
(** Four cocircular points: the filter does not let the zero through. *)
Example C35_incircle_hands_over :
  beyond_strict fzero (fmul icc_err_bounda (incircle_permanent (fl 1 0) (fl 0 0) (fl 0 0) (fl 1 0) (fl (-1) 0) (fl 0 0) (fl 0 0) (fl (-1) 0))) = false.
Proof. vm_compute. reflexivity. Qed.

Print Assumptions C35_orient2d.
Print Assumptions C35_orient3d_filter.
Print Assumptions C35_incircle_filter.
Print Assumptions C35_insphere_filter.
Print Assumptions C35_orient4d_filter.
Print Assumptions C35_incircle_partial.
Print Assumptions C35_insphere_partial.
Print Assumptions C35_orient4d_partial.
Print Assumptions C35_orient3d_partial.
