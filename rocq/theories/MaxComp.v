(** The projection axis of a triangle (predicates/mod.rs). *)
From Coq Require Import ZArith List Bool.
From Flocq Require Import Core BinarySingleNaN.
From Verif Require Import Lib F64 Expansion GenericFormulas Filters.
Import ListNotations.

(** f64::total_cmp of two floats without sign: [b] is not less than [a]
    (numbers in order, infinity above them and NaN above infinity). *)
Definition total_le (a b : f64) : bool :=
  is_nan b || (negb (is_nan a) && fle a b).
(** Iterator::max_by over enumerate(): the last of the largest elements. *)
Definition max_index (vx vy vz : f64) : nat * f64 :=
  let m1 := if total_le vx vy then (1, vy) else (0, vx) in
  if total_le (snd m1) vz then (2, vz) else m1.

(** mod.rs:124-151 [max_comp_in_tri_normal_filter]; the constant 8.88395e-016 *)
Definition tri_normal_eps : f64 := fl 4504697819959031 (-102).
Definition max_comp_in_tri_normal_filter (ov1x ov1y ov1z ov2x ov2y ov2z ov3x ov3y ov3z : f64) : nat :=
  let '((nvx, nvy, nvz), l) := max_comp_in_tri_normal_impl f64_ops ov1x ov1y ov1z ov2x ov2y ov2z ov3x ov3y ov3z in
  let max_var := abs_max l in
  let epsilon := fmul (fmul tri_normal_eps max_var) max_var in
  let (max_comp, max_val) := max_index (fabs nvx) (fabs nvy) (fabs nvz) in
  if flt epsilon max_val then max_comp else 3.

(** mod.rs:153-184 [max_comp_in_tri_normal_exact]; [None]: a panic (an
    expansion without components). *)
Definition max_comp_in_tri_normal_exact (ov1x ov1y ov1z ov2x ov2y ov2z ov3x ov3y ov3z : xnum) : option nat :=
  let '((nvx, nvy, nvz), _) := max_comp_in_tri_normal_impl xops ov1x ov1y ov1z ov2x ov2y ov2z ov3x ov3y ov3z in
  obind (x_last nvx) (fun x => obind (x_last nvy) (fun y => obind (x_last nvz) (fun z =>
    Some (fst (max_index (fabs x) (fabs y) (fabs z)))))).

(** mod.rs:186-211 [max_comp_in_tri_normal] *)
Definition max_comp_in_tri_normal (ov1x ov1y ov1z ov2x ov2y ov2z ov3x ov3y ov3z : f64) : option nat :=
  let max_comp := max_comp_in_tri_normal_filter ov1x ov1y ov1z ov2x ov2y ov2z ov3x ov3y ov3z in
  if Nat.ltb max_comp 3 then Some max_comp
  else max_comp_in_tri_normal_exact (xof ov1x) (xof ov1y) (xof ov1z) (xof ov2x) (xof ov2y) (xof ov2z) (xof ov3x) (xof ov3y) (xof ov3z).
