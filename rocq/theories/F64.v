(** Rust's [f64] is IEEE-754 binary64 with round to nearest even; here it is
    Flocq's [binary_float 53 1024] (all NaNs are one value, the sign bit of a
    NaN is taken as 0: no theorem relies on it).  The operations below run
    under [vm_compute]. *)
From Coq Require Import ZArith Reals List Bool.
From Flocq Require Import Core BinarySingleNaN.
Import ListNotations.

Definition prec : Z := 53.
Definition emax : Z := 1024.
Global Instance prec_pos : Prec_gt_0 prec := eq_refl.
Global Instance prec_emax : Prec_lt_emax prec emax := eq_refl.

Notation f64 := (binary_float prec emax).
Notation b64exp := (SpecFloat.fexp prec emax).
Notation rnd64 := (round radix2 b64exp ZnearestE).

Definition fadd (a b : f64) : f64 := Bplus mode_NE a b.
Definition fsub (a b : f64) : f64 := Bminus mode_NE a b.
Definition fmul (a b : f64) : f64 := Bmult mode_NE a b.
Definition fdiv (a b : f64) : f64 := Bdiv mode_NE a b.
Definition fneg (a : f64) : f64 := Bopp a.
Definition fabs (a : f64) : f64 := Babs a.
(** [f64::next_up] *)
Definition next_up (a : f64) : f64 := Bsucc a.
(** [a < b], [a > b], [a == b] on f64 (false when a side is NaN) *)
Definition flt (a b : f64) : bool := Bltb a b.
Definition feq (a b : f64) : bool := Beqb a b.
Definition fle (a b : f64) : bool := Bleb a b.
Definition fzero : f64 := B754_zero false.
(** [f64::is_sign_negative] *)
Definition sign_neg (a : f64) : bool := Bsign a.
(** [f64::max]: the other operand when one is NaN. *)
Definition fmax (a b : f64) : f64 :=
  if is_nan a then b else if is_nan b then a else if flt a b then b else a.

(** The f64 written [m * 2^e] (rounded to nearest even if need be). *)
Definition fl (m e : Z) : f64 := binary_normalize prec emax _ _ mode_NE m e false.

Definition finite (a : f64) : Prop := is_finite a = true.
