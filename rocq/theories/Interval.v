(** Model of /repo/src/predicates/interval_number.rs.  [f64x2] lanes are the
    two fields of a record; lane 0 is [hi], lane 1 is [nlo] (minus the lower
    bound).  SIMD operations are lane-wise. *)
From Coq Require Import ZArith Reals List Bool.
From Flocq Require Import Core BinarySingleNaN.
From Verif Require Import F64 GenericFormulas.
Import ListNotations.

(** interval_number.rs:9-13 *)
Record ival : Type := IV { hi : f64; nlo : f64 }.

(** interval_number.rs:15-22 [IntervalNumber::new] *)
Definition iv_new (low high : f64) : ival := IV high low.
(** interval_number.rs:33-40 [From<f64>] *)
Definition iv_of (v : f64) : ival := IV v (fneg v).
(** interval_number.rs:43-56 *)
Definition iv_not_zero (a : ival) : bool := flt (hi a) fzero || flt (nlo a) fzero.
Definition iv_positive (a : ival) : bool := flt (hi a) fzero.
Definition iv_negative (a : ival) : bool := flt (nlo a) fzero.
(** [f64x2::reverse]; interval_number.rs:58-61 [neg] *)
Definition rev2 (a : ival) : ival := IV (nlo a) (hi a).
Definition iv_neg (a : ival) : ival := rev2 a.
(** interval_number.rs:75-79 *)
Definition next_up2 (a : ival) : ival := IV (next_up (hi a)) (next_up (nlo a)).
(** lane-wise + and * of [f64x2] *)
Definition add2 (a b : ival) : ival := IV (fadd (hi a) (hi b)) (fadd (nlo a) (nlo b)).
Definition mul2 (a b : ival) : ival := IV (fmul (hi a) (hi b)) (fmul (nlo a) (nlo b)).
Definition both (x : f64) : ival := IV x x.
(** xor with SIGN_LOW_MASK (lane 1) / SIGN_HIGH_MASK (lane 0),
    interval_number.rs:6-7 *)
Definition flip_low (a : ival) : ival := IV (hi a) (fneg (nlo a)).
Definition flip_high (a : ival) : ival := IV (fneg (hi a)) (nlo a).
(** [is_sign_negative().to_bitmask()]: lane 0 is bit 0 *)
Definition bitmask (a : ival) : nat :=
  (if sign_neg (hi a) then 1 else 0) + (if sign_neg (nlo a) then 2 else 0).
(** [reduce_max] of two lanes *)
Definition reduce_max (a : ival) : f64 := fmax (hi a) (nlo a).

(** interval_number.rs:81-86 *)
Definition iv_add (a b : ival) : ival := next_up2 (add2 a b).
(** interval_number.rs:88-93 *)
Definition iv_sub (a b : ival) : ival := next_up2 (add2 (rev2 b) a).
(** interval_number.rs:95-146; [None] is panic!("never"). *)
Definition iv_mul (a b : ival) : option ival :=
  option_map next_up2
    match 4 * bitmask a + bitmask b with
    | 0 => let llhh := mul2 a b in
           let lhhl := mul2 a (rev2 b) in
           Some (IV (reduce_max lhhl) (reduce_max llhh))
    | 1 => Some (mul2 (rev2 a) (both (nlo b)))
    | 2 => Some (mul2 a (both (hi b)))
    | 4 => Some (mul2 (both (nlo a)) (rev2 b))
    | 5 => Some (rev2 (mul2 (flip_high a) b))
    | 6 => Some (mul2 a (rev2 (flip_low b)))
    | 8 => Some (rev2 (mul2 (both (hi a)) b))
    | 9 => Some (mul2 (rev2 (flip_low a)) b)
    | 10 => Some (mul2 a (flip_low b))
    | _ => None
    end.

(** The three operations as a [GenericNum], panics propagated. *)
Definition iv_ops : num_ops (option ival) := NumOps
  (fun a b => match a, b with Some a, Some b => Some (iv_add a b) | _, _ => None end)
  (fun a b => match a, b with Some a, Some b => Some (iv_sub a b) | _, _ => None end)
  (fun a b => match a, b with Some a, Some b => iv_mul a b | _, _ => None end).
