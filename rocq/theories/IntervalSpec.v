(** What an IntervalNumber stands for: a set of reals.  Lane 0 bounds the set
    from above, lane 1 bounds its mirror image. *)
From Coq Require Import ZArith Reals Bool.
From Flocq Require Import Core BinarySingleNaN.
From Verif Require Import F64 Interval.
Local Open Scope R_scope.

(** [x <= a], where a NaN lane or +inf bounds everything. *)
Definition below (x : R) (a : f64) : Prop :=
  match a with
  | B754_nan => True
  | B754_infinity s => s = false
  | _ => x <= B2R a
  end.

(** [x] is a member of the interval. *)
Definition contains (x : R) (i : ival) : Prop := below x (hi i) /\ below (- x) (nlo i).

Definition no_nan (i : ival) : Prop := is_nan (hi i) = false /\ is_nan (nlo i) = false.

(** Not both sign bits set: with a member this only excludes the pair (-0, -0). *)
Definition signs_ok (i : ival) : Prop := sign_neg (hi i) && sign_neg (nlo i) = false.
