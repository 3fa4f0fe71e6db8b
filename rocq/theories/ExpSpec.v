(** What the theorems about expansions talk about: exact values of lists of
    f64 and Shewchuk's notions of (strongly) nonoverlapping components.  A
    component list is in the order of the code, least first. *)
From Coq Require Import ZArith Reals List.
From Flocq Require Import Core BinarySingleNaN.
From Verif Require Import F64.
Import ListNotations.
Local Open Scope R_scope.

Definition all_finite (l : list f64) : Prop := forall x, In x l -> is_finite x = true.
(** The exact (real) sum of the components. *)
Definition exact_value (l : list f64) : R := fold_right (fun x s => B2R x + s) 0 l.
(** [x] is an integer multiple of 2^k *)
Definition multiple (k : Z) (x : R) : Prop := exists n : Z, x = IZR n * bpow radix2 k.
Definition on_grid (k : Z) (l : list f64) : Prop := forall x, In x l -> multiple k (B2R x).

(** The bits of [y] lie below those of [x]. *)
Definition bits_below (y x : R) : Prop := exists k, multiple k x /\ Rabs y < bpow radix2 k.
(** ... with at least one free position between them *)
Definition bits_below_gap (y x : R) : Prop := exists k, multiple k x /\ 2 * Rabs y < bpow radix2 k.
Definition power_of_two (x : R) : Prop := exists k, Rabs x = bpow radix2 k.

(** Components [xs], largest first. *)
Fixpoint nonoverlapping_desc (xs : list R) : Prop :=
  match xs with
  | [] => True
  | x :: o => (forall y, In y o -> bits_below y x) /\ nonoverlapping_desc o
  end.
(** Strongly nonoverlapping: nonoverlapping, no component is adjacent to two
    others, and two adjacent components are both powers of two. *)
Fixpoint strong_desc (xs : list R) : Prop :=
  match xs with
  | [] => True
  | x :: o =>
    x <> 0 /\ strong_desc o /\
    match o with
    | [] => True
    | y :: o' => bits_below_gap y x \/
        (bits_below y x /\ power_of_two x /\ power_of_two y /\
         match o' with [] => True | z :: _ => bits_below_gap z y end)
    end
  end.
Definition nonoverlapping (l : list f64) : Prop := nonoverlapping_desc (rev (map (fun x => B2R x) l)).
(** An operand: finite components, strongly nonoverlapping, or a single zero. *)
Definition operand (l : list f64) : Prop :=
  all_finite l /\
  (l <> [] /\ strong_desc (rev (map (fun x => B2R x) l)) \/ exists z, l = [z] /\ B2R z = 0).
