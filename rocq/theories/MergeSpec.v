(** Specification of the merging of two triangulations (C82). *)
From Coq Require Import List Arith ZArith Reals.
From Verif Require Import Prop_TriSeg.
Import ListNotations.
Local Open Scope R_scope.

(** Positive when [d] is inside the circle through [a], [b] and [c], for these
    counterclockwise. *)
Definition circ (a b c d : R * R) : R :=
  let f p := (fst p - fst d, snd p - snd d) in
  let q p := fst (f p) * fst (f p) + snd (f p) * snd (f p) in
  q a * (fst (f b) * snd (f c) - snd (f b) * fst (f c))
  - q b * (fst (f a) * snd (f c) - snd (f a) * fst (f c))
  + q c * (fst (f a) * snd (f b) - snd (f a) * fst (f b)).
(** The signs of incircle are those of the exact determinant. *)
Definition exact_circles (P : nat -> R * R) (inc : nat -> nat -> nat -> nat -> Z) : Prop :=
  forall a b c d, inc a b c d = sgn (circ (P a) (P b) (P c) (P d)).
