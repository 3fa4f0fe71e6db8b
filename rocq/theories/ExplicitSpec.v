(** Specification vocabulary for the explicit predicates: the determinant of
    a matrix by expansion along its first row, the coordinates considered,
    and what it means that a float has the sign of a real number. *)
From Coq Require Import ZArith Reals List.
From Flocq Require Import Core BinarySingleNaN.
From Verif Require Import F64 ExpSpec.
Import ListNotations.
Local Open Scope R_scope.

Fixpoint sum_upto (n : nat) (f : nat -> R) : R :=
  match n with O => 0 | S n => sum_upto n f + f n end.
(** [skip j k]: the column [k] of the matrix without column [j]. *)
Definition skip (j k : nat) : nat := if Nat.ltb k j then k else S k.
Fixpoint det_of (n : nat) (m : nat -> nat -> R) : R :=
  match n with
  | O => 1
  | S p => sum_upto (S p) (fun j => (-1) ^ j * m O j * det_of p (fun i k => m (S i) (skip j k)))
  end.
(** The determinant of a square matrix given by its rows. *)
Definition det (rows : list (list R)) : R :=
  det_of (length rows) (fun i j => nth j (nth i rows []) 0).

(** Coordinates for which no product of the predicates overflows or
    underflows: multiples of 2^-180 of magnitude at most 2^100. *)
Definition coord (x : f64) : Prop :=
  is_finite x = true /\ multiple (-180) (B2R x) /\ Rabs (B2R x) <= bpow radix2 100.
(** Heights of orient4d: multiples of 2^-360 of magnitude at most 2^200. *)
Definition height (x : f64) : Prop :=
  is_finite x = true /\ multiple (-360) (B2R x) /\ Rabs (B2R x) <= bpow radix2 200.
Definition same_sign (x : f64) (v : R) : Prop :=
  is_finite x = true /\ (0 < B2R x <-> 0 < v) /\ (B2R x < 0 <-> v < 0).

Definition sq (x : R) : R := x * x.
Definition orient2d_det (ax ay bx by_ cx cy : R) : R :=
  det [[ax; ay; 1]; [bx; by_; 1]; [cx; cy; 1]].
Definition orient3d_det (ax ay az bx by_ bz cx cy cz dx dy dz : R) : R :=
  det [[ax; ay; az; 1]; [bx; by_; bz; 1]; [cx; cy; cz; 1]; [dx; dy; dz; 1]].
Definition incircle_det (ax ay bx by_ cx cy dx dy : R) : R :=
  det [[ax; ay; sq ax + sq ay; 1]; [bx; by_; sq bx + sq by_; 1]; [cx; cy; sq cx + sq cy; 1]; [dx; dy; sq dx + sq dy; 1]].
Definition orient4d_det (ax ay az bx by_ bz cx cy cz dx dy dz ex ey ez ah bh ch dh eh : R) : R :=
  det [[ax; ay; az; ah; 1]; [bx; by_; bz; bh; 1]; [cx; cy; cz; ch; 1]; [dx; dy; dz; dh; 1]; [ex; ey; ez; eh; 1]].
Definition insphere5_det (ax ay az bx by_ bz cx cy cz dx dy dz ex ey ez : R) : R :=
  orient4d_det ax ay az bx by_ bz cx cy cz dx dy dz ex ey ez
    (sq ax + sq ay + sq az) (sq bx + sq by_ + sq bz) (sq cx + sq cy + sq cz) (sq dx + sq dy + sq dz) (sq ex + sq ey + sq ez).
