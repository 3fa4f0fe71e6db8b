(** Specification of the cutting of a set of points and of the triangulations of two
    and three points (C81): the readers of a triangle are the only functions of the
    model that occur here. *)
From Coq Require Import List Arith Reals Permutation Sorted.
From Verif Require Import Flip Prop_Flip.
Import ListNotations.

(** * Order *)
(** Coordinate [axis] of a point, and the order by it and then by the other one. *)
Definition coord (axis : nat) (p : R * R) : R := match axis with 0 => fst p | _ => snd p end.
Definition before (axis : nat) (p q : R * R) : Prop :=
  (coord axis p < coord axis q)%R \/ (coord axis p = coord axis q /\ (coord (1 - axis) p < coord (1 - axis) q)%R).

(** What select_nth_unstable_by(k, ..) is documented to do. *)
Definition selects (P : nat -> R * R) (sel : nat -> nat -> list nat -> list nat) : Prop :=
  forall axis k l, axis <= 1 -> k < length l -> Permutation (sel axis k l) l /\
    exists a x b, sel axis k l = a ++ x :: b /\ length a = k /\
      (forall i, In i a -> ~ before axis (P x) (P i)) /\ (forall j, In j b -> ~ before axis (P j) (P x)).

(** Two or three points in order of x; or two halves, the first not after the second
    on the axis, each cut on the other axis. *)
Inductive cut (P : nat -> R * R) : nat -> list nat -> Prop :=
| cut_small axis l : 2 <= length l <= 3 -> StronglySorted (fun i j => ~ before 0 (P j) (P i)) l -> cut P axis l
| cut_halves axis l r : 2 <= length l -> length r = length l \/ length r = S (length l) ->
    (forall i j, In i l -> In j r -> ~ before axis (P j) (P i)) ->
    cut P (1 - axis) l -> cut P (1 - axis) r -> cut P axis (l ++ r).

(** * Triangulations with ghosts *)
(** Consecutive sides of the list lead from one to the next around the hull. *)
Fixpoint path (f : hedge -> option hedge) (h : hedge) (l : list hedge) : Prop :=
  match l with [] => True | g :: l => f (next h) = Some g /\ path f g l end.

(** [m'] is [m] and, glued to nothing of it, a triangulation of the points [l] with a
    ghost triangle at each side of its hull ([INV] is the ghost vertex). *)
Record sheet (INV : nat) (ccw : nat -> nat -> nat -> BinInt.Z) (m m' : list triangle) (l : list nat) : Prop := {
  sh_old : exists new, m' = m ++ new;
  sh_data : forall t i, length m <= t < length m' -> i < 6 -> get_data m' t i <> None;
  (** every new side has a neighbour among the new ones, with the same ends *)
  sh_nei : forall h, length m <= fst h -> inside m' h ->
    exists g, sym m' h = Some g /\ length m <= fst g /\ inside m' g /\ sym m' g = Some h /\ g <> h /\
      org m' g = dest m' h /\ dest m' g = org m' h;
  (** the corners are the points and the ghost vertex, this at most once in a triangle; no side is marked *)
  sh_corner : forall t i v, length m <= t -> i < 3 -> get_data m' t i = Some v -> v = INV \/ In v l;
  sh_point : forall v, In v l -> exists t i, length m <= t /\ i < 3 /\ get_data m' t i = Some v;
  sh_once : forall t i j, length m <= t -> i < 3 -> j < 3 -> get_data m' t i = Some INV -> get_data m' t j = Some INV -> i = j;
  sh_mark : forall h, length m <= fst h -> inside m' h -> mark m' h = Some INV;
  (** the triangles without the ghost vertex are counterclockwise *)
  sh_real : forall t i j k, length m <= t -> get_data m' t 0 = Some i -> get_data m' t 1 = Some j -> get_data m' t 2 = Some k ->
    i <> INV -> j <> INV -> k <> INV -> BinInt.Z.lt 0 (ccw i j k);
  (** the ghosts are those met on the way around the hull, each once *)
  sh_hull : exists h hull, path (sym m') h (hull ++ [h]) /\ NoDup (map fst (h :: hull)) /\
    (forall g, In g (h :: hull) -> length m <= fst g /\ inside m' g /\ dest m' g = Some INV) /\
    forall t, length m <= t < length m' -> (exists i, i < 3 /\ get_data m' t i = Some INV) <-> In t (map fst (h :: hull)) }.

(** It comes with two of its ghosts: far_left goes from the first point to the ghost
    vertex, far_right from the ghost vertex to the last point. *)
Record piece (INV : nat) (ccw : nat -> nat -> nat -> BinInt.Z) (m m' : list triangle) (l : list nat) (far_left far_right : hedge) : Prop := {
  pc_sheet : sheet INV ccw m m' l;
  pc_left : length m <= fst far_left /\ inside m' far_left /\ dest m' far_left = Some INV /\ org m' far_left = Some (hd 0 l);
  pc_right : length m <= fst far_right /\ inside m' far_right /\ org m' far_right = Some INV /\ dest m' far_right = Some (last l 0) }.
