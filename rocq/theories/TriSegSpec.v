(** Specification of the walks over a triangulation: no function of the model
    other than the readers of a triangle occurs here. *)
From Coq Require Import List Arith Bool ZArith.
From Verif Require Import Flip Prop_Flip.
Import ListNotations.

(** * Regions *)
(** The triangles that are not ghosts. *)
Definition real (ghost : list bool) (t : nat) : Prop := nth_error ghost t = Some false.
(** Two of them with a common side that has no mark. *)
Definition joined (INV : nat) (m : list triangle) (ghost : list bool) (t u : nat) : Prop :=
  real ghost t /\ real ghost u /\ exists j g, j < 3 /\ mark m (t, j) = Some INV /\ sym m (t, j) = Some g /\ fst g = u.
(** The triangles that can be reached without crossing a mark. *)
Inductive region (INV : nat) (m : list triangle) (ghost : list bool) (t : nat) : nat -> Prop :=
| region_refl : real ghost t -> region INV m ghost t t
| region_step u v : region INV m ghost t u -> joined INV m ghost u v -> region INV m ghost t v.
(** A triangle with a marked side whose mark satisfies [p]. *)
Definition has (INV : nat) (m : list triangle) (p : nat -> bool) (t : nat) : Prop :=
  exists j k, j < 3 /\ mark m (t, j) = Some k /\ k <> INV /\ p k = true.
(** The two sides of an edge are both marked or both not. *)
Definition marked_pairs (INV : nat) (m : list triangle) : Prop :=
  forall h g, inside m h -> sym m h = Some g -> (mark m h = Some INV <-> mark m g = Some INV).
(** The corners of the triangles that are not ghosts, in order. *)
Definition corners (m : list triangle) (ghost : list bool) : list nat :=
  flat_map (fun tg : triangle * bool => if snd tg then [] else firstn 3 (data (fst tg))) (combine m ghost).

(** * Marks along a walk *)
(** Nothing differs but marks. *)
Definition shape (m m' : list triangle) : Prop := length m' = length m /\ (forall h, sym m' h = sym m h) /\
  (forall t i, i < 3 -> get_data m' t i = get_data m t i) /\ (forall t i, get_data m t i <> None <-> get_data m' t i <> None).
Fixpoint walk (m : list triangle) (es : list hedge) (u w : nat) : Prop :=
  match es with
  | [] => u = w
  | e :: es' => inside m e /\ org m e = Some u /\ exists v, dest m e = Some v /\ walk m es' v w
  end.
(** The mark of the other side of an edge: the even ones go with the next. *)
Definition other_mark (k : nat) : nat := if Nat.even k then k + 1 else k - 1.
Definition forward (m : list triangle) (k : nat) (e : hedge) : Prop := exists g, sym m e = Some g /\ mark m e = Some k /\ mark m g = Some (other_mark k).
Definition carries (m : list triangle) (k : nat) (e : hedge) : Prop := exists g, sym m e = Some g /\
  ((mark m e = Some k /\ mark m g = Some (other_mark k)) \/ (mark m e = Some (other_mark k) /\ mark m g = Some k)).
