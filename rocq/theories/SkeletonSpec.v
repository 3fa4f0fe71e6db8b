(** Specification of the insertion of segments (C83): no function of the model other
    than the readers of a triangle occurs here. *)
From Coq Require Import List Arith ZArith.
From Verif Require Import Flip Prop_Flip TriSegSpec.
Import ListNotations.

(** Neighbours are mutual, and no triangle has a corner twice. *)
Definition sound (m : list triangle) : Prop := wf m /\ forall h, inside m h -> org m h <> dest m h.
(** A side with the mark [k] from [u] to [v]. *)
Definition segment (m : list triangle) (k u v : nat) : Prop := exists h, inside m h /\ mark m h = Some k /\ org m h = Some u /\ dest m h = Some v.
(** Each entry of the vertex map is a side that starts at its vertex, or none. *)
Definition mapped (m : list triangle) (vm : list hedge) : Prop :=
  forall v g, nth_error vm v = Some g -> snd g < 3 /\ (fst g < length m -> org m g = Some v).
(** The triangulation has changed, but is still one of the same number of triangles;
    those with a corner that is not one of the [n] points have the same corners. *)
Record held (n : nat) (m : list triangle) (vm : list hedge) (m' : list triangle) (vm' : list hedge) : Prop := {
  hd_sound : sound m';
  hd_length : length m' = length m;
  hd_map : mapped m' vm' /\ length vm' = length vm;
  hd_ghost : forall t, (exists i v, i < 3 /\ get_data m t i = Some v /\ n <= v) -> forall i, i < 3 -> get_data m' t i = get_data m t i }.
(** A side of a triangle with a corner that is not one of the [n] points, or across from
    such a triangle: the border of the triangulated region. *)
Definition border (n : nat) (m : list triangle) (h : hedge) : Prop := exists c i v, (c = h \/ sym m h = Some c) /\ i < 3 /\ get_data m (fst c) i = Some v /\ n <= v.
(** Some side of [m] had the ends and the mark this one of [m'] has, and was on the border
    only if this is. *)
Definition was (n : nat) (m m' : list triangle) (h' : hedge) : Prop :=
  exists h, inside m h /\ mark m h = mark m' h' /\ org m h = org m' h' /\ dest m h = dest m' h' /\ (border n m h -> border n m' h').
(** And the segments have not: the marked sides are the same. *)
Record kept (INV n : nat) (m : list triangle) (vm : list hedge) (m' : list triangle) (vm' : list hedge) : Prop := {
  kp_held : held n m vm m' vm';
  kp_pairs : marked_pairs INV m';
  kp_segment : forall k u v, k <> INV -> segment m k u v <-> segment m' k u v;
  kp_was : forall h, inside m' h -> mark m' h <> Some INV -> was n m m' h }.
