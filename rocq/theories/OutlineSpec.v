(** Vocabulary for the statements about outlines. *)
From Coq Require Import List Arith.
From Verif Require Import Bsp BspSpec Outline.
Import ListNotations.

(** The halfedges of the faces, each face turned by its sign. *)
Definition turned_edges (fs : list kface) : list (nat * nat) := flat_map (fun f => outward (kpos f) (kcycle f)) fs.
(** [e] bounds the faces: they have it and not its opposite. *)
Definition on_outline (fs : list kface) (e : nat * nat) : Prop := In e (turned_edges fs) /\ ~ In (swap e) (turned_edges fs).
(** The outline leaves [v] more than once. *)
Definition pinch (fs : list kface) (v : nat) : Prop := exists a b, a <> b /\ on_outline fs (v, a) /\ on_outline fs (v, b).
(** No edge inside the faces joins two pinched vertices. *)
Definition apart (fs : list kface) : Prop := forall u v,
  In (u, v) (turned_edges fs) -> In (v, u) (turned_edges fs) -> pinch fs u -> pinch fs v -> False.
(** Every halfedge starts where the one before it ends, the first one where
    the last one ends. *)
Definition closed_walk (l : list (nat * nat)) : Prop := l <> [] /\ hes (map fst l) = l.

(** The ends of the halfedges that do not go on straight, in order; the last
    halfedge is followed by the first one. *)
Definition corners (col : nat * nat -> nat * nat -> bool) (l : list (nat * nat)) : list nat :=
  flat_map (fun p => if col (fst p) (snd p) then [] else [snd (fst p)]) (combine l (tl l ++ firstn 1 l)).

(** * The surface of all groups *)
(** Every edge has exactly two faces, one in each direction. *)
Definition two_sided (fs : list kface) : Prop := NoDup (turned_edges fs) /\ forall e, In e (turned_edges fs) -> In (swap e) (turned_edges fs).
(** The test of a group is that of the points: it does not depend on the
    group, nor on the direction. *)
Definition exact_line (fs : list kface) (grp : nat -> nat) (line : nat -> nat -> nat -> nat -> bool) (aligned : nat -> nat -> nat -> bool) : Prop :=
  (forall a b c, aligned a b c = aligned c b a) /\
  forall g a b c, on_outline (group_faces fs grp g) (a, b) -> on_outline (group_faces fs grp g) (b, c) -> line g a b c = aligned a b c.
(** The edges of all loops. *)
Definition loop_edges (r : list (list (list nat))) : list (nat * nat) := flat_map hes (concat r).

(** How merge_faces groups the faces, for surfaces where every edge has two
    faces: faces on both sides of an edge have one group when they lie in one
    plane, and the faces of a group hang together. *)
Definition neighbours (f f' : kface) : Prop := exists e, In e (outward (kpos f) (kcycle f)) /\ In (swap e) (outward (kpos f') (kcycle f')).
Definition connected (fs : list kface) : Prop := forall i f, nth_error fs (S i) = Some f ->
  exists j f', j <= i /\ nth_error fs j = Some f' /\ neighbours f' f.
Definition grouped_by (plane : nat -> nat -> bool) (fs : list kface) (grp : nat -> nat) : Prop :=
  (forall i j f f', nth_error fs i = Some f -> nth_error fs j = Some f' -> neighbours f f' -> (grp i = grp j <-> plane i j = true)) /\
  forall g, connected (group_faces fs grp g).
