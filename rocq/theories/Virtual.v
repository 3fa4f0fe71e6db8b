(** Model of the virtual constraints of
    src/polygonlization/conforming_mesh.rs (38-130).  Definitions only.

    Coordinates are exact reals; predicates::orient3d and predicates::orient2d
    are the exact determinants.  The projection axis of a triangle
    (max_comp_in_tri_normal) and the four vertices of the tetrahedron p2t gives
    for a vertex are parameters.  The triangles are triples instead of chunks of
    a flat list; the hash map is an association list, walked in the order
    [walk] gives. *)
From Coq Require Import Reals List Arith Bool.
From Verif Require Import Lib Geo Dispatch Orient PointTests Prop_Dispatch Poly.
Import ListNotations.
Local Open Scope opt_scope.

Definition tri3 : Type := nat * nat * nat.
(** tri[i mod 3] *)
Definition corner (t : tri3) (i : nat) : nat :=
  let '(a, b, c) := t in match i mod 3 with 0 => a | 1 => b | _ => c end.
Definition key : Type := nat * nat.
Definition key_eqb (a b : key) : bool := (fst a =? fst b) && (snd a =? snd b).
Definition key_of (va vb : nat) : key := if va <? vb then (va, vb) else (vb, va).
Definition emap : Type := list (key * list (nat * nat)).

(** conforming_mesh.rs:44-49: push to the list of the key or insert a new one. *)
Fixpoint push_key (m : emap) (k : key) (h : nat * nat) : emap :=
  match m with
  | [] => [(k, [h])]
  | (k', l) :: t => if key_eqb k k' then (k', l ++ [h]) :: t else (k', l) :: push_key t k h
  end.
(** conforming_mesh.rs:42-50, the inner loop *)
Definition push_tri (m : emap) (idx : nat) (t : tri3) : emap :=
  let '(a, b, c) := t in
  push_key (push_key (push_key m (key_of a b) (idx, 0)) (key_of b c) (idx, 1)) (key_of c a) (idx, 2).
Fixpoint push_tris (m : emap) (idx : nat) (l : list tri3) : emap :=
  match l with [] => m | t :: r => push_tris (push_tri m idx t) (S idx) r end.
(** conforming_mesh.rs:40-51 *)
Definition edge_map (l : list tri3) : emap := push_tris [] 0 l.

Section Add.
Variable (pos : nat -> vec3) (axis_of : tri3 -> nat) (p2t_data : nat -> option (nat * nat * nat * nat)).

(** tet_mesh.orient3d(a, t0, t1, t2) == 0.0 *)
Definition coplanar (a : nat) (t : tri3) : bool :=
  let '(x, y, z) := t in ori_eqb (s3 (pos a) (pos x) (pos y) (pos z)) Zero.
(** double_to_sign(orient2d) on two coordinates, conforming_mesh.rs:83-89 *)
Definition ori2 (axis a b c : nat) : Orientation := ori_of (Prop_Dispatch.o2 axis (pos a) (pos b) (pos c)).

(** conforming_mesh.rs:70-76: true when the loop does not return. *)
Fixpoint all_coplanar (tris : list tri3) (apex : nat) (hs : list (nat * nat)) : option bool :=
  match hs with
  | [] => Some true
  | (tid, _) :: t => tri <- nth_error tris tid ;; if coplanar apex tri then all_coplanar tris apex t else Some false
  end.
(** conforming_mesh.rs:92-99 *)
Fixpoint all_same_side (tris : list tri3) (axis pa pb : nat) (base : Orientation) (hs : list (nat * nat)) : option bool :=
  match hs with
  | [] => Some true
  | (tid, hid) :: t =>
    tri <- nth_error tris tid ;;
    if ori_eqb (ori2 axis pa pb (corner tri hid)) base then all_same_side tris axis pa pb base t else Some false
  end.
(** conforming_mesh.rs:106-118: the first of the first three vertices off the
    plane, the last vertex otherwise. *)
Definition bad_apex (a : nat) (t : tri3) : bool :=
  let '(x, y, z) := t in (a =? x) || (a =? y) || (a =? z) || coplanar a t.
Definition choose_apex (d : nat * nat * nat * nat) (t : tri3) : nat :=
  let '(d0, d1, d2, d3) := d in
  if bad_apex d0 t then if bad_apex d1 t then if bad_apex d2 t then d3 else d2 else d1 else d0.
(** conforming_mesh.rs:58-130: what is pushed, if anything. *)
Definition add_virtual_constraint (tris : list tri3) (halfedges : list (nat * nat)) : option (list tri3) :=
  match halfedges with
  | [] => None
  | (tid0, hid0) :: rest =>
    t0 <- nth_error tris tid0 ;;
    b <- all_coplanar tris (corner t0 hid0) rest ;;
    if negb b then Some [] else
    b <- (if 1 <? length halfedges then
            let axis := axis_of t0 in
            let pa := corner t0 (hid0 + 1) in
            let pb := corner t0 (hid0 + 2) in
            all_same_side tris axis pa pb (ori2 axis pa pb (corner t0 hid0)) rest
          else Some true) ;;
    if negb b then Some [] else
    d <- p2t_data (corner t0 0) ;;
    Some [(corner t0 (hid0 + 1), corner t0 (hid0 + 2), choose_apex d t0)]
  end.
Fixpoint add_all (tris : list tri3) (es : list (list (nat * nat))) : option (list tri3) :=
  match es with
  | [] => Some tris
  | h :: r => new <- add_virtual_constraint tris h ;; add_all (tris ++ new) r
  end.
(** conforming_mesh.rs:38-56 *)
Definition place_virtual_constraints (walk : emap -> emap) (tris : list tri3) : option (list tri3) :=
  add_all tris (map snd (walk (edge_map tris))).
End Add.
