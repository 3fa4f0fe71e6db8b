(** Specification vocabulary for the tracing of constraints. *)
From Coq Require Import List Arith Bool ZArith Permutation.
From Verif Require Import Lib Tet TetSpec Trace.
Import ListNotations.

(** * The mesh and the predicates *)

(** A tetrahedron without the ghost vertex. *)
Definition real (m : tetmesh) (t : nat) : Prop :=
  exists x, nth_error (tets m) t = Some x /\ nth_error (data x) 3 <> Some (n_points m).
Definition holds (m : tetmesh) (t : nat) (s : list nat) : Prop :=
  exists x, nth_error (tets m) t = Some x /\ incl s (data x).
(** The tetrahedron stored for a vertex is a real one that contains it. *)
Definition placed (m : tetmesh) : Prop := forall v, v < n_points m ->
  exists t, nth_error (p2t m) v = Some (Some t) /\ real m t /\ holds m t [v].
(** A segment between two vertices does not pass through a face of the hull. *)
Definition hull_closed (g : geom) (m : tetmesh) : Prop := forall f a b c d h t0 t u1 u2 p q r,
  tet f = Some t0 -> real m t0 -> corners m f a b c d -> fsym m f = Some h -> tet h = Some t -> ~ real m t ->
  u1 < n_points m -> u2 < n_points m -> Permutation [p; q; r] [a; b; c] ->
  g_seg_tri g u1 u2 p q r = false.

(** * The tetrahedra about a vertex, an edge or a face *)
Definition about_vertex (m : tetmesh) (v t : nat) : Prop :=
  exists t0, nth_error (p2t m) v = Some (Some t0) /\ star m v t0 t.
(** The real ones met turning around the edge, starting in [t0]. *)
Definition about_edge (m : tetmesh) (t0 a b t : nat) : Prop :=
  real m t /\ exists f h c d, tet f = Some t0 /\ corners m f a b c d /\ around m f h /\ tet h = Some t.
(** The two beside the face of [t0]. *)
Definition behind_face (m : tetmesh) (t0 a b c t : nat) : Prop :=
  exists f h d, tet f = Some t0 /\ (corners m f a b c d \/ corners m f a c b d) /\ fsym m f = Some h /\ tet h = Some t.
Definition about (m : tetmesh) (t0 : nat) (s : list nat) (t : nat) : Prop :=
  match s with
  | [v] => about_vertex m v t
  | [a; b] => about_edge m t0 a b t
  | [a; b; c] => t = t0 \/ behind_face m t0 a b c t
  | _ => False
  end.

(** * How the segment goes on *)

(** The segment from [a] to [b] meets the vertex, edge or face [s]. *)
Definition meets (g : geom) (a b : nat) (s : list nat) : Prop :=
  match s with
  | [v] => v = b \/ g_in_seg g v a b = true
  | [u; v] => g_segs g a b u v = true
  | [u; v; w] => g_seg_tri g a b u v w = true
  | _ => False
  end.
Definition same_side (g : geom) (u1 u2 v1 v2 v3 : nat) : Prop := Z.sgn (g_o3 g u1 v1 v2 v3) = Z.sgn (g_o3 g u2 v1 v2 v3).
(** Beyond the edge [p], [q] as seen from the start [a] of the segment: a vertex
    on the side of the end; an edge with one end on the edge and the other on
    the side of the end; the opposite edge or a face at one end, when the start
    is on the side of the other end. *)
Definition beyond_edge (g : geom) (a b p q : nat) (s : list nat) : Prop :=
  match s with
  | [v] => ~ In v [p; q] /\ (v = b \/ g_half g v b p q = true)
  | [u; v] => ~ In v [p; q] /\ ((In u [p; q] /\ g_half g v b p q = true) \/ (~ In u [p; q] /\ same_side g a p u v q))
  | [u; v; w] => ~ In u [p; q] /\ ~ In v [p; q] /\ ((w = p /\ same_side g q a u v p) \/ (w = q /\ same_side g p a u v q))
  | _ => False
  end.
(** From [s] in [t] to [s'] in [t'], on the way from [va] to [vb].  Through a face
    the next one is at the vertex behind it, the vertex itself if the segment
    meets no edge and no face there. *)
Definition moves (g : geom) (m : tetmesh) (va vb t : nat) (s : list nat) (t' : nat) (s' : list nat) : Prop :=
  about m t s t' /\ real m t' /\ holds m t' s' /\ NoDup s' /\
  match s with
  | [v] => ~ In v s' /\ meets g v vb s'
  | [p; q] => meets g va vb s' /\ beyond_edge g va vb p q s'
  | _ => exists w, In w s' /\ ~ In w s /\
      (meets g va vb s' \/
       s' = [w] /\ forall s2, holds m t' s2 -> NoDup s2 -> 2 <= length s2 -> In w s2 -> ~ meets g va vb s2)
  end.
Inductive path (g : geom) (m : tetmesh) (va vb : nat) : nat -> list nat -> list (nat * list nat) -> Prop :=
| path_end t : path g m va vb t [vb] [(t, [vb])]
| path_step t s t' s' l : ~ In vb s -> moves g m va vb t s t' s' -> t' <> t -> path g m va vb t' s' l ->
    path g m va vb t s ((t, s) :: l).
(** From the first vertex on. *)
Definition whole_path (g : geom) (m : tetmesh) (va vb : nat) (l : list (nat * list nat)) : Prop :=
  exists t t' s' l', l = (t, [va]) :: l' /\ moves g m va vb t [va] t' s' /\ path g m va vb t' s' l'.
(** The segment comes to [s] in [t], with [n] steps after the one from the first vertex. *)
Inductive arrives (g : geom) (m : tetmesh) (va vb : nat) : nat -> nat -> list nat -> Prop :=
| arrives_first t t' s' : moves g m va vb t [va] t' s' -> arrives g m va vb 0 t' s'
| arrives_next n t s t' s' : arrives g m va vb n t s -> ~ In vb s -> moves g m va vb t s t' s' -> t' <> t -> arrives g m va vb (S n) t' s'.
(** There are [n] such steps that have not come to the end. *)
Definition longer (g : geom) (m : tetmesh) (va vb n : nat) : Prop := exists t s, arrives g m va vb n t s /\ ~ In vb s.
(** From the first vertex, or from some place that the segment comes to, there is
    no step to another tetrahedron. *)
Definition lost (g : geom) (m : tetmesh) (va vb : nat) : Prop :=
  (forall t t' s', ~ moves g m va vb t [va] t' s') \/
  exists n t s, arrives g m va vb n t s /\ ~ In vb s /\ forall t' s', t' <> t -> ~ moves g m va vb t s t' s'.
(** The answers do not depend on the order of the vertices of the edge or the
    face, and a segment does not cross what it has an end on. *)
Definition fair (g : geom) : Prop :=
  (forall a b s s', Permutation s s' -> meets g a b s -> meets g a b s') /\
  (forall u1 u2 v1 v2 v3, same_side g u1 u2 v1 v2 v3 -> same_side g u1 u2 v2 v1 v3) /\
  (forall a b s, 2 <= length s -> meets g a b s -> ~ In a s /\ ~ In b s) /\
  (forall v a b, g_in_seg g v a b = true -> v <> a /\ v <> b).
(** The tetrahedra about the vertices, edges and faces of a path. *)
Definition along (m : tetmesh) (l : list (nat * list nat)) (t : nat) : Prop := exists t0 s, In (t0, s) l /\ about m t0 s t.

(** * The marks *)

(** The place of the face on three vertices in a tetrahedron: the position of the fourth. *)
Definition face_place (m : tetmesh) (t k a b c : nat) : Prop :=
  exists x, nth_error (tets m) t = Some x /\ k < 4 /\ forall y, In y [a; b; c] <-> exists j, j <> k /\ nth_error (data x) j = Some y.
Definition neighbour (m : tetmesh) (t u : nat) : Prop :=
  exists x f, nth_error (tets m) t = Some x /\ In f (nei x) /\ tet f = Some u.
(** What is reached from the starting set through accepted neighbours. *)
Inductive flooded (m : tetmesh) (accepts start : nat -> Prop) : nat -> Prop :=
| flood_start t : start t -> flooded m accepts start t
| flood_next t u : flooded m accepts start t -> neighbour m t u -> accepts u -> flooded m accepts start u.

(** A constraint has three corners among the points. *)
Definition proper (m : tetmesh) (c : tri3) : Prop :=
  let '(c0, c1, c2) := c in NoDup [c0; c1; c2] /\ c0 < n_points m /\ c1 < n_points m /\ c2 < n_points m.

(** The side of the plane of the constraint that a vertex is on. *)
Definition plane_side (g : geom) (c : tri3) (v : nat) : Z := let '(c0, c1, c2) := c in Z.sgn (g_o3 g c0 c1 c2 v).
Definition plane_side' (g : geom) (c : tri3) (v : nat) : Z := let '(c0, c1, c2) := c in Z.sgn (g_o3 g v c0 c1 c2).
Definition in_closed (g : geom) (c : tri3) (v : nat) : Prop :=
  let '(c0, c1, c2) := c in In v [c0; c1; c2] \/ g_in_tri g v c0 c1 c2 = true.
Definition sides (c : tri3) : list (nat * nat) := let '(c0, c1, c2) := c in [(c0, c1); (c1, c2); (c2, c0)].

(** * The rows away from the sides *)

(** A vertex within the closed triangle, other than its corners. *)
Definition within (g : geom) (c : tri3) (v : nat) : Prop :=
  let '(c0, c1, c2) := c in plane_side' g c v = 0%Z /\ ~ In v [c0; c1; c2] /\ g_in_tri g v c0 c1 c2 = true.
(** The row of a real tetrahedron: the place of a vertex if just the other three
    are within; 4 if two vertices that are not within are not on the same side,
    and some vertex is within or the edge between the two meets the triangle. *)
Definition interior_row (g : geom) (m : tetmesh) (c : tri3) (t k : nat) : Prop :=
  real m t /\ exists x, nth_error (tets m) t = Some x /\
  ((k < 4 /\ forall j v, nth_error (data x) j = Some v -> (within g c v <-> j <> k)) \/
   (k = 4 /\ exists i j u v, i < j /\ nth_error (data x) i = Some u /\ nth_error (data x) j = Some v /\
      ~ within g c u /\ ~ within g c v /\ plane_side' g c u <> plane_side' g c v /\
      ((exists w, In w (data x) /\ within g c w) \/
       let '(c0, c1, c2) := c in ~ In u [c0; c1; c2] /\ ~ In v [c0; c1; c2] /\ g_seg_tri g u v c0 c1 c2 = true))).

(** The places [k], [t] that one constraint is to be written to: if the
    constraint is a face found in the mesh, the two sides of it.  Else the
    tetrahedra along the three sides get the row that [improper] gives, and the
    others reached from them through tetrahedra that have an interior row get that
    row. *)
Definition places (g : geom) (m : tetmesh) (c : tri3) (P : nat -> nat -> Prop) : Prop :=
  let '(c0, c1, c2) := c in
  (exists t u k j, t <> u /\ neighbour m t u /\ face_place m t k c0 c1 c2 /\ face_place m u j c0 c1 c2 /\
     forall k' t', P k' t' <-> (t' = t /\ k' = k) \/ (t' = u /\ k' = j)) \/
  (exists l1 l2 l3, whole_path g m c0 c1 l1 /\ whole_path g m c1 c2 l2 /\ whole_path g m c2 c0 l3 /\
     let start := along m (l1 ++ l2 ++ l3) in
     let accepts t := exists k, interior_row g m c t k in
     forall k t, P k t <-> (start t /\ improper g m c t = Some (Some k)) \/
                           (~ start t /\ flooded m accepts start t /\ interior_row g m c t k)).

(** * The rows along the sides *)

(** Just vertex [k] of the tetrahedron is off the plane of the constraint, and
    the opposite face either lies in the closed triangle or has an edge that
    crosses a side of it. *)
Definition face_row (g : geom) (m : tetmesh) (c : tri3) (t k : nat) : Prop :=
  exists x z0 z1 z2, nth_error (tets m) t = Some x /\ k < 4 /\
    (forall j v, nth_error (data x) j = Some v -> (plane_side g c v = 0%Z <-> j <> k)) /\
    firstn k (data x) ++ skipn (S k) (data x) = [z0; z1; z2] /\
    ((in_closed g c z0 /\ in_closed g c z1 /\ in_closed g c z2) \/
     exists u v a b, In (u, v) [(z0, z1); (z1, z2); (z2, z0)] /\ In (a, b) (sides c) /\
       u <> a /\ u <> b /\ v <> a /\ v <> b /\ g_segs g u v a b = true).
