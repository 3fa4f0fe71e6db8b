(** Specification vocabulary for the insertion of a point in the tetrahedral
    mesh: which meshes are right, what the cavity of a point is. *)
From Coq Require Import List Arith NArith ZArith.
From Verif Require Import Lib Tet TetSpec.
Import ListNotations.

(** A deleted tetrahedron has all bits of its mask set, any other none between
    two insertions. *)
Definition live (m : tetmesh) (t : nat) : Prop := exists x, nth_error (tets m) t = Some x /\ mask x = 0%N.

(** Every live tetrahedron has four different vertices, and each of its faces is
    glued to exactly one face of a live tetrahedron, on the same three vertices
    in opposite order. *)
Definition glued (m : tetmesh) : Prop := forall t v, live m t -> v < 12 ->
  exists a b c d u w e, corners m (TF (Some t) v) a b c d /\ NoDup [a; b; c; d] /\
    fsym m (TF (Some t) v) = Some (TF (Some u) w) /\ live m u /\ w < 12 /\
    fsym m (TF (Some u) w) = Some (TF (Some t) v) /\ corners m (TF (Some u) w) b a c e.

Record good (m : tetmesh) : Prop := Good {
  g_mask : forall t x, nth_error (tets m) t = Some x -> mask x = 0%N \/ mask x = ones;
  g_size : forall t x, nth_error (tets m) t = Some x -> length (data x) = 4 /\ length (nei x) = 4;
  g_glued : glued m;
  (** the vertices are points, or the ghost vertex, which is always the last *)
  g_verts : forall t x i p, nth_error (tets m) t = Some x -> nth_error (data x) i = Some p ->
    p <= n_points m /\ (p = n_points m -> i = 3);
  g_p2t : length (p2t m) = n_points m + 1;
  (** the stored tetrahedron of a vertex is live and contains it *)
  g_stored : forall p t, nth_error (p2t m) p = Some (Some t) ->
    live m t /\ exists x, nth_error (tets m) t = Some x /\ In p (data x);
  (** every vertex of a tetrahedron, live or not, has one *)
  g_known : forall t x p, nth_error (tets m) t = Some x -> In p (data x) -> exists t', nth_error (p2t m) p = Some (Some t') }.

(** [t] lies behind the face of a ghost tetrahedron that is opposite to the ghost vertex. *)
Definition backs (m : tetmesh) (t : nat) : Prop := exists t0 x0 g,
  nth_error (tets m) t0 = Some x0 /\ nth 3 (data x0) 0 = n_points m /\ nth_error (nei x0) 3 = Some g /\ tet g = Some t.
(** What lies there is never a ghost tetrahedron itself: the hull has no face with the outside on both sides. *)
Definition backed (m : tetmesh) : Prop := forall t x, backs m t -> nth_error (tets m) t = Some x -> nth 3 (data x) 0 <> n_points m.

(** No two tetrahedra have the same four vertices. *)
Definition all_different (m : tetmesh) : Prop := forall t u x y, t <> u ->
  nth_error (tets m) t = Some x -> nth_error (tets m) u = Some y -> ~ incl (data x) (data y).

(** * The cavity *)

(** The tetrahedra met by the located point. *)
Definition seed (m : tetmesh) (l : location) (s : triface) (t : nat) : Prop :=
  match l with
  | OUTSIDE | INTETRAHEDRON => tet s = Some t
  | ONFACE => tet s = Some t \/ exists g, fsym m s = Some g /\ tet g = Some t
  | ONEDGE => exists g, around m s g /\ tet g = Some t
  | ONVERTEX => False
  end.
(** What is reached from them through tetrahedra in conflict with the point. *)
Inductive region (m : tetmesh) (start conflict : nat -> Prop) : nat -> Prop :=
| region_start t : start t -> region m start conflict t
| region_next t k g u : region m start conflict t -> nei_at m (Some t) k = Some g -> tet g = Some u -> conflict u ->
    region m start conflict u.

(** A face of the cavity (a version of its tetrahedron) with the outside on its other side. *)
Definition border (m : tetmesh) (R : nat -> Prop) (t v : nat) : Prop :=
  R t /\ exists u w, fsym m (TF (Some t) v) = Some (TF (Some u) w) /\ ~ R u.
(** No directed edge belongs to two faces of the border (the border does not touch itself along an edge). *)
Definition simple (m : tetmesh) (R : nat -> Prop) : Prop := forall t v t' v' a b c d c' d',
  border m R t v -> border m R t' v' -> corners m (TF (Some t) v) a b c d -> corners m (TF (Some t') v') a b c' d' ->
  t = t' /\ v = v'.
(** No vertex is inside of the cavity. *)
Definition exposed (m : tetmesh) (R : nat -> Prop) : Prop := forall t x p,
  R t -> nth_error (tets m) t = Some x -> In p (data x) ->
  exists t' v b c d, border m R t' v /\ corners m (TF (Some t') v) p b c d.

(** The point is inside the circumscribed sphere of the tetrahedron, ties broken
    as in [insphere_s] (see C44). *)
Definition enclosed (o3 : sign3) (isp : sign4) (a b c d p : nat) : Prop :=
  exists s, insphere_s o3 isp a b c d p = Some s /\ (s < 0)%Z.
(** A tetrahedron is in conflict with the point if it encloses it; one with the
    ghost vertex if the point is beyond its face, or in the plane of the face and
    enclosed by the tetrahedron on the other side. *)
Definition conflicts (o3 : sign3) (isp : sign4) (m : tetmesh) (p u : nat) : Prop :=
  exists x a b c d, nth_error (tets m) u = Some x /\ data x = [a; b; c; d] /\
    ((d <> n_points m /\ enclosed o3 isp a b c d p) \/
     (d = n_points m /\ ((o3 a b c p < 0)%Z \/
        ((o3 a b c p = 0)%Z /\ exists g v y a' b' c' d', nei_at m (Some u) 3 = Some g /\ tet g = Some v /\
           nth_error (tets m) v = Some y /\ data y = [a'; b'; c'; d'] /\ enclosed o3 isp a' b' c' d' p)))).
(** The cavity of the point located at [loc], [s]. *)
Definition cavity_of (o3 : sign3) (isp : sign4) (m : tetmesh) (p : nat) (loc : location) (s : triface) : nat -> Prop :=
  region m (seed m loc s) (conflicts o3 isp m p).

(** What an insertion does: the tetrahedra of the cavity go, and for each face
    of its border (listed in [B] as tetrahedron and face number) there is a new
    one, on the same three vertices in the same order with the point in place
    of the fourth vertex. *)
Record inserted (m : tetmesh) (R : nat -> Prop) (p : nat) (B : list (nat * nat)) (m' : tetmesh) (s' : triface) : Prop := Inserted {
  in_good : good m';
  in_points : n_points m' = n_points m;
  in_live : forall t, live m' t <-> (live m t /\ ~ R t) \/ length (tets m) <= t < length (tets m) + length B;
  in_kept : forall t x, nth_error (tets m) t = Some x -> exists x', nth_error (tets m') t = Some x' /\ data x' = data x;
  in_new : forall i t k, nth_error B i = Some (t, k) -> exists v a b c d, v < 12 /\ Nat.land v 3 = k /\
    corners m (TF (Some t) v) a b c d /\ corners m' (TF (Some (length (tets m) + i)) 2) a b c p;
  in_p2t : nth_error (p2t m') p = Some (tet s');
  in_search : exists t, tet s' = Some t /\ length (tets m) <= t < length (tets m) + length B;
  in_others : forall q, q <> p -> nth_error (p2t m) q = Some None -> nth_error (p2t m') q = Some None }.

(** * The whole run *)

(** All the points can be inserted one after the other: each is located away from
    the vertices, its cavity is simple and exposes its vertices, and the border
    of the cavity has less than 2044 faces. *)
Inductive regular (o3 : sign3) (isp : sign4) (fuel : nat) : tetmesh -> triface -> list nat -> Prop :=
| regular_nil m s : regular o3 isp fuel m s []
| regular_cons m s p l loc s0 :
    locate_dt o3 m p s fuel = Some (loc, s0) -> loc <> ONVERTEX ->
    simple m (cavity_of o3 isp m p loc s0) -> exposed m (cavity_of o3 isp m p loc s0) ->
    (forall B, NoDup B -> (forall t k, In (t, k) B -> k < 4 /\ border m (cavity_of o3 isp m p loc s0) t k) -> length B < 2044) ->
    (forall m' s', insert_vertex_bw o3 isp m p s fuel = Some (m', s', true) -> regular o3 isp fuel m' s' l) ->
    regular o3 isp fuel m s (p :: l).
