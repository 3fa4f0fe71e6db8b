(** Specification vocabulary for the tetrahedral mesh. *)
From Coq Require Import List Arith Bool ZArith Reals.
From Verif Require Import Lib Geo Tet.
Import ListNotations.

(** * The in-sphere determinant of five points lifted to given heights:
    the determinant of the four differences to the last point, expanded
    along the heights. *)
Definition lift_det (a b c d e : vec3) (wa wb wc wd we : R) : R :=
  ((wd - we) * orient3 a b c e - (wc - we) * orient3 d a b e
  + ((wb - we) * orient3 c d a e - (wa - we) * orient3 b c d e))%R.
(** The in-sphere determinant: the heights are the squared norms. *)
Definition insphere_det (a b c d e : vec3) : R :=
  lift_det a b c d e (dot a a) (dot b b) (dot c c) (dot d d) (dot e e).

(** * Corners of a face seen in a tetrahedron: origin, destination, apex, and the
    vertex opposite to the face. *)
Definition corners (m : tetmesh) (f : triface) (a b c d : nat) : Prop :=
  org m f = Some a /\ dest m f = Some b /\ apex m f = Some c /\ oppo m f = Some d.

(** Even arrangements of the four positions. *)
Fixpoint inversions (l : list nat) : nat :=
  match l with [] => 0 | a :: t => length (filter (fun b => b <? a) t) + inversions t end.
Definition even_arrangement (l : list nat) : Prop :=
  (forall i, In i l <-> i < 4) /\ length l = 4 /\ Nat.even (inversions l) = true.

(** Every face is glued to exactly one other face, on the same three vertices in
    opposite order. *)
Definition consistent (m : tetmesh) : Prop :=
  forall t v a b c d, t < length (tets m) -> v < 12 -> corners m (TF (Some t) v) a b c d ->
  exists u w e, fsym m (TF (Some t) v) = Some (TF (Some u) w) /\ (u < length (tets m)) /\ w < 12 /\
    fsym m (TF (Some u) w) = Some (TF (Some t) v) /\ corners m (TF (Some u) w) b a c e.

(** * The tetrahedra around a vertex *)

(** All tables are complete, neighbours exist, neighbours across a face contain
    the vertices of the face, and no test mark is set. *)
Definition linked (m : tetmesh) : Prop :=
  forall t x, nth_error (tets m) t = Some x ->
    length (data x) = 4 /\ length (nei x) = 4 /\ NoDup (data x) /\
    (mask x <= ones)%N /\ N.testbit (mask x) 1 = false /\
    forall i g, nth_error (nei x) i = Some g ->
      exists u y, tet g = Some u /\ nth_error (tets m) u = Some y /\
        forall j v, nth_error (data x) j = Some v -> j <> i -> In v (data y).

(** [u] is a real tetrahedron behind a face of [t] that contains [v]. *)
Definition across (m : tetmesh) (v t u : nat) : Prop :=
  exists x y i k, nth_error (tets m) t = Some x /\ nth_error (nei x) i = Some (TF (Some u) k) /\
    nth_error (data x) i <> Some v /\ nth_error (tets m) u = Some y /\ nth_error (data y) 3 <> Some (n_points m).
Inductive star (m : tetmesh) (v t0 : nat) : nat -> Prop :=
| star_start : star m v t0 t0
| star_next t u : star m v t0 t -> across m v t u -> star m v t0 u.

(** Some face of the mesh has the three vertices, starting at the first. *)
Definition has_face (m : tetmesh) (f : triface) (a b c : nat) : Prop :=
  exists d, corners m f a b c d \/ corners m f a c b d.

(** The faces met by turning around an edge. *)
Inductive around (m : tetmesh) (f : triface) : triface -> Prop :=
| around_start : around m f f
| around_next g h : around m f g -> fnext m g = Some h -> around m f h.

(** * Exact signs for points with integer coordinates, for the examples *)
Definition zpoint : Type := (Z * Z * Z)%type.
Definition z_orient (a b c d : zpoint) : Z :=
  (let '(ax, ay, az) := a in let '(bx, by_, bz) := b in let '(cx, cy, cz) := c in let '(dx, dy, dz) := d in
  (ax - dx) * ((by_ - dy) * (cz - dz) - (bz - dz) * (cy - dy))
  - (ay - dy) * ((bx - dx) * (cz - dz) - (bz - dz) * (cx - dx))
  + (az - dz) * ((bx - dx) * (cy - dy) - (by_ - dy) * (cx - dx)))%Z.
Definition z_dist2 (a e : zpoint) : Z :=
  (let '(ax, ay, az) := a in let '(ex, ey, ez) := e in (ax - ex) ^ 2 + (ay - ey) ^ 2 + (az - ez) ^ 2)%Z.
Definition z_insphere (a b c d e : zpoint) : Z :=
  ((z_dist2 d e * z_orient a b c e - z_dist2 c e * z_orient d a b e)
   + (z_dist2 b e * z_orient c d a e - z_dist2 a e * z_orient b c d e))%Z.
Definition z_o3 (l : list zpoint) : sign3 := fun a b c d =>
  let p i := nth i l (0, 0, 0)%Z in z_orient (p a) (p b) (p c) (p d).
Definition z_isp (l : list zpoint) : sign4 := fun a b c d e =>
  let p i := nth i l (0, 0, 0)%Z in z_insphere (p a) (p b) (p c) (p d) (p e).
