(** Model of the tests that tell which faces lie on which triangles, in
    polygonlization/bsp_complex.rs: the choice between them in complex_partition
    (638-667), face_intersects_tri (1296-1346), point_in_face (1348-1378),
    find_uncoplanar_verts (1904-1926), face_area (1928-1946), face_center (1949-1958)
    and vert_in_tri (1961-1976).  Definitions only.

    Coordinates are real numbers: neither the rounding of the indirect points to
    explicit_points (579-594) nor that of the sums and quotients is modelled.  A
    vertex is its position; [o2] is orient2d_by_axis on the axis of the triangle
    (both the one on Point3D and the one on slices, predicates/mod.rs:596-614).
    The indices are gone: verts[i] is the position itself. *)
From Coq Require Import Reals List Bool.
From Verif Require Import Lib Geo Dispatch PointTests Poly.
Import ListNotations.

Section Tests.
Context {P : Type} (o2 : P -> P -> P -> Orientation).

(** bsp_complex.rs:1364-1377, the loop, with base_ori *)
Fixpoint in_face_loop (center : P) (base_ori : Orientation) (l : list (P * P)) : bool :=
  match l with
  | [] => true
  | (pa, pb) :: l' =>
    let ori := o2 pa pb center in
    if ori_eqb ori Zero then false
    else if ori_eqb base_ori Undefined then in_face_loop center ori l'
    else if negb (ori_eqb base_ori ori) then false
    else in_face_loop center base_ori l'
  end.
(** bsp_complex.rs:1348-1378 *)
Definition point_in_face (face : list P) (center : P) : bool := in_face_loop center Undefined (circular_pairs face).

(** bsp_complex.rs:1963-1974, the loop, with not_zero *)
Fixpoint vert_in_tri_loop (not_zero : Orientation) (l : list Orientation) : bool :=
  match l with
  | [] => true
  | ori :: l' =>
    match ori with
    | Positive | Negative =>
      if ori_eqb not_zero Undefined then vert_in_tri_loop ori l'
      else if negb (ori_eqb not_zero ori) then false
      else vert_in_tri_loop not_zero l'
    | _ => vert_in_tri_loop not_zero l'
    end
  end.
(** bsp_complex.rs:1961-1976 *)
Definition vert_in_tri (orientations : list Orientation) : bool := vert_in_tri_loop Undefined orientations.

(** bsp_complex.rs:1311-1317, the orientations of one vertex *)
Definition tri_row (tri : list P) (p : P) : list Orientation := map (fun s => o2 (fst s) (snd s) p) (circular_pairs tri).
(** bsp_complex.rs:1320-1323 *)
Definition all_first (l : list Orientation) : bool :=
  match l with [] => true | o :: _ => forallb (fun x => ori_eqb x o) l end.
(** bsp_complex.rs:1308-1327: the loop over the vertices; [None] for "return true",
    otherwise the rows of [orientations], each with its vertex *)
Fixpoint vert_rows (tri : list P) (verts : list P) : option (list (P * list Orientation)) :=
  match verts with
  | [] => Some []
  | p :: l =>
    let row := tri_row tri p in
    if all_first row then None
    else match vert_rows tri l with Some r => Some ((p, row) :: r) | None => None end
  end.
(** bsp_complex.rs:1329-1342: the loop over k; (tri[k], tri[(k+1)%3]) are the
    elements of [sides] *)
Fixpoint cross_loop (pa pb : P) (sides : list (P * P)) (ri rj : list Orientation) : bool :=
  match sides, ri, rj with
  | (pc, pd) :: sides', oi :: ri', oj :: rj' =>
    if sign_reversed oi oj && sign_reversed (o2 pa pb pc) (o2 pa pb pd) then true
    else cross_loop pa pb sides' ri' rj'
  | _, _, _ => false
  end.
(** bsp_complex.rs:1296-1346 *)
Definition face_intersects_tri (face tri : list P) : bool :=
  match vert_rows tri face with
  | None => true
  | Some rows =>
    existsb (fun ij => cross_loop (fst (fst ij)) (fst (snd ij)) (circular_pairs tri) (snd (fst ij)) (snd (snd ij)))
      (circular_pairs rows)
  end.
(** bsp_complex.rs:638-667: point_in_face takes the axis of the first triangle of
    the face and the other tests that of their own triangle, here one axis. *)
Definition face_hits (face : list P) (center : P) (ta tb tc : P) : bool :=
  if point_in_face face center
  then vert_in_tri [o2 ta tb center; o2 tb tc center; o2 tc ta center]
  else face_intersects_tri face [ta; tb; tc].
End Tests.

(** bsp_complex.rs:1904-1926: [o3] is the entry of the map after
    verts_orient_wrt_plane (Clip.v), a cell is the list of the vertices of its
    faces, [None] is the panic of line 1925. *)
Fixpoint find_uncoplanar_face {V} (o3 : V -> Orientation) (vs : list V) : option V :=
  match vs with [] => None | v :: l => if ori_eqb (o3 v) Zero then find_uncoplanar_face o3 l else Some v end.
Fixpoint find_uncoplanar_verts {V} (o3 : V -> Orientation) (faces : list (list V)) : option V :=
  match faces with
  | [] => None
  | f :: l => match find_uncoplanar_face o3 f with Some v => Some v | None => find_uncoplanar_verts o3 l end
  end.

Local Open Scope R_scope.
(** bsp_complex.rs:1949-1958, one coordinate *)
Definition center_coord (l : list R) : R := fold_left (fun s x => s + x / INR (length l)) l 0.
Definition face_center (verts : list vec3) : vec3 :=
  V3 (center_coord (map vx verts)) (center_coord (map vy verts)) (center_coord (map vz verts)).

(** math/mod.rs:11-13 *)
Definition norm (a : vec3) : R := sqrt (0 + vx a * vx a + vy a * vy a + vz a * vz a).
(** bsp_complex.rs:1937-1944: the loop over verts[1..].windows(2) *)
Fixpoint area_loop (pa : vec3) (area : R) (l : list vec3) : R :=
  match l with
  | pb :: (pc :: _) as l' => area_loop pa (area + norm (cross (vsub pb pa) (vsub pc pa))) l'
  | _ => area
  end.
(** bsp_complex.rs:1928-1946, [None] for the panic at verts[0] *)
Definition face_area (verts : list vec3) : option R :=
  match verts with [] => None | pa :: l => Some (area_loop pa 0 l) end.
