(** Model of is_triangle_intersects_cell, polygonlization/bsp_complex.rs 1774-1850.
    Definitions only.

    [ov v] is the entry of the map after verts_orient_wrt_plane (Clip.v) for a vertex
    of the cell; a face is the three positions of its plane and whether cells[0] is
    the cell itself; [o3] is double_to_sign(-orient3d(..)) (lines 1825-1831).  The
    vertices of the planes and of the triangle are explicit, so no unwrap fails. *)
From Coq Require Import List Bool.
From Verif Require Import Lib Dispatch PointTests.
Import ListNotations.

Section CellTest.
Context {V P : Type} (ov : V -> Orientation) (o3 : P -> P -> P -> P -> Orientation).

(** bsp_complex.rs:1798-1812: first_ori after the loop *)
Fixpoint first_ori_loop (first_ori : Orientation) (verts : list V) : Orientation :=
  match verts with
  | [] => first_ori
  | v :: l =>
    match ov v with
    | Positive | Negative =>
      if ori_eqb first_ori Undefined then first_ori_loop (ov v) l
      else if negb (ori_eqb first_ori (ov v)) then Zero
      else first_ori_loop first_ori l
    | _ => first_ori_loop first_ori l
    end
  end.

(** plane, cells[0] == cid *)
Record cell_face : Type := CellFace { cf0 : P; cf1 : P; cf2 : P; cf_first : bool }.

(** bsp_complex.rs:1819-1848: the loop over the faces *)
Fixpoint faces_loop (tri : list P) (cell : list cell_face) : bool :=
  match cell with
  | [] => true
  | f :: l =>
    let oris := map (o3 (cf0 f) (cf1 f) (cf2 f)) tri in
    if forallb (fun x => ori_eqb x Zero) oris then false
    else
      let base_ori := if cf_first f then Positive else Negative in
      if forallb (fun x => negb (ori_eqb x base_ori)) (filter (fun x => negb (ori_eqb x Zero)) oris) then false
      else faces_loop tri l
  end.

(** bsp_complex.rs:1774-1850 *)
Definition is_triangle_intersects_cell (tri : list P) (cell_verts : list V) (cell : list cell_face) : bool :=
  if negb (ori_eqb (first_ori_loop Undefined cell_verts) Zero) then false
  else faces_loop tri cell.
End CellTest.
Arguments cell_face : clear implicits.
Arguments CellFace {P}.
