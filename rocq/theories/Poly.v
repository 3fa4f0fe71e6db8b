(** Model of the overlap test of a triangle and a convex polygon,
    src/polygonlization/bsp_complex.rs is_triangle_intersects_poly (1852-1901).
    Definitions only. *)
From Coq Require Import List Arith Bool.
From Verif Require Import Lib Dispatch PointTests.
Import ListNotations.

(** Itertools::circular_tuple_windows for pairs: (x0, x1), ..., (xn, x0). *)
Fixpoint windows {A} (first : A) (l : list A) : list (A * A) :=
  match l with
  | [] => []
  | [x] => [(x, first)]
  | x :: (y :: _) as t => (x, y) :: windows first t
  end.
Definition circular_pairs {A} (l : list A) : list (A * A) :=
  match l with [] => [] | x :: _ => windows x l end.

(** bsp_complex.rs:1862-1873: the loop over poly at one side of the triangle,
    returning has_inside and all_poly_verts_inside[i]. *)
Fixpoint side_loop {P} (o2 : P -> P -> P -> Orientation) (base : Orientation) (pa pb : P) (poly : list P)
    (has_inside all_inside : bool) : bool * bool :=
  match poly with
  | [] => (has_inside, all_inside)
  | pc :: t =>
    let ori := o2 pa pb pc in
    if ori_eqb ori Zero then side_loop o2 base pa pb t has_inside all_inside
    else if ori_eqb ori base then side_loop o2 base pa pb t true all_inside
    else side_loop o2 base pa pb t has_inside false
  end.
(** bsp_complex.rs:1859-1881: [None] for an early "return false", otherwise
    whether all entries of all_poly_verts_inside are true. *)
Fixpoint tri_sides {P} (o2 : P -> P -> P -> Orientation) (base : Orientation) (sides : list (P * P)) (poly : list P)
    (all : bool) : option bool :=
  match sides with
  | [] => Some all
  | (pa, pb) :: t =>
    let (has_inside, all_inside) := side_loop o2 base pa pb poly false true in
    if negb has_inside then None else tri_sides o2 base t poly (all && all_inside)
  end.
(** bsp_complex.rs:1882-1898 *)
Fixpoint poly_sides {P} (o2 : P -> P -> P -> Orientation) (base : Orientation) (sides : list (P * P)) (tri : list P) : bool :=
  match sides with
  | [] => true
  | (pa, pb) :: t =>
    let (has_inside, _) := side_loop o2 base pa pb tri false true in
    if negb has_inside then false else poly_sides o2 base t tri
  end.
(** bsp_complex.rs:1852-1901.  [o2] is orient2d_by_axis on the given axis. *)
Definition is_triangle_intersects_poly {P} (o2 : P -> P -> P -> Orientation) (tri poly : list P) (base : Orientation) : bool :=
  match tri_sides o2 base (circular_pairs tri) poly true with
  | None => false
  | Some true => true
  | Some false => poly_sides o2 base (circular_pairs poly) tri
  end.
