(** Model of the front of make_polyhedral_mesh: src/polygonlization/mod.rs 82-113, up
    to the call of make_mesh_for_proper_triangles.

    Panics are [None]. *)
From Coq Require Import List Arith Bool.
From Verif Require Import Lib F64 Soup.
Import ListNotations.
Local Open Scope opt_scope.

(** mod.rs:91-103: chunks(2) and filter_map over the edges of a face; a last chunk of
    one index panics at pair[1]. *)
Fixpoint map_edges (pmap : list nat) (arr : list nat) : option (list nat) :=
  match arr with
  | [] => Some []
  | p0 :: p1 :: rest =>
    a <- nth_error pmap p0 ;; b <- nth_error pmap p1 ;;
    r <- map_edges pmap rest ;;
    Some (if a =? b then r else a :: b :: r)
  | _ => None
  end.

(** mod.rs:82-113: the points, the triangles and tri_in_shells handed on.  [sort] is
    the sort of remove_duplicates, [iter] the order of the map of unique_indices,
    [tri] the function triangulate. *)
Definition prepare (sort : list nat -> list nat) (iter : list (nat * nat) -> list (nat * nat))
    (tri : list (f64 * f64) -> list nat -> option (list nat))
    (point_data axis_data : list f64) (face_in_shell : list nat) (face_edge_data : list (list nat)) (epsilon : f64)
    : option (list f64 * list nat * list nat) :=
  '(points, pmap) <- remove_duplicates sort point_data epsilon ;;
  face_edges <- omap (map_edges pmap) face_edge_data ;;
  '(triangles, tri_parents) <- triangulate_polygon_soup iter tri points face_edges axis_data ;;
  shells <- omap (fun parent => nth_error face_in_shell parent) tri_parents ;;
  Some (points, triangles, shells).
