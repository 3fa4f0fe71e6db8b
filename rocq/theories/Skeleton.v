(** Model of the insertion of segments into a triangulation:
    src/triangle/triangle.rs [delaunay_fixup] (1050-1105), [constrained_edge]
    (1107-1173), [insert_segment] (1175-1199), [form_skeleton] (1201-1208), and the
    whole of [triangulate] (9-94).  Definitions only; [INV] is INVALID_IND, [n] the
    number of points, [ccw] and [inc] the signs of counterclockwise and incircle. *)
From Coq Require Import List Arith Bool ZArith.
From Verif Require Import Lib Flip TriSeg DivConq MergeHulls.
Import ListNotations.
Local Open Scope opt_scope.

Section Skeleton.
Context (INV n : nat) (ccw : nat -> nat -> nat -> Z) (inc : nat -> nat -> nat -> nat -> Z) (ghost : list bool).
(** [flip], as a parameter: see [form_skeleton] *)
Context (swap : list triangle -> hedge -> list hedge -> option (list triangle * list hedge)).

(** triangle.rs:337-352, as [turn] *)
Definition in_circle (a b c d : nat) : option Z :=
  if (a <? n) && (b <? n) && (c <? n) && (d <? n) then Some (inc a b c d) else None.

(** triangle.rs:1050-1105; the mesh, vertex_map and fixup_tri *)
Fixpoint delaunay_fixup (m : list triangle) (vm : list hedge) (fixup_tri : hedge) (left_side : bool) (fuel : nat) : option (list triangle * list hedge * hedge) :=
  match fuel with
  | 0 => None
  | S f =>
    let near_tri := next fixup_tri in
    far_tri <- sym m near_tri ;;
    g <- nth_error ghost (fst far_tri) ;;
    if g : bool then Some (m, vm, fixup_tri)
    else
    mk <- mark m near_tri ;;
    if negb (mk =? INV) then Some (m, vm, fixup_tri)
    else
    near_vertex <- apex m near_tri ;;
    left_vertex <- org m near_tri ;;
    right_vertex <- dest m near_tri ;;
    far_vertex <- apex m far_tri ;;
    s <- (if left_side then turn n ccw near_vertex left_vertex far_vertex else turn n ccw far_vertex right_vertex near_vertex) ;;
    if (s <=? 0)%Z then Some (m, vm, fixup_tri)
    else
    s <- turn n ccw right_vertex left_vertex far_vertex ;;
    c <- (if (0 <? s)%Z then in_circle left_vertex far_vertex right_vertex near_vertex else Some 1%Z) ;;
    if (c <=? 0)%Z then Some (m, vm, fixup_tri)
    else
    '(m, vm) <- swap m near_tri vm ;;
    '(m, vm, fixup_tri) <- delaunay_fixup m vm (prev fixup_tri) left_side f ;;
    '(m, vm, _) <- delaunay_fixup m vm far_tri left_side f ;;
    Some (m, vm, fixup_tri)
  end.

(** triangle.rs:1123-1159; the mesh, vertex_map, fixup_tri and collision *)
Fixpoint clear_way (ff endpoint1 endpoint2 : nat) (m : list triangle) (vm : list hedge) (fixup_tri : hedge) (fuel : nat) : option (list triangle * list hedge * hedge * bool) :=
  match fuel with
  | 0 => None
  | S f =>
    far_vertex <- org m fixup_tri ;;
    area <- (if far_vertex =? endpoint2 then Some 0%Z else turn n ccw endpoint1 endpoint2 far_vertex) ;;
    if (area =? 0)%Z then
      fixup_tri2 <- oprev m fixup_tri ;;
      '(m, vm, fixup_tri) <- delaunay_fixup m vm fixup_tri false ff ;;
      '(m, vm, _) <- delaunay_fixup m vm fixup_tri2 true ff ;;
      Some (m, vm, fixup_tri, negb (far_vertex =? endpoint2))
    else
      '(m, vm, fixup_tri) <- (if (0 <? area)%Z then
          fixup_tri2 <- oprev m fixup_tri ;;
          '(m, vm, _) <- delaunay_fixup m vm fixup_tri2 true ff ;;
          Some (m, vm, prev fixup_tri)
        else
          '(m, vm, fixup_tri) <- delaunay_fixup m vm fixup_tri false ff ;;
          fixup_tri <- oprev m fixup_tri ;;
          Some (m, vm, fixup_tri)) ;;
      '(m, vm) <- swap m fixup_tri vm ;;
      clear_way ff endpoint1 endpoint2 m vm fixup_tri f
  end.
(** triangle.rs:1107-1173; [ff] is the fuel of the loops *)
Fixpoint constrained_edge (ff : nat) (m : list triangle) (vm : list hedge) (start_tri : hedge) (endpoint2 k : nat) (fuel : nat) : option (list triangle * list hedge) :=
  match fuel with
  | 0 => None
  | S f =>
    endpoint1 <- org m start_tri ;;
    let fixup_tri := next start_tri in
    '(m, vm) <- swap m fixup_tri vm ;;
    '(m, vm, fixup_tri, collision) <- clear_way ff endpoint1 endpoint2 m vm fixup_tri ff ;;
    if collision : bool then
      '(m, fixup_tri, found) <- scout_segment INV n ccw m ghost fixup_tri endpoint2 k ff ff ;;
      if found : bool then Some (m, vm) else constrained_edge ff m vm fixup_tri endpoint2 k f
    else
      v <- dest m fixup_tri ;;
      m <- set_marks INV m fixup_tri (if v =? endpoint2 then k else twin k) ;;
      Some (m, vm)
  end.
(** triangle.rs:1175-1199 *)
Definition insert_segment (ff : nat) (m : list triangle) (vm : list hedge) (start fin k : nat) : option (list triangle * list hedge) :=
  searchtri1 <- nth_error vm start ;;
  '(m, searchtri1, found) <- scout_segment INV n ccw m ghost searchtri1 fin k ff ff ;;
  if found : bool then Some (m, vm)
  else
    start <- org m searchtri1 ;;
    searchtri2 <- nth_error vm fin ;;
    '(m, searchtri2, found) <- scout_segment INV n ccw m ghost searchtri2 start (twin k) ff ff ;;
    if found : bool then Some (m, vm)
    else
      fin <- org m searchtri2 ;;
      constrained_edge ff m vm searchtri1 fin k ff.
(** triangle.rs:1203-1207 from the chunk number [i] on; a last chunk of one index
    panics *)
Fixpoint insert_segments (ff : nat) (m : list triangle) (vm : list hedge) (i : nat) (segment : list nat) : option (list triangle) :=
  match segment with
  | [] => Some m
  | [_] => None
  | a :: b :: rest =>
    '(m, vm) <- (if negb (a =? b) then insert_segment ff m vm a b (2 * i) else Some (m, vm)) ;;
    insert_segments ff m vm (S i) rest
  end.
(** triangle.rs:1201-1208 *)
Definition form_skeleton_with (ff : nat) (m : list triangle) (segment : list nat) : option (list triangle) :=
  vm <- make_vertex_map INV m ghost n ;;
  insert_segments ff m vm 0 segment.
End Skeleton.

Definition form_skeleton (INV n : nat) ccw inc (ghost : list bool) := form_skeleton_with INV n ccw inc ghost flip.

(** triangle.rs:9-94; [sort] and [sel] are the sort and the selection of DivConq.v *)
Definition triangulate (INV : nat) ccw inc (lt : nat -> nat -> nat -> bool) (sort : list nat -> list nat) (sel : nat -> nat -> list nat -> list nat)
    (ff n_points : nat) (segments : list nat) : option (list nat) :=
  idx <- sorted_indices sort sel n_points ;;
  '(m, hull_left, hull_right) <- div_conq_recurse INV ccw (merge_hulls INV ccw inc lt ff) [] idx 0 ff ;;
  ghost <- mark_ghost m hull_left ;;
  m <- form_skeleton INV n_points ccw inc ghost ff m segments ;;
  classify INV m ghost.
