(** Model of the order in which triangle.rs cuts a set of points in halves and of
    the triangulations it starts from: src/triangle/triangle.rs [triangulate] 14-38,
    [alternate_axes] (191-211), [make_triangle] (214-218) and [div_conq_recurse]
    (682-823).  Definitions only; the readers and writers of a triangle are those of
    Flip.v; [merge_hulls] (354-680) is a parameter here, its model is in MergeHulls.v. *)
From Coq Require Import List Arith Bool ZArith.
From Verif Require Import Lib Flip.
Import ListNotations.
Local Open Scope opt_scope.

(** triangle.rs:191-211.  [sel axis k l] is what select_nth_unstable_by(k, ..) with
    the comparison by (p[axis], p[1 - axis]) makes of [l]; it panics if [k] is not
    below the length.  The fuel bounds the depth of the recursion. *)
Fixpoint alternate_axes (sel : nat -> nat -> list nat -> list nat) (indices : list nat) (axis : nat) (fuel : nat) : option (list nat) :=
  match fuel with
  | 0 => None
  | S k =>
    let len := length indices in
    let divider := len / 2 in
    let axis := if len <=? 3 then 0 else axis in
    if negb (divider <? len) then None
    else
      let indices := sel axis divider indices in
      let left := firstn divider indices in
      let right := skipn divider indices in
      if 2 <=? len - divider then
        left <- (if 2 <=? divider then alternate_axes sel left (1 - axis) k else Some left) ;;
        right <- alternate_axes sel right (1 - axis) k ;;
        Some (left ++ right)
      else Some (left ++ right)
  end.
(** triangle.rs:14-25: [sort] is the sort by (x, y). *)
Definition sorted_indices (sort : list nat -> list nat) (sel : nat -> nat -> list nat -> list nat) (n_points : nat) : option (list nat) :=
  alternate_axes sel (sort (seq 0 n_points)) 0 (S n_points).

Section DivConq.
Context (INV : nat) (ccw : nat -> nat -> nat -> Z).

(** triangle.rs:175-186 *)
Definition default_tri : triangle := mk_tri [INV; INV; INV; INV; INV; INV] [(INV, 0); (INV, 0); (INV, 0)].
(** triangle.rs:214-218 *)
Definition make_triangle (m : list triangle) : list triangle * hedge := (m ++ [default_tri], (length m, 0)).

(** triangle.rs:691-711; the mesh, far_left and far_right *)
Definition two_points (m : list triangle) (a b : nat) : option (list triangle * hedge * hedge) :=
  let (m, far_left) := make_triangle m in
  m <- set_org m far_left a ;;
  m <- set_dest m far_left b ;;
  let (m, far_right) := make_triangle m in
  m <- set_org m far_right b ;;
  m <- set_dest m far_right a ;;
  m <- bond m far_left far_right ;;
  let far_left := prev far_left in
  let far_right := next far_right in
  m <- bond m far_left far_right ;;
  let far_left := prev far_left in
  let far_right := next far_right in
  m <- bond m far_left far_right ;;
  Some (m, prev far_right, far_right).

(** triangle.rs:729-757 *)
Definition three_collinear (m : list triangle) (midtri tri1 tri2 tri3 : hedge) (a b c : nat) : option (list triangle * hedge * hedge) :=
  m <- set_org m midtri a ;;
  m <- set_dest m midtri b ;;
  m <- set_org m tri1 b ;;
  m <- set_dest m tri1 a ;;
  m <- set_org m tri2 c ;;
  m <- set_dest m tri2 b ;;
  m <- set_org m tri3 b ;;
  m <- set_dest m tri3 c ;;
  m <- bond m midtri tri1 ;;
  m <- bond m tri2 tri3 ;;
  let midtri := next midtri in
  let tri1 := prev tri1 in
  let tri2 := next tri2 in
  let tri3 := prev tri3 in
  m <- bond m midtri tri3 ;;
  m <- bond m tri1 tri2 ;;
  let midtri := next midtri in
  let tri1 := prev tri1 in
  let tri2 := next tri2 in
  let tri3 := prev tri3 in
  m <- bond m midtri tri1 ;;
  m <- bond m tri2 tri3 ;;
  Some (m, tri1, tri2).

(** triangle.rs:758-803 *)
Definition three_proper (m : list triangle) (midtri tri1 tri2 tri3 : hedge) (a b c : nat) (positive : bool) : option (list triangle * hedge * hedge) :=
  m <- set_org m midtri a ;;
  m <- set_dest m tri1 a ;;
  m <- set_org m tri3 a ;;
  m <- (if positive then
      m <- set_dest m midtri b ;;
      m <- set_org m tri1 b ;;
      m <- set_dest m tri2 b ;;
      m <- set_apex m midtri c ;;
      m <- set_org m tri2 c ;;
      set_dest m tri3 c
    else
      m <- set_dest m midtri c ;;
      m <- set_org m tri1 c ;;
      m <- set_dest m tri2 c ;;
      m <- set_apex m midtri b ;;
      m <- set_org m tri2 b ;;
      set_dest m tri3 b) ;;
  m <- bond m midtri tri1 ;;
  let midtri := next midtri in
  m <- bond m midtri tri2 ;;
  let midtri := next midtri in
  m <- bond m midtri tri3 ;;
  let tri1 := prev tri1 in
  let tri2 := next tri2 in
  m <- bond m tri1 tri2 ;;
  let tri1 := prev tri1 in
  let tri3 := prev tri3 in
  m <- bond m tri1 tri3 ;;
  let tri2 := next tri2 in
  let tri3 := prev tri3 in
  m <- bond m tri2 tri3 ;;
  Some (m, tri1, if positive then tri2 else next tri1).

(** triangle.rs:712-804 *)
Definition three_points (m : list triangle) (a b c : nat) : option (list triangle * hedge * hedge) :=
  let (m, midtri) := make_triangle m in
  let (m, tri1) := make_triangle m in
  let (m, tri2) := make_triangle m in
  let (m, tri3) := make_triangle m in
  let area := ccw a b c in
  if (area =? 0)%Z then three_collinear m midtri tri1 tri2 tri3 a b c
  else three_proper m midtri tri1 tri2 tri3 a b c (0 <? area)%Z.

(** triangle.rs:682-823.  [merge m axis far_left inner_left inner_right far_right]
    is merge_hulls; the fuel bounds the depth of the recursion. *)
Fixpoint div_conq_recurse (merge : list triangle -> nat -> hedge -> hedge -> hedge -> hedge -> option (list triangle * hedge * hedge))
    (m : list triangle) (l : list nat) (axis : nat) (fuel : nat) : option (list triangle * hedge * hedge) :=
  match fuel with
  | 0 => None
  | S k =>
    match l with
    | [a; b] => two_points m a b
    | [a; b; c] => three_points m a b c
    | _ =>
      let divider := length l / 2 in
      '(m, far_left, inner_left) <- div_conq_recurse merge m (firstn divider l) (1 - axis) k ;;
      '(m, inner_right, far_right) <- div_conq_recurse merge m (skipn divider l) (1 - axis) k ;;
      merge m axis far_left inner_left inner_right far_right
    end
  end.
End DivConq.
