(** Model of triangle_at_tet, src/polygonlization/conforming_mesh.rs:349-408. *)
From Coq Require Import List Arith Bool.
From Verif Require Import Lib Tet.
Import ListNotations.
Local Open Scope opt_scope.

(** tetrahedron.rs:422 *)
Definition VPIVOT := [11; 8; 9; 10].

(** lines 361-370: turn around the origin; the edge found and pos3. *)
Fixpoint find_edge (m : tetmesh) (p q : nat) (cur : triface) (k : nat) : option (option (triface * nat)) :=
  match k with
  | 0 => Some None
  | S k' =>
    d <- dest m cur ;;
    if (d =? p) || (d =? q) then Some (Some (cur, if d =? p then 2 else 1))
    else c <- eprev_esym cur ;; find_edge m p q c k'
  end.
(** lines 375-384, with the [break] of line 377 *)
Fixpoint push_nei (m : tetmesh) (tid pos1 : nat) (is : list nat) (ts : list nat) : option (tetmesh * list nat) :=
  match is with
  | [] => Some (m, ts)
  | i :: is' =>
    if i =? pos1 then Some (m, ts) else
    nf <- nei_at m (Some tid) i ;;
    h <- is_hull_tet m (tet nf) ;;
    if h then push_nei m tid pos1 is' ts else
    b <- mark_tested m (tet nf) ;;
    if b then push_nei m tid pos1 is' ts else
    m' <- mark_test m (tet nf) ;;
    n <- tet nf ;;
    push_nei m' tid pos1 is' (ts ++ [n])
  end.
(** lines 357-386 *)
Fixpoint edge_loop (m : tetmesh) (a b c : nat) (idx : nat) (ts : list nat) (fuel : nat)
    : option (tetmesh * list nat * option (triface * nat)) :=
  match fuel with
  | 0 => None
  | S k =>
    match nth_error ts idx with
    | None => Some (m, ts, None)
    | Some tid =>
      x <- tet_at m (Some tid) ;;
      pos1 <- index_of a (data x) ;;
      v <- nth_error VPIVOT pos1 ;;
      e <- find_edge m b c (TF (Some tid) v) 3 ;;
      match e with
      | Some r => Some (m, ts, Some r)
      | None => '(m', ts') <- push_nei m tid pos1 (seq 0 4) ts ;; edge_loop m' a b c (S idx) ts' k
      end
    end
  end.
(** lines 397-407 *)
Fixpoint find_apex (m : tetmesh) (edge : triface) (r : nat) (s : triface) (fuel : nat) : option triface :=
  match fuel with
  | 0 => None
  | S k =>
    p <- apex m s ;;
    if p =? r then Some s else
    s' <- fnext m s ;;
    t' <- tet s' ;;
    t0 <- tet edge ;;
    if t' =? t0 then Some tf0 else find_apex m edge r s' k
  end.
(** lines 349-408; tri = [a, b, c] *)
Definition triangle_at_tet (m : tetmesh) (a b c : nat) : option (tetmesh * triface) :=
  x <- nth_error (p2t m) a ;;
  t0 <- x ;;
  m1 <- mark_test m (Some t0) ;;
  '(m2, ts, e) <- edge_loop m1 a b c 0 [t0] (S (length (tets m))) ;;
  m3 <- unmark_all m2 ts ;;
  match e with
  | None => Some (m3, tf0)
  | Some (edge, pos3) =>
    r <- nth_error [a; b; c] pos3 ;;
    f <- find_apex m3 edge r edge (S (12 * length (tets m))) ;;
    Some (m3, f)
  end.
