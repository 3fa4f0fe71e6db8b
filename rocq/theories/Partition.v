(** Model of the choice of the kept cells in complex_partition:
    polygonlization/bsp_complex.rs 614-755.

    The costs are exact numbers.  The code divides the areas by their sum S (line
    606-609), uses 0.5 * area / S for a face that lies on a triangle, area / S for
    another face and 1.0 for the outer cell; here all of them are multiplied by
    2 * S, so they are area, 2 * area and 2 * S.  Rounding is left out.
    [hit fid tid] is face_intersects_tri of lines 654-665 and [pos fid tid] says that
    the orientation of line 678 is Positive: both are parameters, so the panics of
    find_uncoplanar_verts and the geometric predicates are left out.  INVALID_IND
    is None. *)
From Coq Require Import List Arith ZArith Bool.
From Verif Require Import Lib PushRelabel.
Import ListNotations.
Local Open Scope opt_scope.

(** face_data: cells[0], cells[1], triangles; with the entry of face_areas *)
Record cface : Type := CFace { fc0 : nat; fc1 : option nat; ftris : list nat; farea : Z }.

(** cell_costs_external, cell_costs_internal, is_black *)
Record marks : Type := Marks { m_ext : list (list Z); m_int : list (list Z); m_black : list (list bool) }.

(** [m[s][c] += x] *)
Definition add_to (m : list (list Z)) (s c : nat) (x : Z) : option (list (list Z)) :=
  row <- nth_error m s ;; v <- nth_error row c ;; Some (upd m s (upd row c (v + x)%Z)).
(** [if c != INVALID_IND { m[s][c] += x }] *)
Definition add_opt (m : list (list Z)) (s : nat) (c : option nat) (x : Z) : option (list (list Z)) :=
  match c with Some c => add_to m s c x | None => Some m end.

Section Partition.
Context (shell : list nat) (hit pos : nat -> nat -> bool).

(** bsp_complex.rs:643-696, one turn of the loop over the triangles of a face *)
Definition mark_tri (fid : nat) (f : cface) (m : marks) (tid : nat) : option marks :=
  s <- nth_error shell tid ;;
  row <- nth_error (m_black m) s ;; b <- nth_error row fid ;;
  if b then Some m
  else if hit fid tid then
    if pos fid tid then
      i <- add_to (m_int m) s (fc0 f) (farea f) ;;
      e <- add_opt (m_ext m) s (fc1 f) (farea f) ;;
      Some (Marks e i (upd (m_black m) s (upd row fid true)))
    else
      e <- add_to (m_ext m) s (fc0 f) (farea f) ;;
      i <- add_opt (m_int m) s (fc1 f) (farea f) ;;
      Some (Marks e i (upd (m_black m) s (upd row fid true)))
  else Some m.
Fixpoint mark_tris (fid : nat) (f : cface) (m : marks) (ts : list nat) : option marks :=
  match ts with [] => Some m | t :: ts' => m' <- mark_tri fid f m t ;; mark_tris fid f m' ts' end.
(** lines 618-698 *)
Fixpoint mark_faces (fid : nat) (m : marks) (fs : list cface) : option marks :=
  match fs with [] => Some m | f :: fs' => m' <- mark_tris fid f m (ftris f) ;; mark_faces (S fid) m' fs' end.

(** [*tri_in_shell.iter().max().unwrap() + 1], line 614 *)
Definition n_shells : option nat := match shell with [] => None | _ => Some (S (list_max shell)) end.

(** lines 615-617 *)
Definition no_marks (ns n_cells n_faces : nat) : marks :=
  Marks (repeat (repeat 0%Z (S n_cells)) ns) (repeat (repeat 0%Z (S n_cells)) ns) (repeat (repeat false n_faces) ns).

Definition sum_area (fs : list cface) : Z := fold_right (fun f a => (farea f + a)%Z) 0%Z fs.

(** lines 700-708, one element *)
Definition start_arcs (n_cells : nat) (total : Z) (p : list Z * list Z) : option (list arc_in) :=
  i <- set (snd p) n_cells total ;; Some (arc_builder_new (fst p) i).
Fixpoint start_all (n_cells : nat) (total : Z) (l : list (list Z * list Z)) : option (list (list arc_in)) :=
  match l with
  | [] => Some []
  | p :: l' => a <- start_arcs n_cells total p ;; r <- start_all n_cells total l' ;; Some (a :: r)
  end.

(** lines 712-715 *)
Definition other_cell (n_cells : nat) (f : cface) : nat := match fc1 f with Some c => c | None => n_cells end.

(** lines 717-722, the loop over the shells *)
Fixpoint face_arcs (n_cells : nat) (black : list (list bool)) (fid : nat) (f : cface) (bs : list (list arc_in)) (ss : list nat) : option (list (list arc_in)) :=
  match ss with
  | [] => Some bs
  | s :: ss' =>
    row <- nth_error black s ;; b <- nth_error row fid ;;
    bs' <- (if b then Some bs else
      a <- nth_error bs s ;; Some (upd bs s (add_arc a (fc0 f) (other_cell n_cells f) (2 * farea f)%Z true))) ;;
    face_arcs n_cells black fid f bs' ss'
  end.
(** lines 710-723 *)
Fixpoint all_arcs (n_cells ns : nat) (black : list (list bool)) (fid : nat) (bs : list (list arc_in)) (fs : list cface) : option (list (list arc_in)) :=
  match fs with
  | [] => Some bs
  | f :: fs' => bs' <- face_arcs n_cells black fid f bs (seq 0 ns) ;; all_arcs n_cells ns black (S fid) bs' fs'
  end.

(** lines 614-723: the arcs of the graph of each shell *)
Definition shell_graphs (n_cells : nat) (fs : list cface) : option (list (list arc_in)) :=
  ns <- n_shells ;;
  m <- mark_faces 0 (no_marks ns n_cells (length fs)) fs ;;
  bs <- start_all n_cells (2 * sum_area fs)%Z (combine (m_ext m) (m_int m)) ;;
  all_arcs n_cells ns (m_black m) 0 bs fs.

(** lines 731-734 *)
Fixpoint keep_cells (s : pr) (kept : list bool) (cids : list nat) : option (list bool) :=
  match cids with
  | [] => Some kept
  | c :: cids' =>
    b <- is_sink s (c + 1) ;; k <- nth_error kept c ;; keep_cells s (upd kept c (k || negb b)) cids'
  end.
(** lines 727-735; [fuel] bounds the rounds of find_max_flow *)
Fixpoint keep_all (fuel n_cells : nat) (kept : list bool) (graphs : list (list arc_in)) : option (list bool) :=
  match graphs with
  | [] => Some kept
  | a :: graphs' =>
    s0 <- from a (n_cells + 3) ;; s <- find_max_flow fuel s0 ;;
    kept' <- keep_cells s kept (seq 0 n_cells) ;; keep_all fuel n_cells kept' graphs'
  end.

(** lines 737-755 *)
Definition keep_face (n_cells : nat) (kept : list bool) (f : cface) : option Z :=
  a <- nth_error kept (fc0 f) ;; b <- nth_error kept (other_cell n_cells f) ;;
  Some (if xorb a b then if a then (-1)%Z else 1%Z else 0%Z).
Fixpoint keep_faces (n_cells : nat) (kept : list bool) (fs : list cface) : option (list Z) :=
  match fs with
  | [] => Some []
  | f :: fs' => z <- keep_face n_cells kept f ;; r <- keep_faces n_cells kept fs' ;; Some (z :: r)
  end.

(** lines 614-755: cell_kept and kept_faces *)
Definition partition (fuel n_cells : nat) (fs : list cface) : option (list bool * list Z) :=
  gs <- shell_graphs n_cells fs ;;
  kept <- keep_all fuel n_cells (repeat false (S n_cells)) gs ;;
  signs <- keep_faces n_cells kept fs ;;
  Some (kept, signs).
End Partition.
