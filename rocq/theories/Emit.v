(** Model of the output of complex_partition: polygonlization/bsp_complex.rs
    757-840 and poly_area 1979-1987.  The flat vectors explicit_points, out_points
    and points_2d are lists of points, segments is a list of pairs; allocators are
    left out; INVALID_IND is None.  The arithmetic on coordinates is a parameter
    (f64 in the code), and so is triangulate. *)
From Coq Require Import List Arith Bool.
From Verif Require Import Lib.
Import ListNotations.
Local Open Scope opt_scope.

(** Zero, sum, difference, product, absolute value; [n_cmp] is partial_cmp. *)
Record num (A : Type) : Type := Num { n_zero : A; n_add : A -> A -> A; n_sub : A -> A -> A; n_mul : A -> A -> A; n_abs : A -> A; n_cmp : A -> A -> option comparison }.
Arguments n_zero {A} _. Arguments n_add {A} _. Arguments n_sub {A} _. Arguments n_mul {A} _. Arguments n_abs {A} _. Arguments n_cmp {A} _.

Section Emit.
Context {A : Type} (N : num A) (tri : list (A * A) -> list (nat * nat) -> list nat).

(** bsp_complex.rs:757-765 *)
Definition project_point (p : A * A * A) (axis : nat) : A * A :=
  let '(x, y, z) := p in match axis with 0 => (y, z) | 1 => (z, x) | _ => (x, y) end.

(** lines 1979-1987 *)
Fixpoint poly_terms (points : list (A * A)) (poly : list (nat * nat)) : option (list A) :=
  match poly with
  | [] => Some []
  | (a, b) :: t =>
    pa <- nth_error points a ;; pb <- nth_error points b ;; r <- poly_terms points t ;;
    Some (n_sub N (n_mul N (fst pa) (snd pb)) (n_mul N (snd pa) (fst pb)) :: r)
  end.
Definition poly_area (points : list (A * A)) (poly : list (nat * nat)) : option A :=
  l <- poly_terms points poly ;; Some (fold_left (n_add N) l (n_zero N)).

(** v_old_to_new, out_points; loop_vert_indices; points_2d, face_new_verts *)
Record emitted : Type := Emitted { o2n : list (option nat); outp : list (A * A * A); lvi : list (option nat); p2d : list (A * A); fnv : list nat }.

(** lines 781-786 *)
Definition number_vertex (ex : list (A * A * A)) (s : emitted) (vid : nat) : option (emitted * nat) :=
  o <- nth_error (o2n s) vid ;;
  match o with
  | Some k => Some (s, k)
  | None =>
    o' <- set (o2n s) vid (Some (length (outp s))) ;;
    p <- nth_error ex vid ;;
    Some (Emitted o' (outp s ++ [p]) (lvi s) (p2d s) (fnv s), length (outp s))
  end.
(** lines 787-793 *)
Definition local_vertex (axis : nat) (s : emitted) (vid new_vid : nat) : option (emitted * nat) :=
  o <- nth_error (lvi s) vid ;;
  match o with
  | Some k => Some (s, k)
  | None =>
    l' <- set (lvi s) vid (Some (length (p2d s))) ;;
    p <- nth_error (outp s) new_vid ;;
    Some (Emitted (o2n s) (outp s) l' (p2d s ++ [project_point p axis]) (fnv s ++ [new_vid]), length (p2d s))
  end.
(** lines 780-794: the loop over the vertices; also returns loop_local *)
Fixpoint emit_verts (ex : list (A * A * A)) (axis : nat) (s : emitted) (l : list nat) : option (emitted * list nat) :=
  match l with
  | [] => Some (s, [])
  | vid :: t =>
    '(s1, k) <- number_vertex ex s vid ;;
    '(s2, i) <- local_vertex axis s1 vid k ;;
    '(s3, r) <- emit_verts ex axis s2 t ;;
    Some (s3, i :: r)
  end.
(** circular_tuple_windows, lines 796-801 *)
Definition windows (l : list nat) : list (nat * nat) := match l with [] => [] | a :: t => combine (a :: t) (t ++ [a]) end.
(** lines 803-806 *)
Fixpoint reset (l : list (option nat)) (vids : list nat) : option (list (option nat)) :=
  match vids with [] => Some l | v :: t => l' <- set l v None ;; reset l' t end.
(** lines 777-807: all loops of a face; also returns the segments *)
Fixpoint emit_loops (ex : list (A * A * A)) (axis : nat) (s : emitted) (ls : list (list nat)) : option (emitted * list (nat * nat)) :=
  match ls with
  | [] => Some (s, [])
  | l :: t =>
    '(s1, loc) <- emit_verts ex axis s l ;;
    r <- reset (lvi s1) l ;;
    '(s2, segs) <- emit_loops ex axis (Emitted (o2n s1) (outp s1) r (p2d s1) (fnv s1)) t ;;
    Some (s2, windows loc ++ segs)
  end.
(** lines 814-822 *)
Fixpoint loop_areas (points : list (A * A)) (segs : list (nat * nat)) (start : nat) (ls : list (list nat)) : option (list A) :=
  match ls with
  | [] => Some []
  | l :: t =>
    let e := start + length l in
    if length segs <? e then None else
    a <- poly_area points (firstn (length l) (skipn start segs)) ;;
    r <- loop_areas points segs e t ;;
    Some (a :: r)
  end.
(** position_max_by, lines 824-828: the last of the largest; None if partial_cmp
    gives None or there is no element *)
Fixpoint position_max_from (l : list A) (i best : nat) (b : A) : option nat :=
  match l with
  | [] => Some best
  | a :: t => c <- n_cmp N b a ;; match c with Gt => position_max_from t (S i) best b | _ => position_max_from t (S i) i a end
  end.
Definition position_max (l : list A) : option nat := match l with [] => None | a :: t => position_max_from t 1 0 a end.
Definition swap2 (p : A * A) : A * A := (snd p, fst p).
Fixpoint lookup_all (l : list nat) (is : list nat) : option (list nat) :=
  match is with [] => Some [] | i :: t => v <- nth_error l i ;; r <- lookup_all l t ;; Some (v :: r) end.
(** lines 772-838: one face; also returns its triangles *)
Definition emit_face (ex : list (A * A * A)) (o : list (option nat)) (outs : list (A * A * A)) (lv : list (option nat)) (ls : list (list nat)) (axis : nat)
    : option (emitted * list nat) :=
  '(s, segs) <- emit_loops ex axis (Emitted o outs lv [] []) ls ;;
  if match ls with [l] => length l =? 3 | _ => false end then Some (s, fnv s) else
  areas <- loop_areas (p2d s) segs 0 ls ;;
  i <- position_max (map (n_abs N) areas) ;;
  a <- nth_error areas i ;;
  let pts := match n_cmp N a (n_zero N) with Some Lt => map swap2 (p2d s) | _ => p2d s end in
  t <- lookup_all (fnv s) (tri pts segs) ;;
  Some (s, t).
(** lines 771-839 *)
Fixpoint emit_faces (ex : list (A * A * A)) (o : list (option nat)) (outs : list (A * A * A)) (lv : list (option nat)) (fs : list (list (list nat) * nat))
    : option (list (A * A * A) * list nat) :=
  match fs with
  | [] => Some (outs, [])
  | (ls, axis) :: r =>
    '(s, t) <- emit_face ex o outs lv ls axis ;;
    '(outs', ts) <- emit_faces ex (o2n s) (outp s) (lvi s) r ;;
    Some (outs', t ++ ts)
  end.
(** lines 766-840; [ex] has one point for each element of vertex_data *)
Definition emit (ex : list (A * A * A)) (fs : list (list (list nat) * nat)) : option (list (A * A * A) * list nat) :=
  emit_faces ex (repeat None (length ex)) [] (repeat None (length ex)) fs.
End Emit.
Arguments Emitted {A} _ _ _ _ _. Arguments o2n {A} _. Arguments outp {A} _. Arguments lvi {A} _. Arguments p2d {A} _. Arguments fnv {A} _.
