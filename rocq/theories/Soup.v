(** Index bookkeeping around the triangulation of polygon soups:
    src/triangle/triangle.rs unique_indices (1210-1229), triangulate_polygon
    (101-130), triangulate_polygon_soup (132-158); src/polygonlization/mod.rs
    remove_duplicates (18-54), make_mesh_for_triangles (115-142);
    src/polygonlization/bsp_complex.rs insert_coplanar_triangles (1419-1427).

    Panics are [None].  Allocators are left out. *)
From Coq Require Import List Arith Bool ZArith.
From Flocq Require Import BinarySingleNaN.
From Verif Require Import Lib F64.
Import ListNotations.
Local Open Scope opt_scope.

(** HashMap<usize, usize> as an association list, new keys in front. *)
Fixpoint find (m : list (nat * nat)) (k : nat) : option nat :=
  match m with
  | [] => None
  | (a, b) :: t => if a =? k then Some b else find t k
  end.

(** triangle.rs:1215-1223 *)
Fixpoint renumber_all (l : list nat) (map : list (nat * nat)) (count : nat)
    : list nat * list (nat * nat) :=
  match l with
  | [] => ([], map)
  | old :: t =>
    match find map old with
    | Some now => let (r, m) := renumber_all t map count in (now :: r, m)
    | None => let (r, m) := renumber_all t ((old, count) :: map) (S count) in (count :: r, m)
    end
  end.
(** triangle.rs:1225-1227: for (k, v) in map { new_to_ori_map[v] = k; } *)
Fixpoint write_back (l : list (nat * nat)) (v : list nat) : option (list nat) :=
  match l with
  | [] => Some v
  | (k, i) :: t => v' <- set v i k ;; write_back t v'
  end.
(** triangle.rs:1210-1229.  [iter] is the order in which the map is walked. *)
Definition unique_indices (iter : list (nat * nat) -> list (nat * nat)) (indices : list nat)
    : option (list nat * list nat) :=
  let (result, map) := renumber_all indices [] 0 in
  v <- write_back (iter map) (repeat 0 (length map)) ;;
  Some (result, v).

(** [f] on every element, [None] if one of them panics. *)
Fixpoint omap {A B} (f : A -> option B) (l : list A) : option (list B) :=
  match l with
  | [] => Some []
  | x :: t => y <- f x ;; r <- omap f t ;; Some (y :: r)
  end.
(** &points[3 * idx..3 * idx + 3]: triangle.rs:95-98, mod.rs:13-16 *)
Definition point3 (points : list f64) (idx : nat) : option (f64 * f64 * f64) :=
  if 3 * idx + 3 <=? length points then
    match skipn (3 * idx) points with
    | x :: y :: z :: _ => Some (x, y, z)
    | _ => None
    end
  else None.
(** math::sub and math::dot on three coordinates *)
Definition sub3 (a b : f64 * f64 * f64) : f64 * f64 * f64 :=
  let '(a0, a1, a2) := a in let '(b0, b1, b2) := b in (fsub a0 b0, fsub a1 b1, fsub a2 b2).
Definition dot3 (a b : f64 * f64 * f64) : f64 :=
  let '(a0, a1, a2) := a in let '(b0, b1, b2) := b in
  fadd (fadd (fmul a0 b0) (fmul a1 b1)) (fmul a2 b2).

(** triangle.rs:101-130.  [tri] is the function triangulate on 2-dimensional
    points (one pair per point) and segments. *)
Definition triangulate_polygon (iter : list (nat * nat) -> list (nat * nat))
    (tri : list (f64 * f64) -> list nat -> option (list nat))
    (points : list f64) (segments : list nat) (o x y : f64 * f64 * f64) : option (list nat) :=
  '(new_segments, new_to_ori) <- unique_indices iter segments ;;
  pts <- omap (fun idx => p <- point3 points idx ;; let v := sub3 p o in Some (dot3 v x, dot3 v y)) new_to_ori ;;
  r <- tri pts new_segments ;;
  omap (fun idx => nth_error new_to_ori idx) r.

(** axis_data[0..3] etc. of the chunk number [idx] of 9 entries *)
Definition axis_chunk (axes : list f64) (idx : nat) : option ((f64 * f64 * f64) * (f64 * f64 * f64) * (f64 * f64 * f64)) :=
  match firstn 9 (skipn (9 * idx) axes) with
  | [a0; a1; a2; a3; a4; a5; a6; a7; a8] => Some ((a0, a1, a2), (a3, a4, a5), (a6, a7, a8))
  | _ => None
  end.
(** triangle.rs:132-158.  The loop over edges.iter().zip(axes.chunks(9)) stops
    when the axes are used up. *)
Fixpoint soup_loop (one : list nat -> nat -> option (list nat)) (chunks : nat) (edges : list (list nat))
    (idx : nat) (triangles parents : list nat) : option (list nat * list nat) :=
  match edges with
  | [] => Some (triangles, parents)
  | segments :: t =>
    if idx <? chunks then
      face <- one segments idx ;;
      soup_loop one chunks t (S idx) (triangles ++ face) (parents ++ repeat idx (length face / 3))
    else Some (triangles, parents)
  end.
Definition triangulate_polygon_soup (iter : list (nat * nat) -> list (nat * nat))
    (tri : list (f64 * f64) -> list nat -> option (list nat))
    (points : list f64) (edges : list (list nat)) (axes : list f64) : option (list nat * list nat) :=
  soup_loop (fun segments idx =>
      '(o, x, y) <- axis_chunk axes idx ;; triangulate_polygon iter tri points segments o x y)
    ((length axes + 8) / 9) edges 0 [] [].

(** predicates/mod.rs:76-83 get_exponent on a value that is not NaN: the biased
    exponent field minus 1023. *)
Definition get_exponent (x : f64) : Z :=
  match x with
  | B754_zero _ => 0
  | B754_finite _ m e _ => if (Z.pos m <? 2 ^ 52)%Z then -1023 else e + 52
  | _ => 1024
  end.
(** 2.0f64.powi(e): exact for the exponents of normal numbers *)
Definition pow2 (e : Z) : f64 := fl 1 e.
(** f64::round: to the nearest integer, halves away from zero *)
Definition fround (x : f64) : f64 := Bnearbyint mode_NA x.
(** mod.rs:27: (x / base).round() * base *)
Definition snap (base x : f64) : f64 := fmul (fround (fdiv x base)) base.

(** == on two slices of three coordinates *)
Definition point_eqb (p q : f64 * f64 * f64) : bool :=
  let '(p0, p1, p2) := p in let '(q0, q1, q2) := q in feq p0 q0 && feq p1 q1 && feq p2 q2.

(** mod.rs:33-41: the loop over k in 1..n_points *)
Fixpoint merge_loop (points : list f64) (prev : nat) (l : list nat) (pmap outs : list nat)
    : option (list nat * list nat) :=
  match l with
  | [] => Some (pmap, outs)
  | i :: t =>
    p <- point3 points i ;; q <- point3 points prev ;;
    if point_eqb p q then
      pmap <- set pmap i (length outs - 1) ;; merge_loop points i t pmap outs
    else
      pmap <- set pmap i (length outs) ;; merge_loop points i t pmap (outs ++ [i])
  end.
(** mod.rs:18-54.  [sort] is sort_unstable_by with the lexicographic order of
    the points. *)
Definition remove_duplicates (sort : list nat -> list nat) (points : list f64) (epsilon : f64)
    : option (list f64 * list nat) :=
  if feq epsilon fzero then Some (points, seq 0 (length points)) else
  let base := pow2 (get_exponent epsilon - 1) in
  let approx := map (snap base) points in
  let n := length points / 3 in
  match sort (seq 0 n) with
  | [] => None (* indices[0] *)
  | i0 :: l =>
    '(pmap, outs) <- merge_loop points i0 l (repeat 0 n) [i0] ;;
    ps <- omap (point3 approx) outs ;;
    Some (flat_map (fun p => let '(x, y, z) := p in [x; y; z]) ps, pmap)
  end.

(** mod.rs:122-140: the loop over triangles.chunks(3), given the output of
    remove_duplicates. *)
Fixpoint keep_triangles (mis : (f64 * f64 * f64) -> (f64 * f64 * f64) -> (f64 * f64 * f64) -> bool)
    (points : list f64) (pmap shells : list nat) (triangles : list nat) (idx : nat)
    (rt rs : list nat) : option (list nat * list nat) :=
  match triangles with
  | [] => Some (rt, rs)
  | t0 :: t1 :: t2 :: rest =>
    a <- nth_error pmap t0 ;; b <- nth_error pmap t1 ;; c <- nth_error pmap t2 ;;
    if (a =? b) || (b =? c) || (c =? a) then keep_triangles mis points pmap shells rest (S idx) rt rs else
    pa <- point3 points a ;; pb <- point3 points b ;; pc <- point3 points c ;;
    if negb (mis pa pb pc) then keep_triangles mis points pmap shells rest (S idx) rt rs else
    s <- nth_error shells idx ;;
    keep_triangles mis points pmap shells rest (S idx) (rt ++ [a; b; c]) (rs ++ [s])
  | _ => None (* tri[1] or tri[2] *)
  end.

(** slice::binary_search on a sorted slice without repetition: the position
    found, or the one to insert at. *)
Fixpoint binary_search (l : list nat) (x : nat) : bool * nat :=
  match l with
  | [] => (false, 0)
  | y :: t => if y =? x then (true, 0) else if y <? x then let (b, p) := binary_search t x in (b, S p) else (false, 0)
  end.
Fixpoint insert_at (l : list nat) (p x : nat) : list nat :=
  match p, l with
  | S p', y :: t => y :: insert_at t p' x
  | _, _ => x :: l
  end.
(** bsp_complex.rs:1419-1427.  The positions binary_search may report on an
    unsorted slice are not modelled. *)
Fixpoint insert_coplanar_triangles (src dest : list nat) (n_constraints : nat) : list nat :=
  match src with
  | [] => dest
  | idx :: t =>
    let dest := if idx <? n_constraints then
        (let (found, pos) := binary_search dest idx in if found then dest else insert_at dest pos idx)
      else dest in
    insert_coplanar_triangles t dest n_constraints
  end.
