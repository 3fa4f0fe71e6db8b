(** Model of insert_constraints and of the tracing of a constraint through the
    tetrahedra, src/polygonlization/conforming_mesh.rs:132-348 and 411-1007.
    The exact predicates on points (their models are in PointTests.v) are the
    arguments [geom]; a question about the ghost vertex is a panic, because
    mesh.point and mesh.orient3d index the array of points.  Allocation is left
    out. *)
From Coq Require Import List Arith Bool ZArith.
From Verif Require Import Lib Tet TetFace.
Import ListNotations.
Local Open Scope opt_scope.

(** The answers of the predicates, by vertex numbers: the sign of orient3d,
    inner_segment_cross_inner_triangle, inner_segment_cross_triangle,
    inner_segments_cross, same_half_plane, point_in_inner_segment,
    point_in_triangle. *)
Record geom : Type := Geom {
  g_o3 : sign3;
  g_seg_tri : nat -> nat -> nat -> nat -> nat -> bool;
  g_seg_ctri : nat -> nat -> nat -> nat -> nat -> bool;
  g_segs : nat -> nat -> nat -> nat -> bool;
  g_half : nat -> nat -> nat -> nat -> bool;
  g_in_seg : nat -> nat -> nat -> bool;
  g_in_tri : nat -> nat -> nat -> nat -> bool }.

(** The three corners of a constraint; [triangles.chunks(3)] of line 141, all
    chunks being full. *)
Definition tri3 : Type := (nat * nat * nat)%type.
Definition corner_list (c : tri3) : list nat := let '(a, b, d) := c in [a; b; d].
(** circular_tuple_windows of pairs *)
Definition pairs (l : list nat) : list (nat * nat) := combine l (tl l ++ firstn 1 l).

(** Only points of the mesh can be asked about. *)
Definition on_points {A} (m : tetmesh) (l : list nat) (x : A) : option A :=
  if forallb (fun v => v <? n_points m) l then Some x else None.
Definition inb (v : nat) (l : list nat) : bool := existsb (Nat.eqb v) l.
(** [x && y], [x || y] with y asked only if needed; the first element that passes. *)
Definition andp (x y : option bool) : option bool := b <- x ;; if b then y else Some false.
Definition orp (x y : option bool) : option bool := b <- x ;; if b then Some true else y.
Fixpoint findp {A} (f : A -> option bool) (l : list A) : option (option A) :=
  match l with
  | [] => Some None
  | x :: t => b <- f x ;; if b then Some (Some x) else findp f t
  end.
Definition anyp {A} (f : A -> option bool) (l : list A) : option bool :=
  r <- findp f l ;; Some (match r with Some _ => true | None => false end).

Section Questions.
  Variables (g : geom) (m : tetmesh).
  (** lines 167-183: no test for common vertices *)
  Definition segs_plain (u1 u2 v1 v2 : nat) : option bool := on_points m [u1; u2; v1; v2] (g_segs g u1 u2 v1 v2).
  (** lines 185-206 *)
  Definition seg_tri (u1 u2 v1 v2 v3 : nat) : option bool :=
    if inb u1 [v1; v2; v3] || inb u2 [v1; v2; v3] then Some false
    else on_points m [u1; u2; v1; v2; v3] (g_seg_tri g u1 u2 v1 v2 v3).
  (** lines 208-228 *)
  Definition seg_ctri (u1 u2 : nat) (c : tri3) : option bool :=
    let '(v1, v2, v3) := c in
    if inb u1 [v1; v2; v3] || inb u2 [v1; v2; v3] then Some false
    else on_points m [u1; u2; v1; v2; v3] (g_seg_ctri g u1 u2 v1 v2 v3).
  (** lines 230-250 *)
  Definition segs (u1 u2 v1 v2 : nat) : option bool :=
    if inb u1 [v1; v2] || inb u2 [v1; v2] then Some false
    else on_points m [u1; u2; v1; v2] (g_segs g u1 u2 v1 v2).
  (** lines 252-264 *)
  Definition half_space (u1 u2 v1 v2 v3 : nat) : option bool :=
    on_points m [u1; u2; v1; v2; v3] (Z.eqb (Z.sgn (g_o3 g u1 v1 v2 v3)) (Z.sgn (g_o3 g u2 v1 v2 v3))).
  (** lines 266-286 *)
  Definition half_plane (u1 u2 v1 v2 : nat) : option bool :=
    if inb u1 [v1; v2] || inb u2 [v1; v2] then Some false
    else on_points m [u1; u2; v1; v2] (g_half g u1 u2 v1 v2).
  (** lines 288-299 *)
  Definition in_inner_seg (u v1 v2 : nat) : option bool :=
    if inb u [v1; v2] then Some false else on_points m [u; v1; v2] (g_in_seg g u v1 v2).
  (** lines 300-311 *)
  Definition in_seg (u v1 v2 : nat) : option bool :=
    if inb u [v1; v2] then Some true else on_points m [u; v1; v2] (g_in_seg g u v1 v2).
  (** lines 313-330: calls point_in_triangle, not point_in_inner_triangle *)
  Definition in_inner_tri (p : nat) (c : tri3) : option bool :=
    let '(v1, v2, v3) := c in
    if inb p [v1; v2; v3] then Some false else on_points m [p; v1; v2; v3] (g_in_tri g p v1 v2 v3).
  (** lines 332-348 *)
  Definition in_tri (p : nat) (c : tri3) : option bool :=
    let '(v1, v2, v3) := c in
    if inb p [v1; v2; v3] then Some true else on_points m [p; v1; v2; v3] (g_in_tri g p v1 v2 v3).
  (** TetMesh::orient3d, tetrahedron.rs:224-232: the sign *)
  Definition ori (a b c d : nat) : option Z := on_points m [a; b; c; d] (Z.sgn (g_o3 g a b c d)).
End Questions.

(** * The walk along the sides *)

(** IntersectInfo, lines 162-165 *)
Record info : Type := Info { intersected : list nat; visited : list bool }.
Definition push_new (i : info) (t : nat) : option info :=
  b <- nth_error (visited i) t ;;
  if b then Some i else v <- set (visited i) t true ;; Some (Info (intersected i ++ [t]) v).
Fixpoint push_all (i : info) (l : list nat) : option info :=
  match l with [] => Some i | t :: r => i' <- push_new i t ;; push_all i' r end.

(** Where a function stops: it returns, it reaches its own unreachable! or
    panic!, or the steps given to the model run out.  All other panics are [None]. *)
Inductive outcome (A : Type) : Type := Done (x : A) | Lost | Out.
Arguments Done {A} _. Arguments Lost {A}. Arguments Out {A}.

(** lines 475-513 *)
Fixpoint leave_vertex (g : geom) (m : tetmesh) (va vb : nat) (prev : option nat) (inc : list nat)
    : option (outcome (nat * list nat)) :=
  match inc with
  | [] => Some Lost
  | tid :: r =>
    if (match prev with Some p => tid =? p | None => false end) then leave_vertex g m va vb prev r else
    x <- tet_at m (Some tid) ;;
    if (match index_of vb (data x) with Some _ => true | None => false end) then Some (Done (tid, [vb])) else
    let ov := filter (fun v => negb (v =? va)) (data x) in
    o0 <- nth_error ov 0 ;; o1 <- nth_error ov 1 ;; o2 <- nth_error ov 2 ;;
    b <- seg_tri g m va vb o0 o1 o2 ;;
    if b then Some (Done (tid, ov)) else
    e <- findp (fun e => segs g m va vb (fst e) (snd e)) (pairs ov) ;;
    match e with
    | Some (ua, ub) => Some (Done (tid, [ua; ub]))
    | None =>
      p <- findp (fun v => in_inner_seg g m v va vb) ov ;;
      match p with
      | Some v => Some (Done (tid, [v]))
      | None => leave_vertex g m va vb prev r
      end
    end
  end.
(** lines 458-515 *)
Definition vert_on_constraint_side (g : geom) (m : tetmesh) (va vb : nat) (prev : option nat) (i : info)
    : option (tetmesh * info * outcome (nat * list nat)) :=
  '(m', inc) <- incident m va ;;
  i' <- push_all i inc ;;
  r <- leave_vertex g m' va vb prev inc ;;
  Some (m', i', r).

Definition tet_eqb (f e : triface) : bool :=
  match tet f, tet e with Some a, Some b => a =? b | None, None => true | _, _ => false end.
(** lines 527-537 *)
Fixpoint ring (m : tetmesh) (edge spin : triface) (i : info) (fuel : nat) : option (info * triface) :=
  match fuel with
  | 0 => None
  | S k =>
    if tet_eqb spin edge then Some (i, spin) else
    h <- is_hull_tet m (tet spin) ;;
    t <- tet spin ;;
    i' <- (if h then Some i else push_new i t) ;;
    s' <- fnext m spin ;;
    ring m edge s' i' k
  end.
(** lines 545-592: the tests in one tetrahedron of the ring, in order *)
Definition leave_in (g : geom) (m : tetmesh) (ea eb va vb vc vd : nat) : option (option (list nat)) :=
  if (vc =? eb) || (vd =? eb) then Some (Some [eb]) else
  b1 <- andp (seg_tri g m ea eb vc vd va) (half_space g m vb ea vc vd va) ;;
  if b1 then Some (Some [vc; vd; va]) else
  b2 <- andp (seg_tri g m ea eb vc vd vb) (half_space g m va ea vc vd vb) ;;
  if b2 then Some (Some [vc; vd; vb]) else
  b3 <- andp (segs g m ea eb vc vd) (half_space g m ea va vc vd vb) ;;
  if b3 then Some (Some [vc; vd]) else
  b4 <- andp (in_inner_seg g m vc ea eb) (half_plane g m vc eb va vb) ;;
  if b4 then Some (Some [vc]) else
  b5 <- andp (in_inner_seg g m vd ea eb) (half_plane g m vd eb va vb) ;;
  if b5 then Some (Some [vd]) else
  e <- findp (fun e => andp (segs g m ea eb (fst e) (snd e)) (half_plane g m (snd e) eb va vb))
         [(va, vc); (va, vd); (vb, vc); (vb, vd)] ;;
  Some (option_map (fun e => [fst e; snd e]) e).
(** lines 542-597 *)
Fixpoint leave_edge (g : geom) (m : tetmesh) (edge spin : triface) (ea eb va vb : nat) (prev : option nat) (fuel : nat)
    : option (outcome (nat * list nat)) :=
  match fuel with
  | 0 => None
  | S k =>
    if tet_eqb spin edge then Some Lost else
    t <- tet spin ;;
    h <- is_hull_tet m (Some t) ;;
    r <- (if (match prev with Some p => t =? p | None => false end) || h then Some None else
          vc <- apex m spin ;; vd <- oppo m spin ;; leave_in g m ea eb va vb vc vd) ;;
    match r with
    | Some s => Some (Done (t, s))
    | None => s' <- fnext m spin ;; leave_edge g m edge s' ea eb va vb prev k
    end
  end.
(** lines 517-598 *)
Definition edge_cross_constraint_side (g : geom) (m : tetmesh) (edge : triface) (ea eb : nat) (prev : option nat) (i : info)
    : option (info * outcome (nat * list nat)) :=
  s1 <- fnext m edge ;;
  '(i', s2) <- ring m edge s1 i (S (12 * length (tets m))) ;;
  s3 <- fnext m s2 ;;
  va <- org m edge ;; vb <- dest m edge ;;
  r <- leave_edge g m edge s3 ea eb va vb prev (S (12 * length (tets m))) ;;
  Some (i', r).
(** lines 620-627 *)
Fixpoint pierced_faces (g : geom) (m : tetmesh) (ea eb w : nat) (tri : triface) (k : nat)
    : option (option (list nat) * triface) :=
  match k with
  | 0 => Some (None, tri)
  | S k' =>
    va <- org m tri ;; vb <- dest m tri ;;
    b <- seg_tri g m ea eb va vb w ;;
    if b then Some (Some [va; vb; w], tri) else tri' <- enext tri ;; pierced_faces g m ea eb w tri' k'
  end.
(** lines 600-637 *)
Definition triangle_pierced_by_constraint_side (g : geom) (m : tetmesh) (tri : triface) (ea eb : nat) (i : info)
    : option (info * (nat * list nat)) :=
  next <- nei_at m (tet tri) (Nat.land (ver tri) 3) ;;
  t <- tet next ;;
  i' <- push_new i t ;;
  w <- oppo m next ;;
  if w =? eb then Some (i', (t, [eb])) else
  '(r, tri') <- pierced_faces g m ea eb w tri 3 ;;
  match r with
  | Some s => Some (i', (t, s))
  | None =>
    v0 <- org m tri' ;; v1 <- dest m tri' ;; v2 <- apex m tri' ;;
    e <- findp (fun v => segs g m ea eb v w) [v0; v1; v2] ;;
    match e with
    | Some v => Some (i', (t, [v; w]))
    | None => Some (i', (t, [w]))
    end
  end.
(** lines 429-434 *)
Fixpoint turn_edge (m : tetmesh) (c1 : nat) (f : triface) (k : nat) : option triface :=
  match k with
  | 0 => Some f
  | S k' => d <- dest m f ;; if d =? c1 then Some f else f' <- eprev_esym f ;; turn_edge m c1 f' k'
  end.
(** lines 441-449 *)
Fixpoint turn_face (m : tetmesh) (c1 c2 : nat) (f : triface) (k : nat) : option triface :=
  match k with
  | 0 => Some f
  | S k' =>
    d <- dest m f ;; a <- apex m f ;;
    if ((d =? c1) && (a =? c2)) || ((d =? c2) && (a =? c1)) then Some f
    else f' <- eprev_esym f ;; turn_face m c1 c2 f' k'
  end.
(** lines 426-427, 439-440 *)
Definition at_vertex (m : tetmesh) (tid v : nat) : option triface :=
  x <- tet_at m (Some tid) ;; k <- index_of v (data x) ;; p <- nth_error VPIVOT k ;; Some (TF (Some tid) p).
(** lines 418-454: one turn of the loop *)
Definition side_step (g : geom) (m : tetmesh) (va vb : nat) (tid : nat) (s : list nat) (i : info)
    : option (tetmesh * info * outcome (nat * list nat)) :=
  match s with
  | [c0] => vert_on_constraint_side g m c0 vb (Some tid) i
  | [c0; c1] =>
    f <- at_vertex m tid c0 ;;
    e <- turn_edge m c1 f 2 ;;
    '(i', r) <- edge_cross_constraint_side g m e va vb (Some tid) i ;; Some (m, i', r)
  | [c0; c1; c2] =>
    f <- at_vertex m tid c0 ;;
    e <- turn_face m c1 c2 f 2 ;;
    '(i', r) <- triangle_pierced_by_constraint_side g m e va vb i ;; Some (m, i', Done r)
  | _ => None
  end.
(** lines 418-455 *)
Fixpoint side_loop (g : geom) (m : tetmesh) (va vb : nat) (tid : nat) (s : list nat) (i : info) (fuel : nat)
    : option (tetmesh * outcome info) :=
  c0 <- nth_error s 0 ;;
  if c0 =? vb then Some (m, Done i) else
  match fuel with
  | 0 => Some (m, Out)
  | S k =>
    '(m', i', r) <- side_step g m va vb tid s i ;;
    match r with
    | Done (tid', s') => side_loop g m' va vb tid' s' i' k
    | Lost => Some (m', Lost)
    | Out => Some (m', Out)
    end
  end.
(** lines 416-455: one side *)
Definition one_side (g : geom) (m : tetmesh) (va vb : nat) (i : info) (fuel : nat) : option (tetmesh * outcome info) :=
  '(m', i', r) <- vert_on_constraint_side g m va vb None i ;;
  match r with
  | Done (tid, s) => side_loop g m' va vb tid s i' fuel
  | Lost => Some (m', Lost)
  | Out => Some (m', Out)
  end.
(** lines 411-456 *)
Fixpoint sides_from (g : geom) (m : tetmesh) (l : list (nat * nat)) (i : info) (fuel : nat) : option (tetmesh * outcome info) :=
  match l with
  | [] => Some (m, Done i)
  | (va, vb) :: r =>
    '(m', o) <- one_side g m va vb i fuel ;;
    match o with
    | Done i' => sides_from g m' r i' fuel
    | Lost => Some (m', Lost)
    | Out => Some (m', Out)
    end
  end.
Definition constraint_sides_intersections (g : geom) (m : tetmesh) (c : tri3) (i : info) (fuel : nat) :=
  sides_from g m (pairs (corner_list c)) i fuel.

(** * How a tetrahedron met by a side is marked *)

(** tet_marks[k][t].push(cid) *)
Definition push_mark (mark : list (list (list nat))) (k t cid : nat) : option (list (list (list nat))) :=
  row <- nth_error mark k ;; l <- nth_error row t ;;
  row' <- set row t (l ++ [cid]) ;; set mark k row'.

Section Marks.
  Variables (g : geom) (m : tetmesh) (c : tri3).
  (** lines 718-745 *)
  Definition constraint_intersect_face (t : list nat) : option bool :=
    t0 <- nth_error t 0 ;; t1 <- nth_error t 1 ;; t2 <- nth_error t 2 ;;
    orp (andp (in_tri g m t0 c) (andp (in_tri g m t1 c) (in_tri g m t2 c)))
      (anyp (fun e => anyp (fun s => segs g m (fst e) (snd e) (fst s) (snd s)) (pairs (corner_list c)))
        [(t0, t1); (t1, t2); (t2, t0)]).
  (** lines 762-767: on which sides a vertex lies; bit k stands for the side
      opposite to corner k *)
  Definition on_sides (v : nat) : option (bool * bool * bool) :=
    let '(c0, c1, c2) := c in
    b0 <- in_seg g m v c1 c2 ;; b1 <- in_seg g m v c2 c0 ;; b2 <- in_seg g m v c0 c1 ;; Some (b0, b1, b2).
  Definition any3 (b : bool * bool * bool) : bool := let '(b0, b1, b2) := b in b0 || b1 || b2.
  (** lines 747-828 *)
  Definition constraint_intersect_edge (v w n p : nat) : option bool :=
    let '(c0, c1, c2) := c in
    vi <- in_inner_tri g m v c ;; wi <- in_inner_tri g m w c ;;
    if vi && wi then Some true else
    vs <- on_sides v ;; ws <- on_sides w ;;
    let vin := vi || any3 vs in let win := wi || any3 ws in
    if vin && win then
      let '(v0, v1, v2) := vs in let '(w0, w1, w2) := ws in
      let same := (v0 && w0, v1 && w1, v2 && w2) in
      if negb (any3 same) then Some true else
      b <- seg_ctri g m n p c ;;
      if b then Some true else
      let '(top, ea, eb) := if v0 && w0 then (c0, c1, c2) else if v1 && w1 then (c1, c2, c0) else (c2, c0, c1) in
      anyp (fun ev => anyp (fun tv => seg_tri g m ev top n p tv) [v; w]) [ea; eb]
    else if vin || win then
      orp (anyp (fun s => segs g m v w (fst s) (snd s)) (pairs (corner_list c)))
      (orp (seg_ctri g m n p c)
        (anyp (fun s => anyp (fun tv => seg_tri g m (fst s) (snd s) n p tv) [v; w]) (pairs (corner_list c))))
    else Some true.
  (** lines 830-875 *)
  Definition constraint_intersect_vertex (tv over u0 u1 : nat) : option bool :=
    i <- in_inner_tri g m tv c ;;
    if i then Some true else
    s <- anyp (fun s => in_seg g m tv (fst s) (snd s)) (pairs (corner_list c)) ;;
    if negb s then Some true else
    orp (andp (seg_ctri g m over u0 c) (seg_ctri g m over u1 c))
      (anyp (fun s => orp (seg_tri g m (fst s) (snd s) tv over u0)
                     (orp (seg_tri g m (fst s) (snd s) tv over u1) (seg_tri g m (fst s) (snd s) over u0 u1)))
        (pairs (corner_list c))).
  (** lines 877-923 *)
  Definition constraint_intersect_empty (dat neg pos : list nat) : option bool :=
    let '(c0, c1, c2) := c in
    bad <- anyp (fun nv => anyp (fun pv => b <- anyp (fun s => segs_plain g m nv pv (fst s) (snd s)) (pairs (corner_list c)) ;; Some (negb b)) pos) neg ;;
    if negb bad then Some true else
    orp (anyp (fun nv => anyp (fun pv => seg_tri g m nv pv c0 c1 c2) pos) neg)
      (match dat with
       | [d0; d1; d2; d3] =>
         anyp (fun s => anyp (fun f => let '(x, y, z) := f in seg_tri g m (fst s) (snd s) x y z)
           [(d0, d1, d2); (d1, d2, d3); (d2, d3, d0); (d3, d0, d1)]) (pairs (corner_list c))
       | _ => None
       end).
  (** lines 647-659: the sign of a vertex; the table has one entry for each
      tetrahedron; that a sign is computed once is left out *)
  Definition vert_ori (v : nat) : option Z :=
    let '(c0, c1, c2) := c in if v <? length (tets m) then ori g m c0 c1 c2 v else None.
  (** lines 663-713: the row for the mark of tetrahedron [t], if any *)
  Definition improper (t : nat) : option (option nat) :=
    x <- tet_at m (Some t) ;;
    os <- omap (fun v => o <- vert_ori v ;; Some (v, o)) (data x) ;;
    let sel f := map fst (filter (fun vo => f (snd vo)) os) in
    let zero := sel (fun o => Z.eqb o 0) in
    let pos := sel (fun o => Z.ltb 0 o) in
    let neg := sel (fun o => Z.ltb o 0) in
    match zero with
    | [z0; z1; z2] =>
      v <- (match pos with [] => nth_error neg 0 | p :: _ => Some p end) ;;
      k <- index_of v (data x) ;;
      b <- constraint_intersect_face zero ;; Some (if b then Some k else None)
    | [z0; z1] =>
      match neg with
      | [n] => p <- nth_error pos 0 ;; b <- constraint_intersect_edge z0 z1 n p ;; Some (if b then Some 4 else None)
      | _ => Some None
      end
    | [z0] =>
      match neg, pos with
      | [], _ | _, [] => Some None
      | n0 :: _, p0 :: _ =>
        let '(under, over) := if length pos <? length neg then (neg, p0) else (pos, n0) in
        (* under_vs[1] is read only after the first two tests *)
        u0 <- nth_error under 0 ;; u1 <- nth_error under 1 ;;
        b <- constraint_intersect_vertex z0 over u0 u1 ;; Some (if b then Some 4 else None)
      end
    | _ => b <- constraint_intersect_empty (data x) neg pos ;; Some (if b then Some 4 else None)
    end.
  (** lines 639-716 *)
  Fixpoint set_improper (cid : nat) (mark : list (list (list nat))) (l : list nat) : option (list (list (list nat))) :=
    match l with
    | [] => Some mark
    | t :: r =>
      k <- improper t ;;
      mark' <- (match k with Some k => push_mark mark k t cid | None => Some mark end) ;;
      set_improper cid mark' r
    end.

  (** lines 950-1007; partition_in_place keeps the two classes, and only the
      classes matter below *)
  Definition tet_type (t : nat) : option nat :=
    h <- is_hull_tet m (Some t) ;;
    if h then Some 5 else
    x <- tet_at m (Some t) ;;
    let '(c0, c1, c2) := c in
    os <- omap (fun i => v <- nth_error (data x) i ;; o <- ori g m v c0 c1 c2 ;;
                 b <- (if Z.eqb o 0 then in_inner_tri g m v c else Some false) ;; Some (i, o, b)) (seq 0 4) ;;
    let inside := filter (fun e => snd e) os in
    let out := filter (fun e => negb (snd e)) os in
    let o e := snd (fst e) in
    match inside, out with
    | [_; _; _], e :: _ => Some (fst (fst e))
    | [_; _], [e1; e2] => Some (if Z.eqb (o e1) (o e2) then 5 else 4)
    | [_], [e1; e2; e3] => Some (if Z.eqb (o e1) (o e2) && Z.eqb (o e1) (o e3) then 5 else 4)
    | _, _ =>
      b <- anyp (fun ij => oi <- nth_error os (fst ij) ;; oj <- nth_error os (snd ij) ;;
                   if Z.eqb (o oi) (o oj) then Some false else
                   vi <- nth_error (data x) (fst ij) ;; vj <- nth_error (data x) (snd ij) ;;
                   seg_tri g m vi vj c0 c1 c2)
             [(0, 1); (0, 2); (0, 3); (1, 2); (1, 3); (2, 3)] ;;
      Some (if b then 4 else 5)
    end.
  (** lines 936-944: the neighbours of one tetrahedron *)
  Fixpoint flood_nei (cid : nat) (mark : list (list (list nat))) (i : info) (l : list triface)
      : option (list (list (list nat)) * info) :=
    match l with
    | [] => Some (mark, i)
    | f :: r =>
      u <- tet f ;;
      b <- nth_error (visited i) u ;;
      if b then flood_nei cid mark i r else
      v <- set (visited i) u true ;;
      k <- tet_type u ;;
      if k <? 5 then
        mark' <- push_mark mark k u cid ;;
        flood_nei cid mark' (Info (intersected i ++ [u]) v) r
      else flood_nei cid mark (Info (intersected i) v) r
    end.
  (** lines 925-948 *)
  Fixpoint flood (cid : nat) (mark : list (list (list nat))) (i : info) (idx fuel : nat)
      : option (list (list (list nat)) * info) :=
    match fuel with
    | 0 => None
    | S k =>
      match nth_error (intersected i) idx with
      | None => Some (mark, i)
      | Some t =>
        x <- tet_at m (Some t) ;;
        '(mark', i') <- flood_nei cid mark i (nei x) ;;
        flood cid mark' i' (S idx) k
      end
    end.
End Marks.
Definition interior_intersections (g : geom) (m : tetmesh) (c : tri3) (cid : nat) (mark : list (list (list nat))) (i : info) :=
  flood g m c cid mark i 0 (S (length (tets m))).

(** * All constraints: lines 141-158 *)
Definition no_info (m : tetmesh) : info := Info [] (repeat false (length (tets m))).
Definition insert_one (g : geom) (m : tetmesh) (cid : nat) (c : tri3) (mark : list (list (list nat))) (fuel : nat)
    : option (tetmesh * outcome (list (list (list nat)))) :=
  let '(c0, c1, c2) := c in
  '(m1, f) <- triangle_at_tet m c0 c1 c2 ;;
  match tet f with
  | Some t =>
    mark1 <- push_mark mark (Nat.land (ver f) 3) t cid ;;
    n <- nei_at m1 (Some t) (Nat.land (ver f) 3) ;;
    u <- tet n ;;
    mark2 <- push_mark mark1 (Nat.land (ver n) 3) u cid ;;
    Some (m1, Done mark2)
  | None =>
    '(m2, o) <- constraint_sides_intersections g m1 c (no_info m1) fuel ;;
    match o with
    | Done i =>
      mark1 <- set_improper g m2 c cid mark (intersected i) ;;
      '(mark2, _) <- interior_intersections g m2 c cid mark1 i ;;
      Some (m2, Done mark2)
    | Lost => Some (m2, Lost)
    | Out => Some (m2, Out)
    end
  end.
Fixpoint insert_from (g : geom) (m : tetmesh) (cid : nat) (l : list tri3) (mark : list (list (list nat))) (fuel : nat)
    : option (tetmesh * outcome (list (list (list nat)))) :=
  match l with
  | [] => Some (m, Done mark)
  | c :: r =>
    '(m', o) <- insert_one g m cid c mark fuel ;;
    match o with
    | Done mark' => insert_from g m' (S cid) r mark' fuel
    | Lost => Some (m', Lost)
    | Out => Some (m', Out)
    end
  end.
(** lines 132-160 *)
Definition insert_constraints (g : geom) (m : tetmesh) (l : list tri3) (fuel : nat)
    : option (tetmesh * outcome (list (list (list nat)))) :=
  insert_from g m 0 l (repeat (repeat [] (length (tets m))) 5) fuel.
