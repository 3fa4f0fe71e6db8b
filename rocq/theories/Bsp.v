(** Model of the polyhedral complex and of the splitting of its cells:
    src/polygonlization/bsp_complex.rs (BSPComplex::new, split_cell,
    split_face_verts, make_loop, cell_verts_and_edges,
    separate_out_coplanar_triangles, the kept faces of complex_partition) and the
    loop of src/polygonlization/mod.rs make_mesh_for_proper_triangles.
    Definitions only.

    Simplifications.  The half-edge mesh is given by the vertex cycle of each
    face (C12 and C15-C17 say what new, split_edge, split_face and
    add_face_by_halfedges do to these cycles); a halfedge is the pair of its
    vertices and an edge the unordered pair (C13).  INVALID_IND is [None].  The geometric
    tests are functions of the state ([oracle]), so the caches of orientations,
    the coordinates and the parents of vertices and edges are left out. *)
From Coq Require Import List Arith Bool.
From Verif Require Import Lib Dispatch Tet.
Import ListNotations.
Local Open Scope opt_scope.

(** == on Orientation (predicates/mod.rs:21) *)
Definition ori_eqb (a b : Orientation) : bool :=
  match a, b with
  | Positive, Positive | Negative, Negative | Zero, Zero | Undefined, Undefined => true
  | _, _ => false
  end.

(** bsp_complex.rs:66-99.  [cells] is None for INVALID_IND. *)
Record bface : Type := BFace { cells : option nat * option nat; ftris : list nat; plane : list nat; fid0 : nat }.
Record bcell : Type := BCell { cfaces : list nat; inner : list nat }.
(** bsp_complex.rs:101-118: the mesh as number of vertices and vertex cycles. *)
Record bsp : Type := Bsp { nverts : nat; loops : list (list nat); fdata : list bface; cdata : list bcell }.

(** * Construction *)

(** bsp_complex.rs:120-123 *)
Definition tet_face_is_new (tid adj_tid : nat) (adj_cid : option nat) : bool :=
  (tid <? adj_tid) || match adj_cid with None => true | Some _ => false end.

(** remove_ghost_tets, bsp_complex.rs:1406-1417 *)
Fixpoint number_tets (m : tetmesh) (ts : list nat) (idx : nat) : option (list (option nat)) :=
  match ts with
  | [] => Some []
  | t :: r =>
    h <- is_hull_tet m (Some t) ;;
    if h then l <- number_tets m r idx ;; Some (None :: l)
    else l <- number_tets m r (S idx) ;; Some (Some idx :: l)
  end.
Definition remove_ghost_tets (m : tetmesh) : option (list (option nat)) := number_tets m (seq 0 (length (tets m))) 0.

(** bsp_complex.rs:1419-1427.  binary_search in a strictly increasing vector
    returns Ok at the element or Err at the only place for it. *)
Fixpoint insert_sorted (x : nat) (l : list nat) : list nat :=
  match l with
  | [] => [x]
  | y :: t => if x <? y then x :: l else if x =? y then l else y :: insert_sorted x t
  end.
Definition insert_coplanar_triangles (src dest : list nat) (n : nat) : list nat :=
  fold_left (fun d x => if x <? n then insert_sorted x d else d) src dest.

(** tet_mark[i][tid] *)
Definition mark_at (mark : list (list (list nat))) (i tid : nat) : option (list nat) :=
  r <- nth_error mark i ;; nth_error r tid.
Definition set_tris (f : bface) (l : list nat) : bface := BFace (cells f) l (plane f) (fid0 f).

(** bsp_complex.rs:151-183: the loop over the four neighbours. State:
    face_positions, faces, face_data, cell_faces. *)
Definition nstate : Type := (list (option nat) * list (list nat) * list bface)%type.
Fixpoint new_neis (m : tetmesh) (orders : list (option nat)) (mark : list (list (list nat))) (n : nat) (tid cell_idx : nat)
    (ns : list triface) (i : nat) (st : nstate) (cf : list nat) : option (nstate * list nat) :=
  match ns with
  | [] => Some (st, cf)
  | g :: r =>
    u <- tet g ;;
    adj <- nth_error orders u ;;
    let '(pos, faces, fd) := st in
    if tet_face_is_new tid u adj then
      a <- org m g ;; b <- apex m g ;; c <- dest m g ;;
      src <- mark_at mark i tid ;;
      let fid := length fd in
      let face := BFace (Some cell_idx, adj) (insert_coplanar_triangles src [] n) [a; b; c] fid in
      pos' <- set pos (4 * tid + i) (Some fid) ;;
      new_neis m orders mark n tid cell_idx r (S i) (pos', faces ++ [[a; b; c]], fd ++ [face]) (cf ++ [fid])
    else
      let j := Nat.land (ver g) 3 in
      p <- nth_error pos (4 * u + j) ;; fid <- p ;;
      face <- nth_error fd fid ;;
      src <- mark_at mark j u ;;
      fd' <- set fd fid (set_tris face (insert_coplanar_triangles src (ftris face) n)) ;;
      new_neis m orders mark n tid cell_idx r (S i) (pos, faces, fd') (cf ++ [fid])
  end.
(** bsp_complex.rs:144-185: the loop over the tetrahedra. *)
Fixpoint new_cells (m : tetmesh) (orders : list (option nat)) (mark : list (list (list nat))) (n : nat) (ts : list nat)
    (st : nstate) (cd : list bcell) : option (nstate * list bcell) :=
  match ts with
  | [] => Some (st, cd)
  | tid :: r =>
    o <- nth_error orders tid ;;
    match o with
    | None => new_cells m orders mark n r st cd
    | Some cell_idx =>
      x <- nth_error (tets m) tid ;;
      '(st', cf) <- new_neis m orders mark n tid cell_idx (nei x) 0 st [] ;;
      inn <- mark_at mark 4 tid ;;
      new_cells m orders mark n r st' (cd ++ [BCell cf inn])
    end
  end.
(** BSPComplex::new, bsp_complex.rs:126-187; [n] is n_ori_triangles.  (Not
    modelled: the point data and projection axes of 189-238.) *)
Definition bsp_new (m : tetmesh) (n : nat) (mark : list (list (list nat))) : option bsp :=
  orders <- remove_ghost_tets m ;;
  '(st, cd) <- new_cells m orders mark n (seq 0 (length (tets m))) (repeat None (4 * length (tets m)), [], []) [] ;;
  let '(_, faces, fd) := st in
  Some (Bsp (n_points m) faces fd cd).

(** * Cutting a face *)

(** The halfedges of a face, from its first one. *)
Fixpoint path_edges (x : nat) (t : list nat) (y : nat) : list (nat * nat) :=
  match t with [] => [(x, y)] | b :: r => (x, b) :: path_edges b r y end.
Definition hes (l : list nat) : list (nat * nat) :=
  match l with [] => [] | x :: t => path_edges x t x end.
Definition swap (e : nat * nat) : nat * nat := (snd e, fst e).
Definition he_eqb (e e' : nat * nat) : bool := (fst e =? fst e') && (snd e =? snd e').
Definition edge_eqb (e e' : nat * nat) : bool := he_eqb e e' || he_eqb e (swap e').
(** he_twin (surface_mesh.rs:521-535, C18): a halfedge of the edge in the other
    direction if there is one, otherwise the halfedge itself. *)
Definition he_twin (ls : list (list nat)) (e : nat * nat) : nat * nat :=
  if existsb (fun l => existsb (he_eqb (swap e)) (hes l)) ls then swap e else e.

(** bsp_complex.rs:1565-1588, 1598-1602 *)
Inductive zero_vert : Type := Intersection (h : nat * nat) | Start (h : nat * nat).
Inductive split_result : Type := TwoVerts (a b : zero_vert) | ZeroHalfedges (l : list (nat * nat)) | IsPos (b : bool).
Definition is_intersection (z : zero_vert) : bool := match z with Intersection _ => true | Start _ => false end.
Definition halfedge (z : zero_vert) : nat * nat := match z with Intersection h => h | Start h => h end.

(** bsp_complex.rs:1638-1674: the loop over the halfedges; the early return is
    [inl]. *)
Fixpoint scan (ori : nat -> Orientation) (correct : bool) (hs : list (nat * nat)) (ori_start base : Orientation)
    (zc : list zero_vert) : split_result + (Orientation * list zero_vert) :=
  match hs with
  | [] => inr (base, zc)
  | h :: r =>
    let ori_end := ori (snd h) in
    if ori_eqb ori_start Zero then
      let base' := if ori_eqb base Undefined && negb (ori_eqb ori_end Zero) then ori_end else base in
      scan ori correct r ori_end base' (zc ++ [Start h])
    else if negb (ori_eqb ori_end Zero) && negb (ori_eqb ori_end ori_start) then
      match zc with
      | [z] =>
        if xorb (ori_eqb ori_end Positive) correct then inl (TwoVerts z (Intersection h))
        else inl (TwoVerts (Intersection h) z)
      | _ => scan ori correct r ori_end base (zc ++ [Intersection h])
      end
    else scan ori correct r ori_end base zc
  end.
(** bsp_complex.rs:1676-1685 *)
Definition sort_two_verts (ori : nat -> Orientation) (correct : bool) (a b : zero_vert) : split_result :=
  if Bool.eqb (ori_eqb (ori (snd (halfedge b))) Positive) correct then TwoVerts b a else TwoVerts a b.
(** bsp_complex.rs:1687-1697 *)
Definition sort_zero_halfedges (ls : list (list nat)) (correct : bool) (base : Orientation) (hs : list (nat * nat)) : split_result :=
  if negb (ori_eqb base Positive) then IsPos false
  else if Bool.eqb (ori_eqb base Positive) correct then ZeroHalfedges (map (he_twin ls) (rev hs))
  else ZeroHalfedges hs.
(** bsp_complex.rs:1719-1726: the candidates before and after the first break. *)
Fixpoint find_break (zc : list zero_vert) : option (list zero_vert * list zero_vert) :=
  match zc with
  | a :: ((b :: _) as t) =>
    if snd (halfedge a) =? fst (halfedge b) then
      match find_break t with Some (p, q) => Some (a :: p, q) | None => None end
    else Some ([a], t)
  | _ => None
  end.
(** split_face_verts, bsp_complex.rs:1632-1736; [ls] are the vertex cycles of all
    faces (for he_twin), [l] is that of the face. *)
Definition split_face_verts (ori : nat -> Orientation) (ls : list (list nat)) (l : list nat) (correct : bool) : option split_result :=
  x <- hd_error l ;;
  match scan ori correct (hes l) (ori x) (if ori_eqb (ori x) Zero then Undefined else ori x) [] with
  | inl r => Some r
  | inr (base, zc) =>
    match zc with
    | [] | [_] => Some (IsPos (ori_eqb base Positive))
    | [a; b] =>
      if is_intersection a || is_intersection b then Some (sort_two_verts ori correct a b)
      else
        let ha := halfedge a in let hb := halfedge b in
        if snd ha =? fst hb then Some (sort_zero_halfedges ls correct base [ha])
        else if snd hb =? fst ha then Some (sort_zero_halfedges ls correct base [hb])
        else Some (sort_two_verts ori correct a b)
    | _ =>
      let zc' := match find_break zc with Some (p, q) => q ++ p | None => zc end in
      Some (sort_zero_halfedges ls correct base (map halfedge (removelast zc')))
    end
  end.

(** * make_loop *)

(** GeneralVertexId, bsp_complex.rs:1560-1563 *)
Inductive gid : Type := GV (v : nat) | GI (i : nat).
Definition gid_eqb (a b : gid) : bool :=
  match a, b with GV x, GV y => x =? y | GI x, GI y => x =? y | _, _ => false end.
(** ef_clip_pt_map[eid]: the position of the edge among the intersected ones. *)
Fixpoint edge_index (e : nat * nat) (l : list (nat * nat)) : option nat :=
  match l with [] => None | x :: t => if edge_eqb x e then Some 0 else option_map S (edge_index e t) end.
(** ZeroVert::id, SplitFaceResult::start and end, bsp_complex.rs:1589-1630 *)
Definition zero_id (cross : list (nat * nat)) (z : zero_vert) : option gid :=
  match z with Intersection h => option_map GI (edge_index h cross) | Start h => Some (GV (fst h)) end.
Definition split_start (cross : list (nat * nat)) (s : split_result) : option gid :=
  match s with
  | TwoVerts a _ => zero_id cross a
  | ZeroHalfedges l => h <- hd_error l ;; Some (GV (fst h))
  | IsPos _ => None
  end.
Definition last_error {A} (l : list A) : option A := hd_error (rev l).
Definition split_end (cross : list (nat * nat)) (s : split_result) : option gid :=
  match s with
  | TwoVerts _ b => zero_id cross b
  | ZeroHalfedges l => h <- last_error l ;; Some (GV (snd h))
  | IsPos _ => None
  end.
(** The map from starts to positions: a later entry replaces an earlier one. *)
Fixpoint find_start (k : gid) (starts : list gid) (i : nat) : option nat :=
  match starts with
  | [] => None
  | s :: t => match find_start k t (S i) with
              | Some j => Some j
              | None => if gid_eqb s k then Some i else None
              end
  end.
(** bsp_complex.rs:1761-1770; out of [fuel] is [None]. *)
Fixpoint loop_from (starts ends : list gid) (curr : nat) (fuel : nat) : option (list nat) :=
  match fuel with
  | 0 => None
  | S k =>
    e <- nth_error ends curr ;;
    next <- find_start e starts 0 ;;
    if next =? 0 then Some []
    else r <- loop_from starts ends next k ;; Some (next :: r)
  end.
(** make_loop, bsp_complex.rs:1738-1772 (each result is paired with its face). *)
Definition make_loop (cross : list (nat * nat)) (rs : list (nat * split_result)) : option (list (nat * split_result)) :=
  starts <- omap (fun r => split_start cross (snd r)) rs ;;
  ends <- omap (fun r => split_end cross (snd r)) rs ;;
  is <- loop_from starts ends 0 (S (length rs)) ;;
  omap (nth_error rs) (0 :: is).

(** * split_cell *)

(** The geometric tests. *)
Record oracle : Type := Oracle {
  (** is the triangle in the plane of the pivot triangle (1211-1231) *)
  o_coplanar : bsp -> nat -> nat -> bool;
  (** the side of a vertex of the plane of a triangle (verts_orient_wrt_plane) *)
  o_side : bsp -> nat -> nat -> Orientation;
  (** does the triangle meet the polygon (is_triangle_intersects_poly) *)
  o_poly : bsp -> nat -> list gid -> bool;
  (** has a triangle corners on the positive and on the negative side of the
      plane of another triangle (463-487; the corners are input points, so this
      does not depend on the complex) *)
  o_tri : nat -> nat -> bool * bool;
  (** does the triangle meet the cell (is_triangle_intersects_cell) *)
  o_cell : bsp -> nat -> nat -> bool }.

(** cell_verts_and_edges, bsp_complex.rs:1237-1267: each vertex and each edge
    of the faces once, in order of appearance. *)
Fixpoint add_verts (vs : list nat) (l : list nat) : list nat :=
  match l with [] => vs | v :: t => add_verts (if existsb (Nat.eqb v) vs then vs else vs ++ [v]) t end.
Fixpoint add_edges (es : list (nat * nat)) (l : list (nat * nat)) : list (nat * nat) :=
  match l with [] => es | e :: t => add_edges (if existsb (edge_eqb e) es then es else es ++ [e]) t end.
Definition cell_verts (ls : list (list nat)) : list nat := add_verts [] (concat ls).
Definition cell_edges (ls : list (list nat)) : list (nat * nat) := add_edges [] (concat (map hes ls)).
Definition reversed (a b : Orientation) : bool :=
  (ori_eqb a Positive && ori_eqb b Negative) || (ori_eqb a Negative && ori_eqb b Positive).

(** split_edge on the vertex cycles (C15): [w] between the ends of edge [e]. *)
Definition insert_vertex_in (e : nat * nat) (w : nat) (l : list nat) : list nat :=
  concat (map (fun h => if edge_eqb h e then [fst h; w] else [fst h]) (hes l)).
Fixpoint split_edges (ls : list (list nat)) (w : nat) (cross : list (nat * nat)) : list (list nat) :=
  match cross with
  | [] => ls
  | e :: t => split_edges (map (insert_vertex_in e w) ls) (S w) t
  end.

(** split_face on a vertex cycle (C16): the cycle P, a, Q, b, R becomes b, a, Q,
    and the new face is a, b, R, P. *)
Fixpoint find_two (va vb : nat) (l : list nat) : option (list nat * nat * list nat) :=
  match l with
  | [] => None
  | x :: t => if (x =? va) || (x =? vb) then Some ([], x, t)
              else '(p, y, r) <- find_two va vb t ;; Some (x :: p, y, r)
  end.
Definition split_loop (l : list nat) (va vb : nat) : option (list nat * list nat) :=
  '(P, a, t) <- find_two va vb l ;;
  '(Q, b, R) <- find_two va vb t ;;
  let (a, b) := if a =? va then (va, vb) else (vb, va) in
  Some (b :: a :: Q, a :: b :: R ++ P).

Definition cell_is (c : option nat) (cid : nat) : bool := match c with Some x => x =? cid | None => false end.
(** bsp_complex.rs:438-442: the new face joins the other cell of the old one. *)
Definition add_to_cell (cd : list bcell) (c : option nat) (cid fid : nat) : option (list bcell) :=
  match c with
  | None => Some cd
  | Some x => if x =? cid then Some cd
              else d <- nth_error cd x ;; set cd x (BCell (cfaces d ++ [fid]) (inner d))
  end.
(** State of the loop over the outlines: the complex, pos_faces, neg_faces,
    zero_ori_halfedges. *)
Definition sstate : Type := (bsp * list nat * list nat * list (nat * nat))%type.
(** bsp_complex.rs:405-501: one outline.  [nv] is the number of vertices before
    the edges were split, [ori] the orientations with 0 for the new vertices. *)
Definition resolve (nv : nat) (g : gid) : nat := match g with GV v => v | GI i => nv + i end.
Definition split_one (o : oracle) (tid cid nv : nat) (ori : nat -> Orientation) (cross : list (nat * nat)) (st : sstate)
    (r : nat * split_result) : option sstate :=
  let '(cx, pos, neg, zh) := st in
  match snd r with
  | IsPos _ => Some st
  | ZeroHalfedges l => Some (cx, pos, neg, zh ++ l)
  | TwoVerts za zb =>
    let fid := fst r in
    ga <- zero_id cross za ;; gb <- zero_id cross zb ;;
    let va := resolve nv ga in let vb := resolve nv gb in
    l <- nth_error (loops cx) fid ;;
    '(l1, l2) <- split_loop l va vb ;;
    let new_fid := length (loops cx) in
    let new_is_pos := ori_eqb (ori (nth (2 mod length l2) l2 0)) Positive in
    f <- nth_error (fdata cx) fid ;;
    cd1 <- add_to_cell (cdata cx) (fst (cells f)) cid new_fid ;;
    cd2 <- add_to_cell cd1 (snd (cells f)) cid new_fid ;;
    let sides := o_tri o tid in
    let keep t := if new_is_pos then snd (sides t) else fst (sides t) in
    let give t := if new_is_pos then fst (sides t) else snd (sides t) in
    ls <- set (loops cx) fid l1 ;;
    fd <- set (fdata cx) fid (set_tris f (filter keep (ftris f))) ;;
    let fd' := fd ++ [set_tris f (filter give (ftris f))] in
    let cx' := Bsp (nverts cx) (ls ++ [l2]) fd' cd2 in
    Some (cx', if new_is_pos then pos ++ [new_fid] else pos ++ [fid],
          if new_is_pos then neg ++ [fid] else neg ++ [new_fid], zh ++ [(va, vb)])
  end.
Fixpoint split_all (o : oracle) (tid cid nv : nat) (ori : nat -> Orientation) (cross : list (nat * nat)) (st : sstate)
    (rs : list (nat * split_result)) : option sstate :=
  match rs with [] => Some st | r :: t => st' <- split_one o tid cid nv ori cross st r ;; split_all o tid cid nv ori cross st' t end.

(** bsp_complex.rs:526-532 *)
Definition move_cell (cid new_cid : nat) (c : option nat) : option nat := if cell_is c cid then Some new_cid else c.
Fixpoint move_faces (fd : list bface) (cid new_cid : nat) (fs : list nat) : option (list bface) :=
  match fs with
  | [] => Some fd
  | f :: t =>
    x <- nth_error fd f ;;
    fd' <- set fd f (BFace (move_cell cid new_cid (fst (cells x)), move_cell cid new_cid (snd (cells x))) (ftris x) (plane x) (fid0 x)) ;;
    move_faces fd' cid new_cid t
  end.
Definition set_inner (cd : list bcell) (c : nat) (l : list nat) : option (list bcell) :=
  d <- nth_error cd c ;; set cd c (BCell (cfaces d) l).

(** bsp_complex.rs:503-575: the separating face and the new cell. *)
Definition add_separating (o : oracle) (cid : nat) (tris tri : list nat) (st : sstate) : option bsp :=
  let '(cx, pos, neg, zh) := st in
  match zh with
  | [] => None
  | _ =>
    let new_fid := length (loops cx) in
    let new_cid := length (cdata cx) in
    let fd := fdata cx ++ [BFace (Some new_cid, Some cid) tris tri new_fid] in
    fd' <- move_faces fd cid new_cid pos ;;
    d <- nth_error (cdata cx) cid ;;
    cd <- set (cdata cx) cid (BCell (neg ++ [new_fid]) (inner d)) ;;
    let cd' := cd ++ [BCell (pos ++ [new_fid]) []] in
    let cx' := Bsp (nverts cx) (loops cx ++ [map fst zh]) fd' cd' in
    cd1 <- set_inner cd' new_cid (filter (o_cell o cx' new_cid) (inner d)) ;;
    cd2 <- set_inner cd1 cid (filter (o_cell o cx' cid) (inner d)) ;;
    Some (Bsp (nverts cx) (loops cx ++ [map fst zh]) fd' cd2)
  end.

(** The faces of a cell with their results (bsp_complex.rs:319-350). *)
Definition split_faces (ori : nat -> Orientation) (cx : bsp) (cid : nat) (fs : list nat) : option (list (nat * split_result)) :=
  omap (fun f => x <- nth_error (fdata cx) f ;; l <- nth_error (loops cx) f ;;
                 r <- split_face_verts ori (loops cx) l (cell_is (fst (cells x)) cid) ;; Some (f, r)) fs.
Definition is_pos (r : nat * split_result) : bool := match snd r with IsPos b => b | ZeroHalfedges _ => true | TwoVerts _ _ => false end.
Definition is_neg (r : nat * split_result) : bool := match snd r with IsPos b => negb b | _ => false end.
Definition is_outline (r : nat * split_result) : bool := match snd r with IsPos _ => false | _ => true end.

(** split_cell, bsp_complex.rs:252-576.  [n] is n_ori_triangles, [tri t] the
    vertices of triangle [t]. *)
Definition split_cell (o : oracle) (n : nat) (tri : nat -> list nat) (cx0 : bsp) (cid : nat) : option bsp :=
  c <- nth_error (cdata cx0) cid ;;
  pivot <- last_error (inner c) ;;
  let cop := filter (o_coplanar o cx0 pivot) (inner c) in
  cd <- set (cdata cx0) cid (BCell (cfaces c) (filter (fun t => negb (o_coplanar o cx0 pivot t)) (inner c))) ;;
  let cx := Bsp (nverts cx0) (loops cx0) (fdata cx0) cd in
  tid <- last_error cop ;;
  ls <- omap (nth_error (loops cx)) (cfaces c) ;;
  let vs := cell_verts ls in
  let ori := o_side o cx tid in
  if negb (existsb (fun v => ori_eqb (ori v) Positive) vs) || negb (existsb (fun v => ori_eqb (ori v) Negative) vs) then None else
  let cross := filter (fun e => reversed (ori (fst e)) (ori (snd e))) (cell_edges ls) in
  rs <- split_faces ori cx cid (cfaces c) ;;
  outlines <- make_loop cross (filter is_outline rs) ;;
  poly <- omap (fun r => split_start cross (snd r)) outlines ;;
  let cop := filter (fun t => o_poly o cx t poly) cop in
  match cop with
  | [] => Some cx
  | _ =>
    let cop := filter (fun t => t <? n) cop in
    let nv := nverts cx in
    let cx := Bsp (nv + length cross) (split_edges (loops cx) nv cross) (fdata cx) (cdata cx) in
    let ori' v := if nv <=? v then Zero else ori v in
    st <- split_all o tid cid nv ori' cross (cx, map fst (filter is_pos rs), map fst (filter is_neg rs), []) outlines ;;
    add_separating o cid cop (tri tid) st
  end.

(** * The whole run: mod.rs:66-79 *)
Definition splittable (cx : bsp) (cid : nat) : option bool :=
  c <- nth_error (cdata cx) cid ;; Some (negb (length (inner c) =? 0)).
Fixpoint split_run (o : oracle) (n : nat) (tri : nat -> list nat) (cx : bsp) (cid : nat) (fuel : nat) : option bsp :=
  match fuel with
  | 0 => None
  | S k =>
    if cid <? length (cdata cx) then
      b <- splittable cx cid ;;
      if b then cx' <- split_cell o n tri cx cid ;; split_run o n tri cx' cid k
      else split_run o n tri cx (S cid) k
    else Some cx
  end.

(** * The kept faces: bsp_complex.rs:740-755.  [kept] is cell_kept, the outer
    cell (and INVALID_IND) is not kept. *)
Definition kept_cell (kept : nat -> bool) (c : option nat) : bool := match c with Some x => kept x | None => false end.
Definition kept_face (kept : nat -> bool) (f : bface) : option bool :=
  let k1 := kept_cell kept (fst (cells f)) in let k2 := kept_cell kept (snd (cells f)) in
  if xorb k1 k2 then (if k1 then Some false else Some true) else None.
