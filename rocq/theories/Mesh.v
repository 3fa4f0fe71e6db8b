(** Model of the half-edge surface mesh: src/mesh/surface_mesh.rs,
    src/mesh/mesh.rs, src/mesh/mesh_core_data.rs and the iterators of
    src/mesh/element/{vertex,edge,face,halfedge,mod}.rs.

    An element id (HalfedgeId, VertexId, ...) is a [nat]; the entry of a vector
    of ids is an [option nat], [None] being INVALID_IND (usize::MAX).  Indexing
    out of range, or with an invalid id, panics: [None].  Reading an id that
    turns out invalid is also [None] here, where the code panics only at the
    next use of that id as an index.  usize overflow is not modelled.  The
    allocator argument [bump] is left out. *)
From Coq Require Import List Arith Bool.
From Verif Require Import Lib.
Import ListNotations.
Local Open Scope opt_scope.

Definition ids : Type := list (option nat).

(** Index<..> for Vec (macros.rs:16-70) followed by the use of a valid id. *)
Definition rd (a : ids) (i : nat) : option nat :=
  match nth_error a i with Some (Some x) => Some x | _ => None end.
Definition wr (a : ids) (i v : nat) : option ids := set a i (Some v).
(** Vec::resize(n, default()) *)
Definition resize (a : ids) (n : nat) : ids := firstn n a ++ repeat None (n - length a).

(** surface_mesh.rs:11-22 and mesh_core_data.rs:3-12; use_implicit_twin is
    constantly false (surface_mesh.rs:48). *)
Record mesh : Type := Mesh {
  v_he : ids;      (* core_data.v_halfedge_arr *)
  he_next : ids;   (* core_data.he_next_arr *)
  he_vert : ids;   (* core_data.he_vertex_arr *)
  f_he : ids;      (* core_data.f_halfedge_arr *)
  n_v : nat;       (* core_data.n_vertices *)
  n_h : nat;       (* core_data.n_halfedges *)
  n_f : nat;       (* core_data.n_faces *)
  n_e : nat;       (* n_edges *)
  he_edge : ids;   (* he_edge_arr *)
  he_face : ids;   (* he_face_arr *)
  in_next : ids;   (* he_vert_in_next_arr *)
  out_next : ids;  (* he_vert_out_next_arr *)
  sib : ids;       (* he_sibling_arr *)
  e_he : ids }.    (* e_halfedge_arr *)

Definition set_v_he m x := Mesh x (he_next m) (he_vert m) (f_he m) (n_v m) (n_h m) (n_f m) (n_e m) (he_edge m) (he_face m) (in_next m) (out_next m) (sib m) (e_he m).
Definition set_he_next m x := Mesh (v_he m) x (he_vert m) (f_he m) (n_v m) (n_h m) (n_f m) (n_e m) (he_edge m) (he_face m) (in_next m) (out_next m) (sib m) (e_he m).
Definition set_he_vert m x := Mesh (v_he m) (he_next m) x (f_he m) (n_v m) (n_h m) (n_f m) (n_e m) (he_edge m) (he_face m) (in_next m) (out_next m) (sib m) (e_he m).
Definition set_f_he m x := Mesh (v_he m) (he_next m) (he_vert m) x (n_v m) (n_h m) (n_f m) (n_e m) (he_edge m) (he_face m) (in_next m) (out_next m) (sib m) (e_he m).
Definition set_he_edge m x := Mesh (v_he m) (he_next m) (he_vert m) (f_he m) (n_v m) (n_h m) (n_f m) (n_e m) x (he_face m) (in_next m) (out_next m) (sib m) (e_he m).
Definition set_he_face m x := Mesh (v_he m) (he_next m) (he_vert m) (f_he m) (n_v m) (n_h m) (n_f m) (n_e m) (he_edge m) x (in_next m) (out_next m) (sib m) (e_he m).
Definition set_in_next m x := Mesh (v_he m) (he_next m) (he_vert m) (f_he m) (n_v m) (n_h m) (n_f m) (n_e m) (he_edge m) (he_face m) x (out_next m) (sib m) (e_he m).
Definition set_out_next m x := Mesh (v_he m) (he_next m) (he_vert m) (f_he m) (n_v m) (n_h m) (n_f m) (n_e m) (he_edge m) (he_face m) (in_next m) x (sib m) (e_he m).
Definition set_sib m x := Mesh (v_he m) (he_next m) (he_vert m) (f_he m) (n_v m) (n_h m) (n_f m) (n_e m) (he_edge m) (he_face m) (in_next m) (out_next m) x (e_he m).
Definition set_e_he m x := Mesh (v_he m) (he_next m) (he_vert m) (f_he m) (n_v m) (n_h m) (n_f m) (n_e m) (he_edge m) (he_face m) (in_next m) (out_next m) (sib m) x.

(** mesh.rs:107-114 *)
Definition tip (m : mesh) (h : nat) : option nat :=
  h' <- rd (he_next m) h ;; rd (he_vert m) h'.

(** * Iterators *)

(** The circulators EHIter, FHIter, FVIter, VIHIter, VOHIter (edge.rs:86-136,
    face.rs:101-216, vertex.rs:263-367) driven by [iter_next]
    (element/mod.rs:48-60): yield the current id, step, stop when back at the
    first.  The fuel is the length of the stepped vector; see [circ_fuel] in
    MeshProofs.v: when it runs out the loop of the code never ends. *)
Fixpoint circ (a : ids) (first cur fuel : nat) : option (list nat) :=
  match fuel with
  | 0 => None
  | S k =>
    nx <- rd a cur ;;
    if nx =? first then Some [cur] else r <- circ a first nx k ;; Some (cur :: r)
  end.
Definition circulate (a : ids) (first : nat) : option (list nat) := circ a first first (length a).

(** HalfedgeIter (halfedge.rs:64-125): all ids whose vertex is valid. *)
Definition is_some {A} (o : option A) : bool := match o with Some _ => true | None => false end.
Definition halfedges (m : mesh) : list nat :=
  filter (fun h => is_some (rd (he_vert m) h)) (seq 0 (length (he_next m))).

(** face.rs:28-34, 101-216 *)
Definition face_halfedges (m : mesh) (f : nat) : option (list nat) :=
  h <- rd (f_he m) f ;; circulate (he_next m) h.
Fixpoint omap {A B} (f : A -> option B) (l : list A) : option (list B) :=
  match l with [] => Some [] | a :: t => b <- f a ;; r <- omap f t ;; Some (b :: r) end.
Definition face_vertices (m : mesh) (f : nat) : option (list nat) :=
  l <- face_halfedges m f ;; omap (rd (he_vert m)) l.
(** edge.rs:27-29, 86-136 *)
Definition edge_halfedges (m : mesh) (e : nat) : option (list nat) :=
  h <- rd (e_he m) e ;; circulate (sib m) h.
(** surface_mesh.rs:510-519 *)
Fixpoint prev_loop (a : ids) (hid cur fuel : nat) : option nat :=
  match fuel with
  | 0 => None
  | S k => nx <- rd a cur ;; if nx =? hid then Some cur else prev_loop a hid nx k
  end.
Definition he_prev (m : mesh) (hid : nat) : option nat :=
  prev_loop (he_next m) hid hid (length (he_next m)).
(** surface_mesh.rs:521-535 *)
Fixpoint twin_loop (s v : ids) (hid cur fuel : nat) : option nat :=
  match fuel with
  | 0 => None
  | S k =>
    nx <- rd s cur ;;
    if nx =? hid then Some hid else
    v1 <- rd v cur ;; v2 <- rd v nx ;;
    if negb (v1 =? v2) then Some nx else twin_loop s v hid nx k
  end.
Definition he_twin (m : mesh) (hid : nat) : option nat :=
  twin_loop (sib m) (he_vert m) hid hid (length (sib m)).
(** vertex.rs:263-314 *)
Definition incoming_halfedges (m : mesh) (v : nat) : option (list nat) :=
  h <- rd (v_he m) v ;; s <- he_prev m h ;; circulate (in_next m) s.
(** vertex.rs:316-367 *)
Definition outgoing_halfedges (m : mesh) (v : nat) : option (list nat) :=
  h <- rd (v_he m) v ;; circulate (out_next m) h.

(** * Allocation: surface_mesh.rs:172-223 *)
Definition new_vertices (m : mesh) (n : nat) : nat * mesh :=
  (length (v_he m),
   Mesh (resize (v_he m) (length (v_he m) + n)) (he_next m) (he_vert m) (f_he m) (n_v m + n) (n_h m) (n_f m) (n_e m) (he_edge m) (he_face m) (in_next m) (out_next m) (sib m) (e_he m)).
Definition new_halfedges (m : mesh) (n : nat) : nat * mesh :=
  let len := length (he_next m) + n in
  (length (he_next m),
   Mesh (v_he m) (resize (he_next m) len) (resize (he_vert m) len) (f_he m) (n_v m) (n_h m + n) (n_f m) (n_e m) (resize (he_edge m) len) (resize (he_face m) len) (resize (in_next m) len) (resize (out_next m) len) (resize (sib m) len) (e_he m)).
Definition new_edges (m : mesh) (n : nat) : nat * mesh :=
  (length (e_he m),
   Mesh (v_he m) (he_next m) (he_vert m) (f_he m) (n_v m) (n_h m) (n_f m) (n_e m + n) (he_edge m) (he_face m) (in_next m) (out_next m) (sib m) (resize (e_he m) (length (e_he m) + n))).
Definition new_faces (m : mesh) (n : nat) : nat * mesh :=
  (length (f_he m),
   Mesh (v_he m) (he_next m) (he_vert m) (resize (f_he m) (length (f_he m) + n)) (n_v m) (n_h m) (n_f m + n) (n_e m) (he_edge m) (he_face m) (in_next m) (out_next m) (sib m) (e_he m)).

(** itertools' circular_tuple_windows for pairs: one pair per element, the last
    one wrapping around (a single element is paired with itself). *)
Definition windows (l : list nat) : list (nat * nat) :=
  match l with [] => [] | a :: t => combine l (t ++ [a]) end.
(** for (ha, hb) in ws { arr[ha] = hb } *)
Fixpoint writes (a : ids) (ws : list (nat * nat)) : option ids :=
  match ws with [] => Some a | (i, v) :: t => a' <- wr a i v ;; writes a' t end.

(** surface_mesh.rs:477-482 *)
Definition insert_halfedge (a : ids) (start new_he : nat) : option ids :=
  nnext <- nth_error a start ;;
  a' <- wr a start new_he ;;
  set a' new_he nnext.

(** * SurfaceMesh::new *)

(** surface_mesh.rs:52-70: the corners of one polygon. *)
Fixpoint corners (m : mesh) (fid : nat) (poly : list nat) (first prev : option nat)
    : option (mesh * option nat * option nat) :=
  match poly with
  | [] => Some (m, first, prev)
  | tail :: poly' =>
    let '(hid, m) := new_halfedges m 1 in
    hv <- wr (he_vert m) hid tail ;;
    let m := set_he_vert m hv in
    hf <- wr (he_face m) hid fid ;;
    let m := set_he_face m hf in
    vh <- wr (v_he m) tail hid ;;
    let m := set_v_he m vh in
    match prev with
    | None => (* i == 0 *)
      fh <- wr (f_he m) fid hid ;;
      corners (set_f_he m fh) fid poly' (Some hid) (Some hid)
    | Some p =>
      hn <- wr (he_next m) p hid ;;
      corners (set_he_next m hn) fid poly' first (Some hid)
    end
  end.
Definition add_polygon (m : mesh) (fid : nat) (poly : list nat) : option mesh :=
  '(m, first, prev) <- corners m fid poly None None ;;
  p <- prev ;;
  f <- first ;;
  hn <- wr (he_next m) p f ;;
  Some (set_he_next m hn).
(** surface_mesh.rs:51-71 *)
Fixpoint add_polygons (m : mesh) (fid : nat) (ps : list (list nat)) : option mesh :=
  match ps with
  | [] => Some m
  | p :: ps' => m' <- add_polygon m fid p ;; add_polygons m' (S fid) ps'
  end.

(** surface_mesh.rs:79 *)
Definition key_of (tail tip : nat) : nat * nat := if tail <? tip then (tail, tip) else (tip, tail).
Definition key_eqb (a b : nat * nat) : bool := (fst a =? fst b) && (snd a =? snd b).
(** The HashMap [edge_history] is an association list without repeated keys. *)
Definition history : Type := list ((nat * nat) * nat).
Definition h_get (h : history) (k : nat * nat) : option nat :=
  match find (fun p => key_eqb (fst p) k) h with Some p => Some (snd p) | None => None end.
Definition h_put (h : history) (k : nat * nat) (v : nat) : history :=
  map (fun p => if key_eqb (fst p) k then (fst p, v) else p) h.

(** surface_mesh.rs:74-97: [ws] lists the windows of all polygons in order. *)
Fixpoint build_edges (m : mesh) (hist : history) (hid : nat) (ws : list (nat * nat))
    : option (mesh * history) :=
  match ws with
  | [] => Some (m, hist)
  | (tail, tp) :: ws' =>
    let key := key_of tail tp in
    match h_get hist key with
    | Some prev_hid =>
      s <- wr (sib m) hid prev_hid ;;
      let m := set_sib m s in
      eid <- rd (he_edge m) prev_hid ;;
      he <- wr (he_edge m) hid eid ;;
      build_edges (set_he_edge m he) (h_put hist key hid) (S hid) ws'
    | None =>
      let '(new_eid, m) := new_edges m 1 in
      he <- wr (he_edge m) hid new_eid ;;
      let m := set_he_edge m he in
      s <- set (sib m) hid None ;;
      let m := set_sib m s in
      eh <- wr (e_he m) new_eid hid ;;
      build_edges (set_e_he m eh) ((key, hid) :: hist) (S hid) ws'
    end
  end.

(** surface_mesh.rs:107-110: follow siblings backwards to the first one. *)
Fixpoint back_to_first (s : ids) (cur fuel : nat) : option nat :=
  match fuel with
  | 0 => None
  | S k =>
    x <- nth_error s cur ;;
    match x with Some p => back_to_first s p k | None => Some cur end
  end.
(** surface_mesh.rs:99-112 *)
Fixpoint close_siblings (s : ids) (lasts : list nat) : option ids :=
  match lasts with
  | [] => Some s
  | last_he :: t =>
    x <- nth_error s last_he ;;
    s' <- match x with
          | None => wr s last_he last_he
          | Some _ => c <- back_to_first s last_he (length s) ;; wr s c last_he
          end ;;
    close_siblings s' t
  end.

(** surface_mesh.rs:145-165.  [vertex_of] is he.to() or he.from(). *)
Fixpoint count_degrees (deg : list nat) (vs : list nat) : option (list nat) :=
  match vs with
  | [] => Some deg
  | v :: t => d <- nth_error deg v ;; deg' <- set deg v (S d) ;; count_degrees deg' t
  end.
Fixpoint prefix_sums (acc : nat) (l : list nat) : list nat :=
  match l with [] => [] | x :: t => (acc + x) :: prefix_sums (acc + x) t end.
Fixpoint place (vh : list nat) (pos : list nat) (hs : list (nat * nat)) : option (list nat) :=
  match hs with
  | [] => Some vh
  | (h, v) :: t =>
    p <- nth_error pos v ;;
    vh' <- set vh p h ;;
    pos' <- set pos v (S p) ;;
    place vh' pos' t
  end.
Definition vertex_cycle (m : mesh) (incoming : bool) : option (list nat * list nat) :=
  let hs := halfedges m in
  vs <- omap (fun h => if incoming then tip m h else rd (he_vert m) h) hs ;;
  deg <- count_degrees (repeat 0 (length (v_he m))) vs ;;
  let sep := 0 :: prefix_sums 0 deg in
  vh <- place (repeat 0 (length (he_next m))) sep (combine hs vs) ;;
  Some (vh, sep).
(** surface_mesh.rs:122-130 and 131-139: one vertex. *)
Fixpoint link_range (a : ids) (vh : list nat) (start len : nat) (js : list nat) : option ids :=
  match js with
  | [] => Some a
  | j :: t =>
    ha <- nth_error vh (start + j) ;;
    hb <- nth_error vh (start + (j + 1) mod len) ;;
    a' <- wr a ha hb ;;
    link_range a' vh start len t
  end.
Definition link_vertex (a : ids) (vh sep : list nat) (v : nat) : option ids :=
  s <- nth_error sep v ;;
  e <- nth_error sep (v + 1) ;;
  link_range a vh s (e - s) (seq 0 (e - s)).
(** surface_mesh.rs:117-140; [vh_i, sep_i] for the incoming cycles, [vh_o,
    sep_o] for the outgoing ones. *)
Fixpoint link_vertices (m : mesh) (vh_i sep_i vh_o sep_o : list nat) (vs : list nat) : option mesh :=
  match vs with
  | [] => Some m
  | v :: t =>
    x <- nth_error (v_he m) v ;;
    match x with
    | None => link_vertices m vh_i sep_i vh_o sep_o t
    | Some _ =>
      ai <- link_vertex (in_next m) vh_i sep_i v ;;
      let m := set_in_next m ai in
      ao <- link_vertex (out_next m) vh_o sep_o v ;;
      link_vertices (set_out_next m ao) vh_i sep_i vh_o sep_o t
    end
  end.

(** [*polygon.iter().max().unwrap()] and the outer [max().unwrap()]. *)
Definition max_of (l : list nat) : option nat :=
  match l with [] => None | a :: t => Some (fold_left Nat.max t a) end.

(** surface_mesh.rs:25-142.  [order] is the order in which the HashMap yields
    its values (line 99): it may be any permutation. *)
Definition new (order : list nat -> list nat) (polygons : list (list nat)) : option mesh :=
  maxs <- omap max_of polygons ;;
  mx <- max_of maxs ;;
  let nv := mx + 1 in
  let nf := length polygons in
  let m := Mesh (repeat None nv) [] [] (repeat None nf) nv 0 nf 0 [] [] [] [] [] [] in
  m <- add_polygons m 0 polygons ;;
  '(m, hist) <- build_edges m [] 0 (concat (map windows polygons)) ;;
  s <- close_siblings (sib m) (order (map snd hist)) ;;
  let m := set_sib m s in
  '(vh_i, sep_i) <- vertex_cycle m true ;;
  '(vh_o, sep_o) <- vertex_cycle m false ;;
  link_vertices m vh_i sep_i vh_o sep_o (seq 0 (n_v m)).

(** * split_edge: surface_mesh.rs:225-332 *)

(** he_pos_map (lines 248-250): position of a halfedge in [es]. *)
Definition pos_in (es : list nat) (h : nat) : option nat :=
  match find (fun p => fst p =? h) (rev (combine es (seq 0 (length es)))) with
  | Some p => Some (snd p) | None => None end.
(** The closure to_new_halfedge mapped over a list (lines 251-272): the new
    list, and the positions pushed. *)
Definition to_new (es ns : list nat) (l : list nat) : list nat :=
  map (fun h => match pos_in es h with Some p => nth p ns 0 | None => h end) l.
Definition positions (es : list nat) (l : list nat) : list nat :=
  flat_map (fun h => match pos_in es h with Some p => [p] | None => [] end) l.
(** lines 309-311 *)
Fixpoint insert_all (a : ids) (ps : list (nat * nat)) : option ids :=
  match ps with [] => Some a | (p, n) :: t => a' <- insert_halfedge a p n ;; insert_all a' t end.
(** lines 327-329 *)
Fixpoint copy_all (a : ids) (ps : list (nat * nat)) : option ids :=
  match ps with [] => Some a | (o, n) :: t => x <- nth_error a o ;; a' <- set a n x ;; copy_all a' t end.

Definition split_edge (m : mesh) (eid : nat) : option (mesh * nat) :=
  es <- edge_halfedges m eid ;;
  h0 <- nth_error es 0 ;;
  va <- rd (he_vert m) h0 ;;
  vb <- tip m h0 ;;
  let '(new_v, m) := new_vertices m 1 in
  let '(n0, m) := new_halfedges m (length es) in
  let ns := seq n0 (length es) in
  vh <- wr (v_he m) new_v n0 ;;
  let m := set_v_he m vh in
  hv <- writes (he_vert m) (map (fun n => (n, new_v)) ns) ;;
  let m := set_he_vert m hv in
  ina <- incoming_halfedges m va ;;
  inb <- incoming_halfedges m vb ;;
  let va_in := to_new es ns ina in
  let pa := positions es ina in
  let vb_in := to_new es ns inb in
  let pb := positions es inb in
  a1 <- writes (in_next m) (windows va_in) ;;
  a2 <- writes a1 (windows vb_in) ;;
  a3 <- writes a2 (windows es) ;;
  let m := set_in_next m a3 in
  o1 <- writes (out_next m) (windows ns) ;;
  let m := set_out_next m o1 in
  let e_va := map (fun p => nth p es 0) pb ++ map (fun p => nth p ns 0) pa in
  let e_vb := map (fun p => nth p es 0) pa ++ map (fun p => nth p ns 0) pb in
  s1 <- writes (sib m) (windows e_va) ;;
  s2 <- writes s1 (windows e_vb) ;;
  let m := set_sib m s2 in
  hn <- insert_all (he_next m) (combine es ns) ;;
  let m := set_he_next m hn in
  he1 <- writes (he_edge m) (map (fun h => (h, eid)) e_va) ;;
  let m := set_he_edge m he1 in
  let '(new_e, m) := new_edges m 1 in
  he2 <- writes (he_edge m) (map (fun h => (h, new_e)) e_vb) ;;
  let m := set_he_edge m he2 in
  ha0 <- nth_error e_va 0 ;;
  eh1 <- wr (e_he m) eid ha0 ;;
  hb0 <- nth_error e_vb 0 ;;
  eh2 <- wr eh1 new_e hb0 ;;
  let m := set_e_he m eh2 in
  hf <- copy_all (he_face m) (combine es ns) ;;
  Some (set_he_face m hf, new_v).

(** * split_face: surface_mesh.rs:334-427 *)

(** lines 343-354 *)
Fixpoint find_pos (v : ids) (va vb i : nat) (hs : list nat) (p1 : option nat)
    : option (option nat * option nat) :=
  match hs with
  | [] => Some (p1, None)
  | h :: t =>
    x <- rd v h ;;
    if (x =? va) || (x =? vb) then
      match p1 with
      | None => find_pos v va vb (S i) t (Some i)
      | Some _ => Some (p1, Some i)
      end
    else find_pos v va vb (S i) t p1
  end.

Definition split_face (m : mesh) (fid va vb : nat) : option (mesh * nat) :=
  hs <- face_halfedges m fid ;;
  '(p1, p2) <- find_pos (he_vert m) va vb 0 hs None ;;
  pos1 <- p1 ;;
  hp1 <- nth_error hs pos1 ;;
  x <- rd (he_vert m) hp1 ;;
  let '(va, vb) := if x =? va then (va, vb) else (vb, va) in
  pos2 <- p2 ;;
  let first := firstn (pos2 - pos1) (skipn pos1 hs) in
  let second := skipn pos2 hs ++ firstn pos1 hs in
  let '(first_he, m) := new_halfedges m 2 in
  let second_he := first_he + 1 in
  hv1 <- wr (he_vert m) first_he vb ;;
  hv2 <- wr hv1 second_he va ;;
  let m := set_he_vert m hv2 in
  s1 <- wr (sib m) first_he second_he ;;
  s2 <- wr s1 second_he first_he ;;
  let m := set_sib m s2 in
  f0 <- nth_error first 0 ;;
  fl <- nth_error first (length first - 1) ;;
  g0 <- nth_error second 0 ;;
  gl <- nth_error second (length second - 1) ;;
  i1 <- insert_halfedge (in_next m) gl first_he ;;
  o1 <- insert_halfedge (out_next m) g0 first_he ;;
  i2 <- insert_halfedge i1 fl second_he ;;
  o2 <- insert_halfedge o1 f0 second_he ;;
  let m := set_out_next (set_in_next m i2) o2 in
  n1 <- wr (he_next m) first_he f0 ;;
  n2 <- wr n1 fl first_he ;;
  n3 <- wr n2 second_he g0 ;;
  n4 <- wr n3 gl second_he ;;
  let m := set_he_next m n4 in
  let '(new_e, m) := new_edges m 1 in
  he1 <- wr (he_edge m) first_he new_e ;;
  he2 <- wr he1 second_he new_e ;;
  let m := set_he_edge m he2 in
  let '(new_f, m) := new_faces m 1 in
  hf1 <- wr (he_face m) first_he fid ;;
  hf2 <- wr hf1 second_he new_f ;;
  hf3 <- writes hf2 (map (fun h => (h, new_f)) second) ;;
  let m := set_he_face m hf3 in
  eh <- wr (e_he m) new_e first_he ;;
  let m := set_e_he m eh in
  fh1 <- wr (f_he m) fid first_he ;;
  fh2 <- wr fh1 new_f second_he ;;
  Some (set_f_he m fh2, second_he).

(** * add_face_by_halfedges: surface_mesh.rs:429-469 *)

(** lines 440-454 *)
Fixpoint dup_halfedges (m : mesh) (ps : list (nat * nat)) : option mesh :=
  match ps with
  | [] => Some m
  | (o, n) :: t =>
    x <- nth_error (he_vert m) o ;;
    hv <- set (he_vert m) n x ;;
    let m := set_he_vert m hv in
    s <- insert_halfedge (sib m) o n ;;
    let m := set_sib m s in
    i <- insert_halfedge (in_next m) o n ;;
    let m := set_in_next m i in
    ou <- insert_halfedge (out_next m) o n ;;
    let m := set_out_next m ou in
    e <- nth_error (he_edge m) o ;;
    he <- set (he_edge m) n e ;;
    dup_halfedges (set_he_edge m he) t
  end.

Definition add_face_by_halfedges (m : mesh) (hs : list nat) : option (mesh * nat) :=
  let '(n0, m) := new_halfedges m (length hs) in
  let ns := seq n0 (length hs) in
  m <- dup_halfedges m (combine hs ns) ;;
  hn <- writes (he_next m) (windows ns) ;;
  let m := set_he_next m hn in
  let '(new_f, m) := new_faces m 1 in
  hf <- writes (he_face m) (map (fun h => (h, new_f)) ns) ;;
  let m := set_he_face m hf in
  h0 <- nth_error ns 0 ;;
  fh <- wr (f_he m) new_f h0 ;;
  Some (set_f_he m fh, new_f).
