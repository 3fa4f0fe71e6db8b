(** Model of the tetrahedral mesh of src/triangle/tetrahedron.rs: the version
    tables (261-424), TetMesh (13-259), initial_delaunay (643-700), locate_dt
    (711-815), insphere_s (818-873), insert_vertex_bw (875-1101) and the part of
    tetrahedralize after the choice of the first four points (1209-1252).

    A tetrahedron id is a [nat], [None] being INVALID_IND.  Panics (index out of
    range, unwrap of None) are [None].  The signs of predicates::orient3d and
    predicates::insphere at given point indices are parameters: only these signs
    are used.  Loops that need not end have a fuel argument. *)
From Coq Require Import List Arith Bool ZArith NArith.
From Verif Require Import Lib.
Import ListNotations.
Local Open Scope opt_scope.

(** * Versions: tetrahedron.rs:261-424 *)
Definition table (f : nat -> nat) : list nat := map f (seq 0 12).
Definition table2 (f : nat -> nat -> nat) : list (list nat) := map (fun i => map (f i) (seq 0 12)) (seq 0 12).
Definition look (t : list nat) (i : nat) : option nat := nth_error t i.
Definition look2 (t : list (list nat)) (i j : nat) : option nat := r <- nth_error t i ;; nth_error r j.

Definition ENEXT_TBL := table (fun i => (i + 4) mod 12).
Definition EPREV_TBL := table (fun i => (i + 8) mod 12).
Definition ESYM_TBL := [9; 6; 11; 4; 3; 7; 1; 5; 10; 0; 8; 2].
Definition ENEXT_ESYM_TBL := table (fun i => nth (nth i ENEXT_TBL 0) ESYM_TBL 0).
Definition EPREV_ESYM_TBL := table (fun i => nth (nth i EPREV_TBL 0) ESYM_TBL 0).
Definition BOND_TBL := table2 (fun i j => Nat.land j 3 + (Nat.land i 12 + Nat.land j 12) mod 12).
Definition FSYM_TBL := table2 (fun i j => (j + 12 - Nat.land i 12) mod 12).
Definition FACE_PIVOT1 := table (fun i => Nat.land (nth i ESYM_TBL 0) 3).
Definition FACE_PIVOT2 := table2 (fun i j => nth j (nth (nth i ESYM_TBL 0) FSYM_TBL []) 0).
Definition ORG_PIVOT := [3; 3; 1; 1; 2; 0; 0; 2; 1; 2; 3; 0].
Definition DEST_PIVOT := [2; 0; 0; 2; 1; 2; 3; 0; 3; 3; 1; 1].
Definition APEX_PIVOT := [1; 2; 3; 0; 3; 3; 1; 1; 2; 0; 0; 2].
Definition OPPO_PIVOT := [0; 1; 2; 3; 0; 1; 2; 3; 0; 1; 2; 3].
Definition EPIVOT := [4; 5; 2; 11; 4; 5; 2; 11; 4; 5; 2; 11].

(** tetrahedron.rs:13-28 *)
Record triface : Type := TF { tet : option nat; ver : nat }.
Definition tf0 : triface := TF None 11.

(** tetrahedron.rs:40-64, 426-457: the navigation within one tetrahedron. *)
Definition by_table (t : list nat) (f : triface) : option triface := v <- look t (ver f) ;; Some (TF (tet f) v).
Definition enext := by_table ENEXT_TBL.
Definition eprev := by_table EPREV_TBL.
Definition esym := by_table ESYM_TBL.
Definition enext_esym := by_table ENEXT_ESYM_TBL.
Definition eprev_esym := by_table EPREV_ESYM_TBL.

(** * Tetrahedra: tetrahedron.rs:67-114.  [mask] is a usize. *)
Record tetra : Type := Tetra { data : list nat; nei : list triface; mask : N }.
Definition new_tetra (pa pb pc pd : nat) : tetra := Tetra [pa; pb; pc; pd] [tf0; tf0; tf0; tf0] 0.
Fixpoint index_of (v : nat) (l : list nat) : option nat :=
  match l with [] => None | a :: t => if a =? v then Some 0 else i <- index_of v t ;; Some (S i) end.

(** tetrahedron.rs:109-126 without the coordinates. *)
Record tetmesh : Type := TetMesh { n_points : nat; tets : list tetra; p2t : list (option nat) }.
Definition set_tets m x := TetMesh (n_points m) x (p2t m).
Definition set_p2t m x := TetMesh (n_points m) (tets m) x.
Definition empty_mesh (n : nat) : tetmesh := TetMesh n [] (repeat None (n + 1)).

Definition tet_at (m : tetmesh) (t : option nat) : option tetra := i <- t ;; nth_error (tets m) i.
Definition pivot (tbl : list nat) (m : tetmesh) (f : triface) : option nat :=
  t <- tet_at m (tet f) ;; p <- look tbl (ver f) ;; nth_error (data t) p.
(** tetrahedron.rs:128-146 *)
Definition org := pivot ORG_PIVOT.
Definition dest := pivot DEST_PIVOT.
Definition apex := pivot APEX_PIVOT.
Definition oppo := pivot OPPO_PIVOT.

(** Replacing one tetrahedron. *)
Definition on_tet (m : tetmesh) (t : option nat) (f : tetra -> option tetra) : option tetmesh :=
  i <- t ;; x <- nth_error (tets m) i ;; y <- f x ;; l <- set (tets m) i y ;; Some (set_tets m l).
Definition set_nei (m : tetmesh) (t : option nat) (k : nat) (g : triface) : option tetmesh :=
  on_tet m t (fun x => l <- set (nei x) k g ;; Some (Tetra (data x) l (mask x))).
Definition set_mask (f : N -> N) (m : tetmesh) (t : option nat) : option tetmesh :=
  on_tet m t (fun x => Some (Tetra (data x) (nei x) (f (mask x)))).
Definition nei_at (m : tetmesh) (t : option nat) (k : nat) : option triface := x <- tet_at m t ;; nth_error (nei x) k.
(** usize::MAX *)
Definition ones : N := 18446744073709551615.
(** tetrahedron.rs:148-172 *)
Definition infect := set_mask (fun k => N.lor k 1).
Definition mark_test := set_mask (fun k => N.lor k 2).
Definition unmark_test := set_mask (fun k => N.land k (N.lxor ones 2)).
Definition infected (m : tetmesh) (t : option nat) : option bool :=
  x <- tet_at m t ;; Some (negb (N.land (mask x) 1 =? 0)%N).
Definition mark_tested (m : tetmesh) (t : option nat) : option bool :=
  x <- tet_at m t ;; Some (negb (N.land (mask x) 2 =? 0)%N).

(** tetrahedron.rs:174-183 *)
Definition bond (m : tetmesh) (t1 t2 : triface) : option tetmesh :=
  v1 <- look2 BOND_TBL (ver t1) (ver t2) ;;
  m1 <- set_nei m (tet t1) (Nat.land (ver t1) 3) (TF (tet t2) v1) ;;
  v2 <- look2 BOND_TBL (ver t2) (ver t1) ;;
  set_nei m1 (tet t2) (Nat.land (ver t2) 3) (TF (tet t1) v2).
(** tetrahedron.rs:185-197 *)
Definition fsym (m : tetmesh) (t : triface) : option triface :=
  nf <- nei_at m (tet t) (Nat.land (ver t) 3) ;;
  v <- look2 FSYM_TBL (ver t) (ver nf) ;; Some (TF (tet nf) v).
(** tetrahedron.rs:199-204 *)
Definition fnext (m : tetmesh) (t : triface) : option triface :=
  k <- look FACE_PIVOT1 (ver t) ;;
  nf <- nei_at m (tet t) k ;;
  v <- look2 FACE_PIVOT2 (ver t) (ver nf) ;; Some (TF (tet nf) v).
(** tetrahedron.rs:206-209 *)
Definition is_hull_tet (m : tetmesh) (t : option nat) : option bool :=
  x <- tet_at m t ;; d <- nth_error (data x) 3 ;; Some (d =? n_points m).

(** * incident: tetrahedron.rs:234-258 *)

(** for i in 0..4: the neighbours not behind the face opposite to the vertex. *)
Fixpoint incident_nei (m : tetmesh) (t : nat) (pos : nat) (is : list nat) (result : list nat)
    : option (tetmesh * list nat) :=
  match is with
  | [] => Some (m, result)
  | i :: is' =>
    if i =? pos then incident_nei m t pos is' result else
    nf <- nei_at m (Some t) i ;;
    b <- mark_tested m (tet nf) ;;
    if b then incident_nei m t pos is' result else
    h <- is_hull_tet m (tet nf) ;;
    if h then incident_nei m t pos is' result else
    m' <- mark_test m (tet nf) ;;
    n <- tet nf ;;
    incident_nei m' t pos is' (result ++ [n])
  end.
Fixpoint incident_loop (m : tetmesh) (vid idx : nat) (result : list nat) (fuel : nat)
    : option (tetmesh * list nat) :=
  match fuel with
  | 0 => None
  | S k =>
    match nth_error result idx with
    | None => Some (m, result)
    | Some t =>
      x <- tet_at m (Some t) ;;
      pos <- index_of vid (data x) ;;
      '(m', result') <- incident_nei m t pos (seq 0 4) result ;;
      incident_loop m' vid (S idx) result' k
    end
  end.
Fixpoint unmark_all (m : tetmesh) (l : list nat) : option tetmesh :=
  match l with [] => Some m | t :: l' => m' <- unmark_test m (Some t) ;; unmark_all m' l' end.
Definition incident (m : tetmesh) (vid : nat) : option (tetmesh * list nat) :=
  x <- nth_error (p2t m) vid ;;
  t0 <- x ;;
  m1 <- mark_test m (Some t0) ;;
  '(m2, result) <- incident_loop m1 vid 0 [t0] (S (length (tets m))) ;;
  m3 <- unmark_all m2 result ;;
  Some (m3, result).

(** * The first tetrahedron and its hull: tetrahedron.rs:642-700 *)
Definition make_tet (m : tetmesh) (pa pb pc pd : nat) : tetmesh * triface :=
  (set_tets m (tets m ++ [new_tetra pa pb pc pd]), TF (Some (length (tets m))) 11).
Definition bond_by (n1 n2 : triface -> option triface) (m : tetmesh) (t1 t2 : triface) : option tetmesh :=
  w1 <- n1 t1 ;; w2 <- n2 t2 ;; bond m w1 w2.
(** lines 649-693: the five tetrahedra; also returns firsttet and tetopa. *)
Definition initial_tets (m : tetmesh) (pa pb pc pd : nat) : option (tetmesh * triface * triface) :=
  let g := n_points m in
  let '(m, firsttet) := make_tet m pa pb pc pd in
  let '(m, tetopa) := make_tet m pb pc pd g in
  let '(m, tetopb) := make_tet m pc pa pd g in
  let '(m, tetopc) := make_tet m pa pb pd g in
  let '(m, tetopd) := make_tet m pb pa pc g in
  m <- bond m firsttet tetopd ;;
  m <- bond_by esym Some m firsttet tetopc ;;
  m <- bond_by enext_esym Some m firsttet tetopa ;;
  m <- bond_by eprev_esym Some m firsttet tetopb ;;
  m <- bond_by esym esym m tetopc tetopd ;;
  m <- bond_by esym eprev_esym m tetopa tetopd ;;
  m <- bond_by esym enext_esym m tetopb tetopd ;;
  m <- bond_by eprev_esym enext_esym m tetopc tetopb ;;
  m <- bond_by eprev_esym enext_esym m tetopa tetopc ;;
  m <- bond_by eprev_esym enext_esym m tetopb tetopa ;;
  Some (m, firsttet, tetopa).
Definition initial_delaunay (m : tetmesh) (pa pb pc pd : nat) : option (tetmesh * triface) :=
  '(m, firsttet, tetopa) <- initial_tets m pa pb pc pd ;;
  p <- set (p2t m) pa (Some 0) ;;
  p <- set p pb (Some 0) ;;
  p <- set p pc (Some 0) ;;
  p <- set p pd (Some 0) ;;
  p <- set p (n_points m) (tet tetopa) ;;
  Some (set_p2t m p, firsttet).

(** * Point location: tetrahedron.rs:711-815 *)

(** The signs of orient3d and insphere. *)
Definition sign3 : Type := nat -> nat -> nat -> nat -> Z.
Definition sign4 : Type := nat -> nat -> nat -> nat -> nat -> Z.

Inductive location : Type := OUTSIDE | ONVERTEX | ONEDGE | ONFACE | INTETRAHEDRON.

(** lines 716-729 *)
Fixpoint first_negative (o3 : sign3) (m : tetmesh) (t : option nat) (pid v fuel : nat) : option nat :=
  match fuel with
  | 0 => Some v
  | S k =>
    let f := TF t v in
    a <- org m f ;; b <- dest m f ;; c <- apex m f ;;
    if (o3 a b c pid <? 0)%Z then Some v else first_negative o3 m t pid (v + 1) k
  end.
(** lines 732-813 *)
Fixpoint locate_loop (o3 : sign3) (m : tetmesh) (pid : nat) (s : triface) (fuel : nat)
    : option (location * triface) :=
  match fuel with
  | 0 => None
  | S k =>
    toppo <- oppo m s ;;
    if toppo =? pid then s1 <- esym s ;; s2 <- eprev s1 ;; Some (ONVERTEX, s2) else
    a <- org m s ;; b <- dest m s ;; c <- apex m s ;;
    let oriorg := o3 b c toppo pid in
    let oridest := o3 c a toppo pid in
    let oriapex := o3 a b toppo pid in
    let cross (s : triface) :=
      nf <- nei_at m (tet s) (Nat.land (ver s) 3) ;;
      h <- is_hull_tet m (tet nf) ;;
      if h then Some (OUTSIDE, nf) else locate_loop o3 m pid nf k in
    if (oriorg <? 0)%Z then s1 <- enext_esym s ;; cross s1
    else if (oridest <? 0)%Z then s1 <- eprev_esym s ;; cross s1
    else if (oriapex <? 0)%Z then s1 <- esym s ;; cross s1
    else if (oriorg =? 0)%Z then
      s1 <- enext_esym s ;;
      if (oridest =? 0)%Z then
        s2 <- eprev s1 ;; Some (if (oriapex =? 0)%Z then ONVERTEX else ONEDGE, s2)
      else if (oriapex =? 0)%Z then s2 <- enext s1 ;; Some (ONEDGE, s2)
      else Some (ONFACE, s1)
    else if (oridest =? 0)%Z then
      s1 <- eprev_esym s ;;
      if (oriapex =? 0)%Z then s2 <- eprev s1 ;; Some (ONEDGE, s2) else Some (ONFACE, s1)
    else if (oriapex =? 0)%Z then s1 <- esym s ;; Some (ONFACE, s1)
    else Some (INTETRAHEDRON, s)
  end.
Definition locate_dt (o3 : sign3) (m : tetmesh) (pid : nat) (s : triface) (fuel : nat)
    : option (location * triface) :=
  h <- is_hull_tet m (tet s) ;;
  t <- (if h then nf <- nei_at m (tet s) 3 ;; Some (tet nf) else Some (tet s)) ;;
  v <- first_negative o3 m t pid 0 4 ;;
  locate_loop o3 m pid (TF t v) fuel.

(** * insphere_s: tetrahedron.rs:817-873 *)

(** lines 842-851: one pass over the first n + 1 entries; the new list and the
    number of swaps. *)
Fixpoint bubble (n : nat) (l : list nat) : list nat * nat :=
  match n, l with
  | S n', a :: b :: t =>
    if b <? a then let '(r, c) := bubble n' (a :: t) in (b :: r, S c)
    else let '(r, c) := bubble n' (b :: t) in (a :: r, c)
  | _, _ => (l, 0)
  end.
(** lines 839-857 *)
Fixpoint bubble_sort (n : nat) (l : list nat) : list nat * nat :=
  match n with
  | 0 => (l, 0)
  | S n' =>
    let '(l1, c) := bubble n' l in
    if c =? 0 then (l1, c) else let '(l2, c') := bubble_sort n' l1 in (l2, c + c')
  end.
Definition insphere_s (o3 : sign3) (isp : sign4) (pa pb pc pd pe : nat) : option Z :=
  let s := isp pa pb pc pd pe in
  if negb (s =? 0)%Z then Some (Z.sgn s) else
  let '(pt, swaps) := bubble_sort 5 [pa; pb; pc; pd; pe] in
  match pt with
  | [p0; p1; p2; p3; p4] =>
    let ori := o3 p1 p2 p3 p4 in
    let ori := if (ori =? 0)%Z then (- o3 p0 p2 p3 p4)%Z else ori in
    Some (if Nat.odd swaps then (- Z.sgn ori)%Z else Z.sgn ori)
  | _ => None
  end.

(** * insert_vertex_bw: tetrahedron.rs:875-1101 *)

(** lines 886-896 *)
Fixpoint spin (m : tetmesh) (s0 : triface) (s : triface) (cave : list nat) (fuel : nat)
    : option (tetmesh * list nat) :=
  match fuel with
  | 0 => None
  | S k =>
    m' <- infect m (tet s) ;;
    t <- tet s ;;
    s' <- fnext m' s ;;
    t' <- tet s' ;;
    t0 <- tet s0 ;;
    if t' =? t0 then Some (m', cave ++ [t]) else spin m' s0 s' (cave ++ [t]) k
  end.
(** lines 878-904 *)
Definition seed_cavity (m : tetmesh) (l : location) (s : triface) : option (tetmesh * list nat) :=
  match l with
  | OUTSIDE | INTETRAHEDRON => m' <- infect m (tet s) ;; t <- tet s ;; Some (m', [t])
  | ONVERTEX => None
  | ONEDGE => spin m s s [] (S (length (tets m)))
  | ONFACE =>
    m1 <- infect m (tet s) ;;
    t <- tet s ;;
    nf <- nei_at m1 (tet s) (Nat.land (ver s) 3) ;;
    m2 <- infect m1 (tet nf) ;;
    t' <- tet nf ;;
    Some (m2, [t; t'])
  end.
(** lines 916-935: does the cavity grow over this neighbour? *)
Definition enqueue (o3 : sign3) (isp : sign4) (m : tetmesh) (pid : nat) (n : option nat) : option bool :=
  x <- tet_at m n ;;
  h <- is_hull_tet m n ;;
  match data x with
  | [p0; p1; p2; p3] =>
    if negb h then s <- insphere_s o3 isp p0 p1 p2 p3 pid ;; Some (s <? 0)%Z
    else
      let ori := o3 p0 p1 p2 pid in
      if (ori <? 0)%Z then Some true
      else if (ori =? 0)%Z then
        nf <- nth_error (nei x) 3 ;;
        y <- tet_at m (tet nf) ;;
        match data y with
        | [q0; q1; q2; q3] => s <- insphere_s o3 isp q0 q1 q2 q3 pid ;; Some (s <? 0)%Z
        | _ => None
        end
      else Some false
  | _ => None
  end.
(** lines 910-944: one cavity tetrahedron *)
Fixpoint grow_faces (o3 : sign3) (isp : sign4) (m : tetmesh) (pid cavetid : nat) (vs : list nat)
    (cave : list nat) (bdry : list triface) : option (tetmesh * list nat * list triface) :=
  match vs with
  | [] => Some (m, cave, bdry)
  | v :: vs' =>
    nf <- nei_at m (Some cavetid) v ;;
    i <- infected m (tet nf) ;;
    if i then grow_faces o3 isp m pid cavetid vs' cave bdry else
    t <- mark_tested m (tet nf) ;;
    '(m1, enq) <- (if t then Some (m, false)
                   else e <- enqueue o3 isp m pid (tet nf) ;; m' <- mark_test m (tet nf) ;; Some (m', e)) ;;
    if enq then
      m2 <- infect m1 (tet nf) ;;
      n <- tet nf ;;
      grow_faces o3 isp m2 pid cavetid vs' (cave ++ [n]) bdry
    else grow_faces o3 isp m1 pid cavetid vs' cave (bdry ++ [TF (Some cavetid) v])
  end.
(** lines 905-946 *)
Fixpoint grow (o3 : sign3) (isp : sign4) (m : tetmesh) (pid idx : nat) (cave : list nat) (bdry : list triface)
    (fuel : nat) : option (tetmesh * list nat * list triface) :=
  match fuel with
  | 0 => None
  | S k =>
    match nth_error cave idx with
    | None => Some (m, cave, bdry)
    | Some c =>
      '(m', cave', bdry') <- grow_faces o3 isp m pid c (seq 0 4) cave bdry ;;
      grow o3 isp m' pid (S idx) cave' bdry' k
    end
  end.

(** lines 948-953 *)
Definition ROW_V08_TBL := [8; 9; 10; 11; 0; 1; 2; 3; 4; 5; 6; 7].
Definition ROW_V11_TBL := [8; 9; 10; 11; 0; 1; 2; 3; 4; 5; 6; 7].
Definition COL_V01_TBL := [1; 1; 1; 1; 5; 5; 5; 5; 9; 9; 9; 9].
Definition COL_V02_TBL := [2; 2; 2; 2; 6; 6; 6; 6; 10; 10; 10; 10].
Definition COL_V08_TBL := [8; 8; 8; 8; 0; 0; 0; 0; 4; 4; 4; 4].
Definition COL_V11_TBL := [11; 11; 11; 11; 3; 3; 3; 3; 7; 7; 7; 7].

(** bw_face_map: directed edge to face. *)
Definition face_map : Type := list ((nat * nat) * triface).
Definition fm_get (h : face_map) (k : nat * nat) : option triface :=
  match find (fun p => (fst (fst p) =? fst k) && (snd (fst p) =? snd k)) h with
  | Some p => Some (snd p) | None => None end.

(** lines 988-993 *)
Fixpoint update_p2t (m : tetmesh) (pid nt : nat) (vs : list nat) : option tetmesh :=
  match vs with
  | [] => Some m
  | v :: vs' =>
    t <- nth_error (p2t m) v ;;
    x <- tet_at m t ;;
    d <- nth_error (data x) 2 ;;
    m' <- (if d =? pid then Some m else p <- set (p2t m) v (Some nt) ;; Some (set_p2t m p)) ;;
    update_p2t m' pid nt vs'
  end.
(** lines 962-996: a new tetrahedron on each boundary face.  A later insertion
    in the map replaces an earlier one, as in a HashMap. *)
Fixpoint fill (m : tetmesh) (pid : nat) (bdry : list triface) (fm : face_map)
    : option (tetmesh * list triface * face_map) :=
  match bdry with
  | [] => Some (m, [], fm)
  | old :: bdry' =>
    nt <- nei_at m (tet old) (ver old) ;;
    m <- unmark_test m (tet nt) ;;
    h <- is_hull_tet m (tet old) ;;
    nv <- (if h then look EPIVOT (ver nt) else Some (ver nt)) ;;
    let nt := TF (tet nt) nv in
    v0 <- dest m nt ;;
    v1 <- org m nt ;;
    v2 <- apex m nt ;;
    let '(m, newtet) := make_tet m v1 v0 pid v2 in
    m <- set_nei m (tet newtet) 2 nt ;;
    c <- look COL_V02_TBL (ver nt) ;;
    m <- set_nei m (tet nt) (Nat.land (ver nt) 3) (TF (tet newtet) c) ;;
    let fm := ((v2, v0), TF (tet newtet) 8) :: ((v1, v2), TF (tet newtet) 1) :: ((v0, v1), TF (tet newtet) 11) :: fm in
    n <- tet newtet ;;
    m <- update_p2t m pid n [v0; v1; v2] ;;
    '(m, r, fm) <- fill m pid bdry' fm ;;
    Some (m, newtet :: r, fm)
  end.
(** lines 1002-1031: connect one face of a new tetrahedron if it is not yet. *)
Definition connect (m : tetmesh) (fm : face_map) (t : option nat) (v : nat)
    (row : list nat) (col : list nat) : option tetmesh :=
  nf <- nei_at m t (Nat.land v 3) ;;
  match tet nf with
  | Some _ => Some m
  | None =>
    j <- org m (TF t v) ;;
    k <- dest m (TF t v) ;;
    nn <- fm_get fm (j, k) ;;
    r <- look row (ver nn) ;;
    c <- look col (ver nn) ;;
    m <- set_nei m t (Nat.land v 3) (TF (tet nn) r) ;;
    set_nei m (tet nn) (Nat.land (ver nn) 3) (TF t c)
  end.
Definition ID_TBL := table (fun i => i).
Fixpoint connect_all (m : tetmesh) (fm : face_map) (l : list triface) : option tetmesh :=
  match l with
  | [] => Some m
  | f :: l' =>
    m <- connect m fm (tet f) 11 ROW_V11_TBL COL_V11_TBL ;;
    m <- connect m fm (tet f) 1 ID_TBL COL_V01_TBL ;;
    m <- connect m fm (tet f) 8 ROW_V08_TBL COL_V08_TBL ;;
    connect_all m fm l'
  end.
(** lines 1096-1098 *)
Fixpoint kill_all (m : tetmesh) (l : list nat) : option tetmesh :=
  match l with [] => Some m | t :: l' => m' <- set_mask (fun _ => ones) m (Some t) ;; kill_all m' l' end.

(** lines 1034-1061: the tetrahedra of a large cavity. *)
Fixpoint fill_large (m : tetmesh) (pid : nat) (bdry : list triface) : option tetmesh :=
  match bdry with
  | [] => Some m
  | old :: bdry' =>
    nt <- nei_at m (tet old) (ver old) ;;
    m <- unmark_test m (tet nt) ;;
    h <- is_hull_tet m (tet old) ;;
    nv <- (if h then look EPIVOT (ver nt) else Some (ver nt)) ;;
    let nt := TF (tet nt) nv in
    v0 <- dest m nt ;;
    v1 <- org m nt ;;
    v2 <- apex m nt ;;
    let '(m, newtet) := make_tet m v1 v0 pid v2 in
    m <- set_nei m (tet newtet) 2 nt ;;
    c <- look COL_V02_TBL (ver nt) ;;
    m <- set_nei m (tet nt) (Nat.land (ver nt) 3) (TF (tet newtet) c) ;;
    n <- tet newtet ;;
    m <- update_p2t m pid n [v0; v1; v2] ;;
    fill_large m pid bdry'
  end.
(** lines 1078-1083 *)
Fixpoint spin_out (m : tetmesh) (s : triface) (fuel : nat) : option triface :=
  match fuel with
  | 0 => None
  | S k => s' <- fnext m s ;; i <- infected m (tet s') ;; if i then spin_out m s' k else Some s'
  end.
(** lines 1074-1091: the other three faces of one new tetrahedron. *)
Fixpoint connect_large (m : tetmesh) (newtet oldtet : triface) (k : nat) : option tetmesh :=
  match k with
  | 0 => Some m
  | S k' =>
    nt <- esym newtet ;;
    nf <- nei_at m (tet nt) (Nat.land (ver nt) 3) ;;
    m' <- match tet nf with
          | Some _ => Some m
          | None => s <- spin_out m oldtet (S (length (tets m))) ;;
                    nn <- fsym m s ;; nn <- esym nn ;; bond m nt nn
          end ;;
    nw <- enext newtet ;; ol <- enext oldtet ;; connect_large m' nw ol k'
  end.
(** lines 1067-1092 *)
Fixpoint connect_all_large (m : tetmesh) (bdry : list triface) : option tetmesh :=
  match bdry with
  | [] => Some m
  | old :: bdry' => nt <- fsym m old ;; nw <- fsym m nt ;; m' <- connect_large m nw old 3 ;; connect_all_large m' bdry'
  end.

(** lines 875-1101.  [limit] is the number 1024 of line 960. *)
Definition insert_vertex (limit : nat) (o3 : sign3) (isp : sign4) (m : tetmesh) (pid : nat) (searchtet : triface)
    (fuel : nat) : option (tetmesh * triface * bool) :=
  '(loc, s) <- locate_dt o3 m pid searchtet fuel ;;
  match loc with
  | ONVERTEX => Some (m, s, false)
  | _ =>
    '(m, cave) <- seed_cavity m loc s ;;
    '(m, cave, bdry) <- grow o3 isp m pid 0 cave [] (S (length (tets m))) ;;
    let f_out := length bdry in
    if (f_out + 4) / 2 <? limit then
      '(m, news, fm) <- fill m pid bdry [] ;;
      s <- nth_error news (f_out / 2) ;;
      p <- set (p2t m) pid (tet s) ;;
      let m := set_p2t m p in
      m <- connect_all m fm news ;;
      m <- kill_all m cave ;;
      Some (m, s, true)
    else
      m <- fill_large m pid bdry ;;
      s <- nth_error bdry (f_out / 2) ;;
      p <- set (p2t m) pid (tet s) ;;
      let m := set_p2t m p in
      m <- connect_all_large m bdry ;;
      m <- kill_all m cave ;;
      Some (m, s, true)
  end.
Definition insert_vertex_bw := insert_vertex 1024.

(** * tetrahedralize: tetrahedron.rs:1209-1252, from the insertion order on, the
    first four points having been chosen (lines 1135-1207). *)
Fixpoint insert_all (o3 : sign3) (isp : sign4) (m : tetmesh) (s : triface) (l : list nat) (fuel : nat)
    : option tetmesh :=
  match l with
  | [] => Some m
  | pid :: l' =>
    '(m, s, b) <- insert_vertex_bw o3 isp m pid s fuel ;;
    if b : bool then insert_all o3 isp m s l' fuel else Some m
  end.
(** lines 1224-1232: the new numbers of the tetrahedra kept. *)
Fixpoint renumber (l : list tetra) (count : nat) : list nat :=
  match l with
  | [] => []
  | t :: l' => if (mask t =? ones)%N then 0 :: renumber l' count else count :: renumber l' (S count)
  end.
Fixpoint omap {A B} (f : A -> option B) (l : list A) : option (list B) :=
  match l with [] => Some [] | a :: t => b <- f a ;; r <- omap f t ;; Some (b :: r) end.
(** lines 1234-1251 *)
Definition compact (m : tetmesh) : option tetmesh :=
  let map := renumber (tets m) 0 in
  let through (t : option nat) : option (option nat) := i <- t ;; n <- nth_error map i ;; Some (Some n) in
  ts <- omap (fun t => ns <- omap (fun f => n <- through (tet f) ;; Some (TF n (ver f))) (nei t) ;;
                       Some (Tetra (data t) ns (mask t)))
             (filter (fun t => negb (mask t =? ones)%N) (tets m)) ;;
  let m' := TetMesh (n_points m) ts (p2t m) in
  ps <- omap (fun i =>
          x <- nth_error (p2t m) i ;;
          n <- through x ;;
          h <- is_hull_tet m' n ;;
          if h then nf <- nei_at m' n 3 ;; Some (tet nf) else Some n) (seq 0 (n_points m)) ;;
  g <- nth_error (p2t m) (n_points m) ;;
  Some (TetMesh (n_points m) ts (ps ++ [g])).
Definition tetrahedralize (o3 : sign3) (isp : sign4) (n : nat) (order : list nat) (fuel : nat) : option tetmesh :=
  match order with
  | pa :: pb :: pc :: pd :: rest =>
    '(m, s) <- initial_delaunay (empty_mesh n) pa pb pc pd ;;
    m <- insert_all o3 isp m s rest fuel ;;
    compact m
  | _ => None
  end.
