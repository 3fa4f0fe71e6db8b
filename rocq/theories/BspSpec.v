(** Specification vocabulary for the polyhedral complex: when a complex is right,
    how a plane cuts a face, and when it cuts a cell in one polygon. *)
From Coq Require Import List Arith Bool Relations.
From Verif Require Import Lib Dispatch Tet Bsp.
Import ListNotations.

Definition he_dec : forall e e' : nat * nat, {e = e'} + {e <> e'}.
Proof. repeat decide equality. Defined.
(** How often a directed edge occurs. *)
Definition times (E : list (nat * nat)) (e : nat * nat) : nat := count_occ he_dec E e.
(** Every edge is passed as often in one direction as in the other. *)
Definition balanced (E : list (nat * nat)) : Prop := forall u v, times E (u, v) = times E (v, u).

(** The cells of a face, the faces of a cell, the cycle of a face. *)
Definition face_cells (cx : bsp) (f : nat) : list nat :=
  match nth_error (fdata cx) f with
  | Some x => match fst (cells x) with Some a => [a] | None => [] end ++ match snd (cells x) with Some b => [b] | None => [] end
  | None => []
  end.
Definition cell_faces (cx : bsp) (c : nat) : list nat := match nth_error (cdata cx) c with Some x => cfaces x | None => [] end.
Definition cycle_of (cx : bsp) (f : nat) : list nat := nth f (loops cx) [].
(** The edges of a face as seen from a cell: forward for its first cell,
    backward for the second. *)
Definition first_cell (cx : bsp) (c f : nat) : bool :=
  match nth_error (fdata cx) f with Some x => cell_is (fst (cells x)) c | None => false end.
Definition outward (b : bool) (l : list nat) : list (nat * nat) := if b then hes l else map swap (hes l).
Definition face_edges (cx : bsp) (c f : nat) : list (nat * nat) := outward (first_cell cx c f) (cycle_of cx f).
Definition cell_boundary (cx : bsp) (c : nat) : list (nat * nat) := concat (map (face_edges cx c) (cell_faces cx c)).

(** A right complex: every face is a simple polygon with a cell on its first
    side and at most one other cell; a cell lists exactly its faces, once each; the boundary of
    every cell is closed; every edge is passed in both directions. *)
Record complex (cx : bsp) : Prop := Complex {
  cx_len : length (loops cx) = length (fdata cx);
  cx_loop : forall f l, nth_error (loops cx) f = Some l -> 3 <= length l /\ NoDup l /\ forall v, In v l -> v < nverts cx;
  cx_cells : forall f x, nth_error (fdata cx) f = Some x -> exists a, fst (cells x) = Some a;
  cx_two : forall f, NoDup (face_cells cx f);
  cx_inc : forall c f, In f (cell_faces cx c) <-> In c (face_cells cx f);
  cx_once : forall c, NoDup (cell_faces cx c);
  cx_closed : forall c, balanced (cell_boundary cx c);
  cx_both : forall l u v, In l (loops cx) -> In (u, v) (hes l) -> exists l', In l' (loops cx) /\ In (v, u) (hes l') }.

(** * How a plane cuts a convex face *)

(** A point of the cut: a vertex, or the crossing of the edge from a vertex on
    the negative side to one on the positive side. *)
Inductive point : Type := PV (v : nat) | PX (n p : nat).
Definition all (s : nat -> Orientation) (x : Orientation) (l : list nat) : Prop := forall v, In v l -> s v = x.
Definition turned {A} (l l' : list A) : Prop := exists a b, l = a ++ b /\ l' = b ++ a.
(** [cut_face s l r]: the cycle [l] (seen from outside the cell) meets the plane in the path [r], directed with the
    positive side of the face on its right, or does not bound the positive part ([None]). *)
Inductive cut_face (s : nat -> Orientation) (l : list nat) : option (list point) -> Prop :=
| cut_positive : l <> [] -> all s Positive l -> cut_face s l None
| cut_touch_positive z P : turned l (z :: P) -> P <> [] -> s z = Zero -> all s Positive P -> cut_face s l None
| cut_negative Z N : turned l (Z ++ N) -> N <> [] -> all s Zero Z -> all s Negative N -> cut_face s l None
| cut_side_positive Z P : turned l (Z ++ P) -> 2 <= length Z -> P <> [] -> all s Zero Z -> all s Positive P ->
    cut_face s l (Some (map PV (rev Z)))
| cut_two a P b N x y : turned l (a ++ P ++ b ++ N) -> P <> [] -> N <> [] -> all s Positive P -> all s Negative N ->
    (* before the positive part *)
    (exists z, a = [z] /\ s z = Zero /\ x = PV z) \/ (a = [] /\ x = PX (last N 0) (hd 0 P)) ->
    (* after the positive part *)
    (exists z, b = [z] /\ s z = Zero /\ y = PV z) \/ (b = [] /\ y = PX (hd 0 N) (last P 0)) ->
    cut_face s l (Some [x; y]).

(** The cycle of a face as seen from a cell. *)
Definition cycle_from (cx : bsp) (c f : nat) : list nat :=
  if first_cell cx c f then cycle_of cx f else rev (cycle_of cx f).

(** The paths form one closed polygon without repeated corner. *)
Definition one_polygon (ps : list (list point)) : Prop :=
  NoDup (concat (map (@removelast point) ps)) /\ 3 <= length (concat (map (@removelast point) ps)) /\
  forall p q, In p ps -> In q ps -> clos_refl_trans _ (fun a b => In a ps /\ In b ps /\ last a (PV 0) = hd (PV 0) b) p q.

Fixpoint somes {A} (l : list (option A)) : list A :=
  match l with [] => [] | Some x :: t => x :: somes t | None :: t => somes t end.
(** The plane cuts the cell as it cuts a convex polyhedron: there are vertices
    on both sides, each face is cut as a convex polygon, in one polygon. *)
Definition cuts_cell (s : nat -> Orientation) (cx : bsp) (c : nat) : Prop :=
  (exists f v, In f (cell_faces cx c) /\ In v (cycle_of cx f) /\ s v = Positive) /\
  (exists f v, In f (cell_faces cx c) /\ In v (cycle_of cx f) /\ s v = Negative) /\
  exists rs, Forall2 (fun f r => cut_face s (cycle_from cx c f) r) (cell_faces cx c) rs /\ one_polygon (somes rs).

(** The complex [cx'] is [cx0] with the cell cut: the new cell and the old one lie on the two sides, and share
    a face in the plane. *)
Definition cut_in_two (s : nat -> Orientation) (cid : nat) (cx0 cx' : bsp) : Prop :=
  let s' v := if nverts cx0 <=? v then Zero else s v in
  length (cdata cx') = S (length (cdata cx0)) /\
  (forall f v, In f (cell_faces cx' cid) -> In v (cycle_of cx' f) -> s' v = Negative \/ s' v = Zero) /\
  (forall f v, In f (cell_faces cx' (length (cdata cx0))) -> In v (cycle_of cx' f) -> s' v = Positive \/ s' v = Zero) /\
  exists f, face_cells cx' f = [length (cdata cx0); cid] /\ forall v, In v (cycle_of cx' f) -> s' v = Zero.

(** The faces of [cx'] before the separating one: those of [cx], then one piece for each of the cut faces [P]. *)
Definition parent (cx : bsp) (P : list nat) (g : nat) : nat :=
  if g <? length (fdata cx) then g else nth (g - length (fdata cx)) P 0.
Definition handed (c new : nat) (x : option nat) : option nat :=
  match x with Some a => if Nat.eq_dec a c then Some new else Some a | None => None end.
(** What the cut of cell [c] by the plane of triangle [t] hands on: [cop] are the triangles of the cell in the
    plane, [rest] the others; the new cell is on the positive side. *)
Record parts (o : oracle) (n : nat) (tri : nat -> list nat) (t c : nat) (cop rest : list nat) (cx cx' : bsp) (P : list nat) : Prop := Parts {
  pt_cut : NoDup P /\ forall f, In f P -> In f (cell_faces cx c);
  pt_len : length (fdata cx') = S (length (fdata cx) + length P);
  (** a face and its piece stay in the plane, keep their number and the cell that was not cut *)
  pt_data : forall g, g < length (fdata cx) + length P -> exists x x',
    nth_error (fdata cx) (parent cx P g) = Some x /\ nth_error (fdata cx') g = Some x' /\ plane x' = plane x /\ fid0 x' = fid0 x /\
    (cells x' = cells x \/ cells x' = (handed c (length (cdata cx)) (fst (cells x)), handed c (length (cdata cx)) (snd (cells x))));
  (** the triangles of a face: all, or those that reach to the positive and to the negative side *)
  pt_keep : forall f x x', ~ In f P -> nth_error (fdata cx) f = Some x -> nth_error (fdata cx') f = Some x' -> ftris x' = ftris x;
  pt_tris : forall k f x, nth_error P k = Some f -> nth_error (fdata cx) f = Some x -> exists a b y z,
    (a = f /\ b = length (fdata cx) + k \/ a = length (fdata cx) + k /\ b = f) /\
    nth_error (fdata cx') a = Some y /\ nth_error (fdata cx') b = Some z /\
    In (length (cdata cx)) (face_cells cx' a) /\ In c (face_cells cx' b) /\
    ftris y = filter (fun u => fst (o_tri o t u)) (ftris x) /\ ftris z = filter (fun u => snd (o_tri o t u)) (ftris x);
  (** no old vertex moves to another face, none is lost *)
  pt_verts : forall g v, g < length (fdata cx) + length P -> v < nverts cx -> In v (cycle_of cx' g) -> In v (cycle_of cx (parent cx P g));
  pt_cover : forall f v, In v (cycle_of cx f) -> exists g, g < length (fdata cx) + length P /\ parent cx P g = f /\ In v (cycle_of cx' g);
  (** the separating face has the triangles of the plane that meet it, without the virtual ones *)
  pt_face : exists q poly, loops q = loops cx /\ fdata q = fdata cx /\ nth_error (fdata cx') (length (fdata cx) + length P) =
    Some (BFace (Some (length (cdata cx)), Some c) (filter (fun u => u <? n) (filter (fun u => o_poly o q u poly) cop)) (tri t) (length (fdata cx) + length P));
  (** each part has the triangles that meet it, the other cells keep theirs *)
  pt_inner : exists q, loops q = loops cx' /\ fdata q = fdata cx' /\ map cfaces (cdata q) = map cfaces (cdata cx') /\
    map inner (cdata cx') = upd (map inner (cdata cx)) c (filter (o_cell o q c) rest) ++ [filter (o_cell o q (length (cdata cx))) rest] }.

(** * The run over the cells *)

(** The states of the loop over the cells: complex and index of the cell. *)
Inductive reached (o : oracle) (n : nat) (tri : nat -> list nat) (cx0 : bsp) : bsp -> nat -> Prop :=
| reached_start : reached o n tri cx0 cx0 0
| reached_next cx c d : reached o n tri cx0 cx c -> nth_error (cdata cx) c = Some d -> inner d = [] -> reached o n tri cx0 cx (S c)
| reached_split cx c d cx' : reached o n tri cx0 cx c -> nth_error (cdata cx) c = Some d -> inner d <> [] ->
    split_cell o n tri cx c = Some cx' -> reached o n tri cx0 cx' c.
(** The triangle whose plane cuts the cell: the last one in the plane of the last one; the complex when it is used. *)
Definition chosen (o : oracle) (cx : bsp) (d : bcell) : nat :=
  last (filter (o_coplanar o cx (last (inner d) 0)) (inner d)) 0.
Definition without_coplanar (o : oracle) (cx : bsp) (c : nat) (d : bcell) : bsp :=
  Bsp (nverts cx) (loops cx) (fdata cx)
      (upd (cdata cx) c (BCell (cfaces d) (filter (fun t => negb (o_coplanar o cx (last (inner d) 0) t)) (inner d)))).
(** Every cut of the run is one of a convex cell. *)
Definition regular (o : oracle) (n : nat) (tri : nat -> list nat) (cx0 : bsp) : Prop := forall cx c d,
  reached o n tri cx0 cx c -> nth_error (cdata cx) c = Some d -> inner d <> [] -> cuts_cell (o_side o (without_coplanar o cx c d) (chosen o cx d)) cx c.
(** A number of steps that is enough: 2^(k+1) - 1 for a cell with k triangles. *)
Fixpoint weight (k : nat) : nat := match k with 0 => 1 | S k' => S (2 * weight k') end.
Definition enough (cx : bsp) : nat := S (list_sum (map (fun d => weight (length (inner d))) (cdata cx))).

(** * The surface of the kept cells *)
Definition surface (kept : nat -> bool) (cx : bsp) : list (nat * nat) :=
  concat (map (fun f => match nth_error (fdata cx) f with
                        | Some x => match kept_face kept x with
                                    | Some turn => outward (negb turn) (cycle_of cx f)
                                    | None => []
                                    end
                        | None => []
                        end) (seq 0 (length (loops cx)))).

(** * The complex of a tetrahedral mesh *)

(** The tetrahedra without the ghost vertex, in order. *)
Definition real_tets (m : tetmesh) : list nat :=
  filter (fun t => match nth_error (tets m) t with Some x => negb (nth 3 (data x) 0 =? n_points m) | None => false end)
         (seq 0 (length (tets m))).
(** The vertices are points, or the ghost vertex, which is always the last. *)
Definition ghost_last (m : tetmesh) : Prop := forall t x i p,
  nth_error (tets m) t = Some x -> nth_error (data x) i = Some p -> p <= n_points m /\ (p = n_points m -> i = 3).
(** Five lists of marks for each tetrahedron: one for each face, one for the inside. *)
Definition all_marked (m : tetmesh) (mark : list (list (list nat))) : Prop := forall i t,
  i < 5 -> t < length (tets m) -> exists l, mark_at mark i t = Some l.
Fixpoint increasing (l : list nat) : Prop := match l with [] => True | x :: t => (forall y, In y t -> x < y) /\ increasing t end.
(** [t], [i] is the face of the mesh, opposite to vertex [i] of tetrahedron [t],
    that became the face [f] of the complex. *)
Definition face_of (m : tetmesh) (cx : bsp) (f t i : nat) : Prop :=
  i < 4 /\ exists x c, nth_error (tets m) t = Some x /\ nth_error (real_tets m) c = Some t /\ In f (cell_faces cx c) /\
    forall v, In v (cycle_of cx f) <-> exists j, j <> i /\ nth_error (data x) j = Some v.
