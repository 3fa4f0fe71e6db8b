(** Model of the neighbour iterators of a vertex: VNeiState, VNeiIterImpl,
    VVIter and VEIter (src/mesh/element/vertex.rs:110-261). *)
From Coq Require Import List Arith Bool.
From Verif Require Import Lib Mesh.
Import ListNotations.
Local Open Scope opt_scope.

(** VNeiState (vertex.rs:110-114) together with [first_he] of the iterator. *)
Record nei : Type := Nei { nei_he : nat; nei_in : bool; nei_first : nat }.

(** vertex.rs:121-129; use_implicit_twin is constantly false. *)
Definition canonical (m : mesh) (h : nat) : option bool :=
  e <- rd (he_edge m) h ;; c <- rd (e_he m) e ;; Some (h =? c).

(** vertex.rs:131-152 *)
Definition nei_next (m : mesh) (s : nei) : option nei :=
  if nei_in s then
    h <- rd (in_next m) (nei_he s) ;;
    if h =? nei_first s then h' <- rd (he_next m) h ;; Some (Nei h' false h')
    else Some (Nei h true (nei_first s))
  else
    h <- rd (out_next m) (nei_he s) ;;
    if h =? nei_first s then h' <- he_prev m h ;; Some (Nei h' true h')
    else Some (Nei h false (nei_first s)).

(** vertex.rs:164-179: VNeiIterImpl::new. *)
Fixpoint nei_seek (m : mesh) (s : nei) (fuel : nat) : option nei :=
  match fuel with
  | 0 => None
  | S k =>
    b <- canonical m (nei_he s) ;;
    if b then Some (Nei (nei_he s) (nei_in s) (nei_he s)) else s' <- nei_next m s ;; nei_seek m s' k
  end.
Definition nei_new (m : mesh) (v : nat) : option nei :=
  h <- rd (v_he m) v ;; nei_seek m (Nei h false h) (2 * n_h m + 2).

(** [curr == start] (derived PartialEq of VNeiState). *)
Definition nei_same (a b : nei) : bool := (nei_he a =? nei_he b) && Bool.eqb (nei_in a) (nei_in b).

(** All states the iterator yields an item for: iter_next (element/mod.rs:48-60)
    called until it returns None, the two loops flattened into one.  The
    starting state comes first. *)
Fixpoint nei_walk (m : mesh) (start s : nei) (fuel : nat) : option (list nei) :=
  match fuel with
  | 0 => None
  | S k =>
    s' <- nei_next m s ;;
    if nei_same s' start then Some [] else
    b <- canonical m (nei_he s') ;;
    r <- nei_walk m start s' k ;;
    Some (if b then s' :: r else r)
  end.
Definition nei_states (m : mesh) (v : nat) : option (list nei) :=
  s <- nei_new m v ;; r <- nei_walk m s s (2 * n_h m + 2) ;; Some (s :: r).

(** VEIter::item (vertex.rs:228-231) and VVIter::item (vertex.rs:188-195). *)
Definition vertex_edges (m : mesh) (v : nat) : option (list nat) :=
  l <- nei_states m v ;; omap (fun s => rd (he_edge m) (nei_he s)) l.
Definition vertex_vertices (m : mesh) (v : nat) : option (list nat) :=
  l <- nei_states m v ;;
  omap (fun s => if nei_in s then rd (he_vert m) (nei_he s) else tip m (nei_he s)) l.
