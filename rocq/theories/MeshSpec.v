(** Vocabulary for the statements about the half-edge mesh. *)
From Coq Require Import List Arith Bool.
From Verif Require Import Mesh.
Import ListNotations.

(** [path f a t z]: stepping with [f] from [a] goes through [t] and then
    to [z]. *)
Fixpoint path (f : nat -> option nat) (a : nat) (t : list nat) (z : nat) : Prop :=
  match t with
  | [] => f a = Some z
  | b :: t' => f a = Some b /\ path f b t' z
  end.
(** Stepping with [f] goes around the list [l] and back to its head. *)
Definition linked (f : nat -> option nat) (l : list nat) : Prop :=
  match l with [] => True | a :: t => path f a t a end.

(** [l] lists the elements of [S] once each, in the cyclic order given by [f]. *)
Definition cycle (f : nat -> option nat) (S : nat -> Prop) (l : list nat) : Prop :=
  l <> [] /\ NoDup l /\ linked f l /\ forall h, In h l <-> S h.

(** [h] goes from [a] to [b]. *)
Definition goes (m : mesh) (h a b : nat) : Prop :=
  rd (he_vert m) h = Some a /\ tip m h = Some b.
(** [h] joins [a] and [b] in one of the two directions. *)
Definition joins (m : mesh) (h a b : nat) : Prop := goes m h a b \/ goes m h b a.

(** A well-formed mesh: the vectors have the right lengths, every halfedge has
    a start vertex, an edge and a face; the halfedges of a face, of an edge,
    those leaving a vertex and those entering a vertex each form one cycle of
    the respective vector; and the halfedges of an edge join the same two
    vertices.  A vertex without halfedge has no entry in [v_he]. *)
Record well_formed (m : mesh) : Prop := WF {
  wf_counts : n_v m = length (v_he m) /\ n_f m = length (f_he m) /\ n_e m = length (e_he m) /\
              n_h m = length (he_next m);
  wf_lengths : length (he_vert m) = n_h m /\ length (he_edge m) = n_h m /\
               length (he_face m) = n_h m /\ length (in_next m) = n_h m /\
               length (out_next m) = n_h m /\ length (sib m) = n_h m;
  wf_vert : forall h, h < n_h m -> exists v, v < n_v m /\ rd (he_vert m) h = Some v;
  wf_hedge : forall h, h < n_h m -> exists e, e < n_e m /\ rd (he_edge m) h = Some e;
  wf_hface : forall h, h < n_h m -> exists f, f < n_f m /\ rd (he_face m) h = Some f;
  wf_face : forall f, f < n_f m ->
    (exists h, rd (f_he m) f = Some h /\ rd (he_face m) h = Some f) /\
    exists l, cycle (rd (he_next m)) (fun h => rd (he_face m) h = Some f) l;
  wf_edge : forall e, e < n_e m ->
    (exists h, rd (e_he m) e = Some h /\ rd (he_edge m) h = Some e) /\
    exists l, cycle (rd (sib m)) (fun h => rd (he_edge m) h = Some e) l;
  wf_ends : forall e, e < n_e m -> exists a b,
    forall h, rd (he_edge m) h = Some e -> joins m h a b;
  wf_vertex : forall v, v < n_v m ->
    (rd (v_he m) v = None /\ forall h, rd (he_vert m) h <> Some v) \/
    (exists h, rd (v_he m) v = Some h /\ rd (he_vert m) h = Some v) /\
    (exists l, cycle (rd (out_next m)) (fun h => rd (he_vert m) h = Some v) l) /\
    (exists l, cycle (rd (in_next m)) (fun h => tip m h = Some v) l) }.
