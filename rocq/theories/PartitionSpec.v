(** What the choice of cells pays for: the specification used by Prop_Partition.v.
    A labelling says for every cell whether it is kept; cell number [n_cells] stands
    for the outside. *)
From Coq Require Import List Arith ZArith Bool.
From Verif Require Import Partition.
Import ListNotations.
Local Open Scope Z_scope.

Section Spec.
Context (shell : list nat) (hit pos : nat -> nat -> bool) (n_cells : nat).

(** The triangle of shell [s] that decides about face [fid]: the first one listed
    on the face that meets it. *)
Definition deciding (s fid : nat) (f : cface) : option nat :=
  find (fun t => match nth_error shell t with Some s' => Nat.eqb s' s && hit fid t | None => false end) (ftris f).

(** A face without deciding triangle costs twice its area when it separates kept
    from not kept.  A deciding triangle wants the cell in front of it not kept and
    the cell behind it kept: each inner cell for which this fails costs the area
    of the face. *)
Definition face_cost (s : nat) (lab : nat -> bool) (fid : nat) (f : cface) : Z :=
  let second := match fc1 f with Some c => c | None => n_cells end in
  match deciding s fid f with
  | None => if Bool.eqb (lab (fc0 f)) (lab second) then 0 else 2 * farea f
  | Some t =>
    let front := pos fid t in
    (if Bool.eqb (lab (fc0 f)) front then farea f else 0) +
    match fc1 f with
    | Some c => if Bool.eqb (lab c) front then 0 else farea f
    | None => 0
    end
  end.

Fixpoint faces_cost (s : nat) (lab : nat -> bool) (fid : nat) (fs : list cface) : Z :=
  match fs with [] => 0 | f :: fs' => face_cost s lab fid f + faces_cost s lab (S fid) fs' end.
Fixpoint total_area (fs : list cface) : Z := match fs with [] => 0 | f :: fs' => farea f + total_area fs' end.

(** Keeping the outside costs twice the area of all faces. *)
Definition labelling_cost (s : nat) (fs : list cface) (lab : nat -> bool) : Z :=
  faces_cost s lab 0 fs + (if lab n_cells then 2 * total_area fs else 0).

(** Cells in range and different, triangles known, areas not negative. *)
Definition face_ok (f : cface) : Prop :=
  (fc0 f < n_cells)%nat /\ (forall c, fc1 f = Some c -> (c < n_cells)%nat /\ c <> fc0 f) /\
  (forall t, In t (ftris f) -> (t < length shell)%nat) /\ 0 <= farea f.

(** The cells whose label a labelling of cost 0 has no choice about, when areas
    are positive: the outside, the cells of the faces with a deciding triangle, and
    the cells linked to such a cell by faces without one. *)
Inductive settled (s : nat) (fs : list cface) : nat -> Prop :=
| se_outside : settled s fs n_cells
| se_first k f t : nth_error fs k = Some f -> deciding s k f = Some t -> settled s fs (fc0 f)
| se_second k f t c : nth_error fs k = Some f -> deciding s k f = Some t -> fc1 f = Some c -> settled s fs c
| se_back k f : nth_error fs k = Some f -> deciding s k f = None ->
    settled s fs (match fc1 f with Some c => c | None => n_cells end) -> settled s fs (fc0 f)
| se_forth k f c : nth_error fs k = Some f -> deciding s k f = None -> fc1 f = Some c ->
    settled s fs (fc0 f) -> settled s fs c.
End Spec.

(** The sign of a face: -1 if only its first cell is kept, 1 if only its second one is. *)
Definition face_sign (n_cells : nat) (kept : nat -> bool) (f : cface) : Z :=
  match kept (fc0 f), kept (match fc1 f with Some c => c | None => n_cells end) with
  | true, false => -1
  | false, true => 1
  | _, _ => 0
  end.

(** The nodes of the graph: the source, the cells, the outside, the sink. *)
Definition on_nodes (n_cells : nat) (lab : nat -> bool) (v : nat) : bool :=
  match v with O => true | S i => if (i <=? n_cells)%nat then lab i else false end.
