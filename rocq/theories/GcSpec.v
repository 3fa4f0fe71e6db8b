(** GraphCut: what is to be proved, without the model's own notions. *)
From Coq Require Import ZArith List Bool.
Import ListNotations.
Local Open Scope Z_scope.

Definition zsum (l : list Z) : Z := fold_right Z.add 0 l.
(** The cut that puts the nodes with [x v = true] on the side of the source:
    a node on the other side pays the capacity of its arc from the source, a
    node on this side that of its arc to the sink, and an edge pays in the
    direction in which it leaves this side. *)
Definition edge_cost (x : nat -> bool) (e : nat * nat * Z * Z) : Z :=
  let '(i, j, cap, rev_cap) := e in
  (if x i && negb (x j) then cap else 0) + (if x j && negb (x i) then rev_cap else 0).
Definition cut_cost (src snk : list Z) (edges : list (nat * nat * Z * Z)) (x : nat -> bool) : Z :=
  zsum (map (fun v => if x v then nth v snk 0 else nth v src 0) (seq 0 (length src))) +
  zsum (map (edge_cost x) edges).
(** A graph the callers may build: as many capacities to the sink, edges
    between nodes and with capacities that are not negative. *)
Definition valid_graph (src snk : list Z) (edges : list (nat * nat * Z * Z)) : Prop :=
  length snk = length src /\
  Forall (fun e => let '(i, j, cap, rev_cap) := e in (i < length src)%nat /\ (j < length src)%nat /\ 0 <= cap /\ 0 <= rev_cap) edges.
