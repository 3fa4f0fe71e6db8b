(** Model of src/disjoint_set/mod.rs (lines 1-56): union-find with union by
    rank and path compression. *)
From Coq Require Import List Arith.
From Verif Require Import Lib.
Import ListNotations.
Open Scope opt_scope.

(** mod.rs lines 3-7: struct DisjointSet. *)
Record ds := mk_ds { parent : list nat; rank : list nat; n_groups : nat }.

(** mod.rs lines 10-16: DisjointSet::new. *)
Definition ds_new (n : nat) : ds :=
  {| parent := seq 0 n; rank := repeat 0 n; n_groups := n |}.

(** mod.rs lines 18-32: link.  [None] models an out-of-bounds panic or the
    underflow of [n_groups -= 1]. *)
Definition link (s : ds) (x y : nat) : option ds :=
  if x =? y then Some s else
  rx <- nth_error (rank s) x ;;
  ry <- nth_error (rank s) y ;;
  if ry <? rx then
    p <- set (parent s) y x ;;
    match n_groups s with
    | 0 => None
    | S g => Some {| parent := p; rank := rank s; n_groups := g |}
    end
  else
    p <- set (parent s) x y ;;
    r <- (if rx =? ry then set (rank s) y (ry + 1) else Some (rank s)) ;;
    match n_groups s with
    | 0 => None
    | S g => Some {| parent := p; rank := r; n_groups := g |}
    end.

(** mod.rs lines 41-46: find_set, the recursion with path compression on the
    parent vector.  The recursion depth is bounded by [fuel]; running out of
    fuel (never the case, see the theorem ds_total) is [None]. *)
Fixpoint find_rec (fuel : nat) (p : list nat) (x : nat) : option (list nat * nat) :=
  match fuel with
  | 0 => None
  | S fuel' =>
      px <- nth_error p x ;;
      if x =? px then Some (p, px) else
      '(p', r) <- find_rec fuel' p px ;;
      p'' <- set p' x r ;;
      Some (p'', r)
  end.

Definition find_set (s : ds) (x : nat) : option (ds * nat) :=
  '(p, r) <- find_rec (S (length (parent s))) (parent s) x ;;
  Some ({| parent := p; rank := rank s; n_groups := n_groups s |}, r).

(** mod.rs lines 35-39: merge. *)
Definition merge (s : ds) (x y : nat) : option ds :=
  '(s1, rx) <- find_set s x ;;
  '(s2, ry) <- find_set s1 y ;;
  link s2 rx ry.

(** The result map of [output] (a hashbrown::HashMap with unspecified
    iteration order) is modelled by an association list with at most one
    entry per key; [push_entry] is [entry(k).or_insert(vec![]).push(v)]. *)
Fixpoint push_entry (m : list (nat * list nat)) (k v : nat) : list (nat * list nat) :=
  match m with
  | [] => [(k, [v])]
  | (k', g) :: m' => if k' =? k then (k', g ++ [v]) :: m' else (k', g) :: push_entry m' k v
  end.

(** mod.rs lines 48-55: output, the loop over the indices [is]. *)
Fixpoint output_loop (is : list nat) (s : ds) (m : list (nat * list nat))
  : option (ds * list (nat * list nat)) :=
  match is with
  | [] => Some (s, m)
  | i :: is' =>
      '(s', p) <- find_set s i ;;
      output_loop is' s' (push_entry m p i)
  end.

Definition output (s : ds) : option (ds * list (nat * list nat)) :=
  output_loop (seq 0 (length (parent s))) s [].

(** A client history: any interleaving of the public operations. *)
Inductive op := Merge (x y : nat) | Output.

Definition step (s : ds) (o : op) : option ds :=
  match o with
  | Merge x y => merge s x y
  | Output => '(s', _) <- output s ;; Some s'
  end.

Fixpoint run_from (s : ds) (os : list op) : option ds :=
  match os with
  | [] => Some s
  | o :: os' => s' <- step s o ;; run_from s' os'
  end.

Definition run (n : nat) (os : list op) : option ds := run_from (ds_new n) os.
