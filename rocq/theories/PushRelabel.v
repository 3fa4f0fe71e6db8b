(** Model of src/graphcut/push_relabel_fifo.rs (FIFO push-relabel) and of
    ArcBuilder in src/graphcut/mod.rs.  Line numbers without a file name refer
    to push_relabel_fifo.rs.

    Simplifications: the capacity type is the exact type [Z] (the code is
    generic and is used with f64; finitely many binary fractions become
    integers after scaling by a power of two, which commutes with every
    operation of the algorithm).  The statistics counters [n_pushes],
    [n_relabels] and [n_global_relabels] are dropped; nothing reads them.
    [dist_queue] is local to [global_relabel].  [None] models a panic (index
    out of bounds, usize underflow) or running out of fuel; the theorems
    exclude both. *)
From Coq Require Import List Arith ZArith Bool.
From Verif Require Import Lib.
Import ListNotations.
Open Scope opt_scope.

(** Lines 15-21. *)
Record arc := Arc { dist : nat; rev : nat; cap : Z }.
Definition network := list (list arc).

(** Lines 39-52; [label] and [excess] are the two fields of [vertices]
    (lines 9-13).  [source] is 0, [sink] is n-1 and [not_reached] is n, as set
    at lines 207-208 and 212, with n the number of nodes. *)
Record pr := PR {
  net : network;
  label : list nat;
  excess : list Z;
  queue : list nat;
  progress : nat;
  threshold : nat }.

Definition nn (s : pr) : nat := length (net s).
Definition sink (s : pr) : nat := nn s - 1.

Definition arc_at (g : network) (v i : nat) : option arc :=
  r <- nth_error g v ;; nth_error r i.

(** [residual_network[v][i].capacity = c] *)
Definition set_cap (g : network) (v i : nat) (c : Z) : option network :=
  r <- nth_error g v ;;
  a <- nth_error r i ;;
  set g v (upd r i (Arc (dist a) (rev a) c)).

(** [residual_network[v][i].capacity += c] *)
Definition add_cap (g : network) (v i : nat) (c : Z) : option network :=
  a <- arc_at g v i ;;
  set_cap g v i (cap a + c)%Z.

(** Lines 36-37. *)
Definition ALPHA : nat := 6.
Definition BETA : nat := 12.

(** Lines 58-69: the loop of [init] over the arc indices of the source. *)
Fixpoint init_loop (is : list nat) (g : network) (ex : list Z)
  : option (network * list Z) :=
  match is with
  | [] => Some (g, ex)
  | i :: is' =>
      a <- arc_at g 0 i ;;
      if (0 <? cap a)%Z then
        ex' <- set ex (dist a) (cap a) ;;
        g1 <- add_cap g (dist a) (rev a) (cap a) ;;
        g2 <- set_cap g1 0 i 0%Z ;;
        init_loop is' g2 ex'
      else init_loop is' g ex
  end.

(** Lines 58-71. *)
Definition init (s : pr) : option pr :=
  row <- nth_error (net s) 0 ;;
  '(g, ex) <- init_loop (seq 0 (length row)) (net s) (excess s) ;;
  let sum := list_sum (map (@length arc) g) in
  Some (PR g (label s) ex (queue s) (progress s) (sum / 2 + length g * ALPHA)).

(** Lines 86-97: the arcs of [v], scanned at distance [d]; the accumulators
    are the labels, the distance queue (from the front) and the queue. *)
Fixpoint bfs_scan (g : network) (ex : list Z) (arcs : list arc) (d : nat)
    (lab : list nat) (dq : list (nat * nat)) (q : list nat)
  : option (list nat * list (nat * nat) * list nat) :=
  match arcs with
  | [] => Some (lab, dq, q)
  | a :: arcs' =>
      b <- arc_at g (dist a) (rev a) ;;
      l <- nth_error lab (dist a) ;;
      if (0 <? cap b)%Z && (l =? length g) then
        lab' <- set lab (dist a) (d + 1) ;;
        e <- nth_error ex (dist a) ;;
        bfs_scan g ex arcs' d lab' (dq ++ [(dist a, d + 1)])
          (if (0 <? e)%Z then q ++ [dist a] else q)
      else bfs_scan g ex arcs' d lab dq q
  end.

(** Lines 84-98: the breadth-first search. *)
Fixpoint bfs (fuel : nat) (g : network) (ex : list Z)
    (lab : list nat) (dq : list (nat * nat)) (q : list nat)
  : option (list nat * list nat) :=
  match dq with
  | [] => Some (lab, q)
  | (v, d) :: dq' =>
      match fuel with
      | 0 => None
      | S fuel' =>
          row <- nth_error g v ;;
          '(lab', dq'', q') <- bfs_scan g ex row d lab dq' q ;;
          bfs fuel' g ex lab' dq'' q'
      end
  end.

(** Lines 73-99. *)
Definition global_relabel (s : pr) : option pr :=
  let n := nn s in
  lab <- set (repeat n (length (label s))) (sink s) 0 ;;
  '(lab', q) <- bfs (S n) (net s) (excess s) lab [(sink s, 0)] [] ;;
  Some (PR (net s) lab' (excess s) q (progress s) (threshold s)).

(** Lines 113-137: the loop of [push] over the arc indices of [v]. *)
Fixpoint push_loop (is : list nat) (v target : nat) (s : pr) : option (pr * bool) :=
  match is with
  | [] => Some (s, false)
  | i :: is' =>
      a <- arc_at (net s) v i ;;
      l <- nth_error (label s) (dist a) ;;
      if (0 <? cap a)%Z && (l =? target) then
        ev <- nth_error (excess s) v ;;
        let delta := if (cap a <? ev)%Z then cap a else ev in
        ew <- nth_error (excess s) (dist a) ;;
        let q := if (ew =? 0)%Z && negb (dist a =? sink s) then queue s ++ [dist a] else queue s in
        ex1 <- set (excess s) v (ev - delta)%Z ;;
        ew' <- nth_error ex1 (dist a) ;;
        ex2 <- set ex1 (dist a) (ew' + delta)%Z ;;
        g1 <- set_cap (net s) v i (cap a - delta)%Z ;;
        g2 <- add_cap g1 (dist a) (rev a) delta ;;
        ev' <- nth_error ex2 v ;;
        let s' := PR g2 (label s) ex2 q (progress s) (threshold s) in
        if (ev' =? 0)%Z then Some (s', true) else push_loop is' v target s'
      else push_loop is' v target s
  end.

(** Lines 111-138; [label - 1] underflows for label 0. *)
Definition push (s : pr) (v lab : nat) : option (pr * bool) :=
  match lab with
  | 0 => None
  | S t =>
      row <- nth_error (net s) v ;;
      push_loop (seq 0 (length row)) v t s
  end.

(** Lines 148-156. *)
Fixpoint min_label (arcs : list arc) (lab : list nat) (m : nat) : option nat :=
  match arcs with
  | [] => Some m
  | a :: arcs' =>
      if (0 <? cap a)%Z then
        l <- nth_error lab (dist a) ;;
        min_label arcs' lab (Nat.min m l)
      else min_label arcs' lab m
  end.

Definition calc_new_label (s : pr) (v : nat) : option nat :=
  match nn s with
  | 0 => None
  | S m0 =>
      row <- nth_error (net s) v ;;
      m <- min_label row (label s) m0 ;;
      Some (m + 1)
  end.

(** Lines 140-146. *)
Definition relabel (s : pr) (v : nat) : option (pr * nat) :=
  l <- calc_new_label s v ;;
  lab <- set (label s) v l ;;
  Some (PR (net s) lab (excess s) (queue s) (progress s + BETA) (threshold s), l).

(** Lines 101-109: the loop; [lab] is the local variable [label]. *)
Fixpoint discharge_loop (fuel : nat) (s : pr) (v lab : nat) : option pr :=
  if lab <? nn s then
    match fuel with
    | 0 => None
    | S fuel' =>
        '(s1, done) <- push s v lab ;;
        if (done : bool) then Some s1 else
        '(s2, l) <- relabel s1 v ;;
        discharge_loop fuel' s2 v l
    end
  else Some s.

Definition discharge (s : pr) (v : nat) : option pr :=
  l <- nth_error (label s) v ;;
  discharge_loop (S (nn s)) s v l.

(** Lines 222-229: one round of the main loop, for a non-empty queue. *)
Definition round (s : pr) (v : nat) (q : list nat) : option pr :=
  s1 <- discharge (PR (net s) (label s) (excess s) q (progress s) (threshold s)) v ;;
  if threshold s1 * 2 <=? progress s1 then
    global_relabel (PR (net s1) (label s1) (excess s1) (queue s1) 0 (threshold s1))
  else Some s1.

Fixpoint main_loop (fuel : nat) (s : pr) : option pr :=
  match queue s with
  | [] => Some s
  | v :: q =>
      match fuel with
      | 0 => None
      | S fuel' => s' <- round s v q ;; main_loop fuel' s'
      end
  end.

(** Lines 220-230. *)
Definition find_max_flow (fuel : nat) (s : pr) : option pr :=
  s0 <- global_relabel s ;; main_loop fuel s0.

(** Lines 233-235. *)
Definition is_sink (s : pr) (i : nat) : option bool :=
  l <- nth_error (label s) i ;; Some (negb (l =? nn s)).

(** ** Construction (lines 158-217) *)

(** The arcs given to [from]: (from, to, capacity). *)
Notation arc_in := (nat * nat * Z)%type.

(** [edge_map]: one hash map per node, here an association list. *)
Definition emap := list (list (nat * nat)).

Fixpoint assoc (k : nat) (m : list (nat * nat)) : option nat :=
  match m with
  | [] => None
  | (k', v) :: m' => if k =? k' then Some v else assoc k m'
  end.

Definition add_edge_cap (es : list (nat * Z)) (i : nat) (c : Z) : option (list (nat * Z)) :=
  '(w, c0) <- nth_error es i ;; set es i (w, (c0 + c)%Z).

(** Lines 168-180: the loop that merges parallel and opposite arcs. *)
Fixpoint merge_arcs (arcs : list arc_in) (es : list (nat * Z)) (em : emap)
  : option (list (nat * Z) * emap) :=
  match arcs with
  | [] => Some (es, em)
  | (f, t, c) :: arcs' =>
      mf <- nth_error em f ;;
      match assoc t mf with
      | Some id =>
          es' <- add_edge_cap es id c ;;
          merge_arcs arcs' es' em
      | None =>
          mt <- nth_error em t ;;
          match assoc f mt with
          | Some id =>
              es' <- add_edge_cap es (id + 1) c ;;
              merge_arcs arcs' es' em
          | None =>
              em' <- set em f ((t, length es) :: mf) ;;
              merge_arcs arcs' (es ++ [(t, c); (f, 0%Z)]) em'
          end
      end
  end.

(** Lines 183-190: the loop over [edges.chunks(2)].  [push] on the row of a
    node appends; the two row lengths are read before either push. *)
Fixpoint build_net (es : list (nat * Z)) (g : network) : option network :=
  match es with
  | ea :: eb :: es' =>
      ra <- nth_error g (fst eb) ;;
      rb <- nth_error g (fst ea) ;;
      let ea_idx := length ra in
      let eb_idx := length rb in
      g1 <- set g (fst eb) (ra ++ [Arc (fst ea) eb_idx (snd ea)]) ;;
      rb' <- nth_error g1 (fst ea) ;;
      g2 <- set g1 (fst ea) (rb' ++ [Arc (fst eb) ea_idx (snd eb)]) ;;
      build_net es' g2
  | _ => Some g
  end.

(** Lines 163-216; [n_nodes - 1] underflows for 0 nodes. *)
Definition from (arcs : list arc_in) (n : nat) : option pr :=
  '(es, _) <- merge_arcs arcs [] (repeat [] n) ;;
  g <- build_net es (repeat [] n) ;;
  match n with
  | 0 => None
  | _ => init (PR g (repeat 0 n) (repeat 0%Z n) [] 0 0)
  end.

(** ** ArcBuilder (src/graphcut/mod.rs:525-550) *)
Fixpoint enum_from {A} (i : nat) (l : list A) : list (nat * A) :=
  match l with
  | [] => []
  | x :: l' => (i, x) :: enum_from (S i) l'
  end.

(** mod.rs:530-540 *)
Definition arc_builder_new (source_caps sink_caps : list Z) : list arc_in :=
  let snk := length source_caps + 1 in
  map (fun p => (0, fst p + 1, snd p)) (enum_from 0 source_caps) ++
  map (fun p => (fst p + 1, snk, snd p)) (enum_from 0 sink_caps).

(** mod.rs:542-549 *)
Definition add_arc (arcs : list arc_in) (f t : nat) (c : Z) (r : bool) : list arc_in :=
  arcs ++ [(f + 1, t + 1, c)] ++ (if r then [(t + 1, f + 1, c)] else []).
