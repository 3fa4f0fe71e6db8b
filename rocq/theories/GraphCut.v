(** GraphCut, the augmenting-path minimum cut of graphcut/mod.rs.

    Capacities are exact integers ([Z]) where the code has f64.  A vector
    indexed by nodes or arcs is a function on indices; its length is [n_nodes]
    or [n_arcs], and the invariants proved in Gc*.v keep every
    index used below it.  The sentinel INVALID_IND is [None] (or [PNone] for a
    parent, [None] for the distance "not connected"), TERMINAL and ORPHAN are
    [PTerm] and [POrphan].  The fields of the Rust struct are grouped into
    records; loops carry fuel, and [None] as a result stands for running out
    of it or for an index that is a sentinel (a panic). *)
From Coq Require Import ZArith List Bool Arith.
From Verif Require Import Lib.
Import ListNotations.
Local Open Scope opt_scope.

Definition fupd {A} (f : nat -> A) (i : nat) (v : A) : nat -> A := fun j => if Nat.eqb j i then v else f j.

(** mod.rs:38-39 and the uses of [parent] *)
Inductive par := PNone | PTerm | POrphan | PArc (a : nat).
Definition is_none (p : par) : bool := match p with PNone => true | _ => false end.

(** mod.rs:7-36 [Arc] without r_cap, and [first_arc]: only [add_edge] writes these. *)
Record graph := Graph {
  n_nodes : nat; n_arcs : nat;
  head : nat -> nat; anext : nat -> option nat; sister : nat -> nat;
  first_arc : nat -> option nat }.
(** The search trees: [is_sink], [parent], [ts], [dist]. *)
Record tree := Tree { is_sink : nat -> bool; parent : nat -> par; ts : nat -> nat; dist : nat -> nat }.
(** The active nodes: [next], [queue_first], [queue_last]. *)
Record actives := Actives { next : nat -> option nat; qfirst0 : option nat; qlast0 : option nat; qfirst1 : option nat; qlast1 : option nat }.
(** The orphans: [next_orphan], [orphan_first], [orphan_last]. *)
Record orphans := Orphans { next_orphan : nat -> option nat; ofirst : option nat; olast : option nat }.
(** mod.rs:41-65 [GraphCut]; [r_cap] is that of the arcs. *)
Record gc := GC { gr : graph; r_cap : nat -> Z; tr_cap : nat -> Z; flow : Z; tr : tree; act : actives; orp : orphans; time : nat }.

(** mod.rs:110-122 *)
Definition set_active (q : actives) (i : nat) : actives :=
  match next q i with
  | Some _ => q
  | None =>
    match qlast1 q with
    | None => Actives (fupd (next q) i (Some i)) (qfirst0 q) (qlast0 q) (Some i) (Some i)
    | Some l => Actives (fupd (fupd (next q) l (Some i)) i (Some i)) (qfirst0 q) (qlast0 q) (qfirst1 q) (Some i)
    end
  end.

(** mod.rs:124-148; [fuel] bounds the rounds of the loop. *)
Fixpoint next_active (fuel : nat) (p : nat -> par) (q : actives) : option (actives * option nat) :=
  match fuel with
  | O => None
  | S fuel =>
    let q := match qfirst0 q with
             | Some _ => q
             | None => Actives (next q) (qfirst1 q) (qlast1 q) None None
             end in
    match qfirst0 q with
    | None => Some (q, None)
    | Some i =>
      let nx := fupd (next q) i None in
      let q := if match next q i with Some j => Nat.eqb j i | None => false end
               then Actives nx None None (qfirst1 q) (qlast1 q)
               else Actives nx (next q i) (qlast0 q) (qfirst1 q) (qlast1 q) in
      if is_none (p i) then next_active fuel p q else Some (q, Some i)
    end
  end.

(** mod.rs:66-108 [new]; [None] when [sink_cap] is shorter (index panic). *)
Fixpoint activate_all (is : list nat) (trc : nat -> Z) (t : tree) (q : actives) : tree * actives :=
  match is with
  | [] => (t, q)
  | i :: is =>
    let t := Tree (fupd (is_sink t) i (Z.ltb (trc i) 0)) (parent t) (ts t) (dist t) in
    if Z.eqb (trc i) 0
    then activate_all is trc (Tree (is_sink t) (fupd (parent t) i PNone) (ts t) (dist t)) q
    else activate_all is trc t (set_active q i)
  end.
Definition new (source_cap sink_cap : list Z) : option gc :=
  let n := length source_cap in
  if Nat.ltb (length sink_cap) n then None else
  let both := combine source_cap sink_cap in
  let fl := fold_left (fun f p => Z.add f (if Z.ltb (fst p) (snd p) then fst p else snd p)) both 0%Z in
  let trc := fun i => nth i (map (fun p => Z.sub (fst p) (snd p)) both) 0%Z in
  let '(t, q) := activate_all (seq 0 n) trc (Tree (fun _ => false) (fun _ => PTerm) (fun _ => 0) (fun _ => 1))
                   (Actives (fun _ => None) None None None None) in
  Some (GC (Graph n 0 (fun _ => 0) (fun _ => None) (fun _ => 0) (fun _ => None))
           (fun _ => 0%Z) trc fl t q (Orphans (fun _ => None) None None) 0).

(** mod.rs:170-180 *)
Definition add_edge (s : gc) (i j : nat) (cap rev_cap : Z) : gc :=
  let g := gr s in
  let a := n_arcs g in
  let b := S a in
  let f1 := fupd (first_arc g) i (Some a) in
  GC (Graph (n_nodes g) (S b) (fupd (fupd (head g) a j) b i)
        (fupd (fupd (anext g) a (first_arc g i)) b (f1 j))
        (fupd (fupd (sister g) a b) b a) (fupd f1 j (Some b)))
     (fupd (fupd (r_cap s) a cap) b rev_cap) (tr_cap s) (flow s) (tr s) (act s) (orp s) (time s).

(** The arcs met by [a = first_arc[i]; while a != INVALID_IND { ..; a = arcs[a].next }]
    (none of the loops changes these links); a list has at most [n_arcs] arcs. *)
Fixpoint follow (fuel : nat) (g : graph) (a : option nat) : list nat :=
  match fuel, a with
  | S fuel, Some a => a :: follow fuel g (anext g a)
  | _, _ => []
  end.
Definition out_arcs (g : graph) (i : nat) : list nat := follow (n_arcs g) g (first_arc g i).

(** mod.rs:150-168 *)
Definition set_orphan_front (p : nat -> par) (o : orphans) (i : nat) : (nat -> par) * orphans :=
  (fupd p i POrphan, Orphans (fupd (next_orphan o) i (ofirst o)) (Some i) (olast o)).
Definition set_orphan_rear (p : nat -> par) (o : orphans) (i : nat) : (nat -> par) * orphans :=
  let p := fupd p i POrphan in
  match olast o with
  | Some l => (p, Orphans (fupd (fupd (next_orphan o) l (Some i)) i None) (ofirst o) (Some i))
  | None => (p, Orphans (fupd (next_orphan o) i None) (Some i) (Some i))
  end.

(** process_source_orphan (mod.rs:182-258) and process_sink_orphan
    (mod.rs:260-338) are the same but for the tree ([side]: is it the sink's)
    and the arc whose residual capacity is tested: from the neighbour for the
    source, to the neighbour for the sink. *)
Definition side_cap (side : bool) (g : graph) (r : nat -> Z) (a : nat) : Z := if side then r a else r (sister g a).

(** mod.rs:195-216 and 274-295: [Some None] when the walk meets an orphan. *)
Fixpoint origin (fuel : nat) (g : graph) (t : tree) (now : nat) (j d : nat) : option (tree * option nat) :=
  match fuel with
  | O => None
  | S fuel =>
    if Nat.eqb (ts t j) now then Some (t, Some (d + dist t j))
    else match parent t j with
         | PTerm => Some (Tree (is_sink t) (parent t) (fupd (ts t) j now) (fupd (dist t) j 1), Some (S d))
         | POrphan => Some (t, None)
         | PArc a => origin fuel g t now (head g a) (S d)
         | PNone => None
         end
  end.
(** mod.rs:223-232 and 302-312 *)
Fixpoint mark (fuel : nat) (g : graph) (t : tree) (now : nat) (j d : nat) : option tree :=
  match fuel with
  | O => None
  | S fuel =>
    if Nat.eqb (ts t j) now then Some t
    else match parent t j with
         | PArc a => mark fuel g (Tree (is_sink t) (parent t) (fupd (ts t) j now) (fupd (dist t) j d)) now (head g a) (d - 1)
         | _ => None
         end
  end.
(** mod.rs:185-235 and 264-315: the loop over the arcs of the orphan; [best]
    is [a0_min] with [d_min]. *)
Fixpoint find_parent (side : bool) (g : graph) (r : nat -> Z) (now : nat) (as_ : list nat) (t : tree) (best : option (nat * nat))
  : option (tree * option (nat * nat)) :=
  match as_ with
  | [] => Some (t, best)
  | a0 :: as_ =>
    if Z.eqb (side_cap side g r a0) 0 then find_parent side g r now as_ t best
    else
      let j := head g a0 in
      if negb (Bool.eqb (is_sink t j) side) || is_none (parent t j) then find_parent side g r now as_ t best
      else
        '(t, od) <- origin (S (n_nodes g)) g t now j 0 ;;
        match od with
        | None => find_parent side g r now as_ t best
        | Some d =>
          let best := match best with
                      | Some (_, d_min) => if Nat.ltb d d_min then Some (a0, d) else best
                      | None => Some (a0, d)
                      end in
          t <- mark (S (n_nodes g)) g t now j d ;;
          find_parent side g r now as_ t best
        end
  end.
(** mod.rs:242-256 and 322-336 *)
Fixpoint release (side : bool) (g : graph) (r : nat -> Z) (i : nat) (as_ : list nat) (t : tree) (q : actives) (o : orphans)
  : tree * actives * orphans :=
  match as_ with
  | [] => (t, q, o)
  | a0 :: as_ =>
    let j := head g a0 in
    if Bool.eqb (is_sink t j) side && negb (is_none (parent t j)) then
      let q := if Z.eqb (side_cap side g r a0) 0 then q else set_active q j in
      match parent t j with
      | PArc a =>
        if Nat.eqb (head g a) i then
          let (p, o) := set_orphan_rear (parent t) o j in
          release side g r i as_ (Tree (is_sink t) p (ts t) (dist t)) q o
        else release side g r i as_ t q o
      | _ => release side g r i as_ t q o
      end
    else release side g r i as_ t q o
  end.
Definition process_orphan (side : bool) (s : gc) (i : nat) : option gc :=
  let g := gr s in
  '(t, best) <- find_parent side g (r_cap s) (time s) (out_arcs g i) (tr s) None ;;
  match best with
  | Some (a, d) =>
    Some (GC g (r_cap s) (tr_cap s) (flow s)
            (Tree (is_sink t) (fupd (parent t) i (PArc a)) (fupd (ts t) i (time s)) (fupd (dist t) i (S d)))
            (act s) (orp s) (time s))
  | None =>
    let '(t, q, o) := release side g (r_cap s) i (out_arcs g i) (Tree (is_sink t) (fupd (parent t) i PNone) (ts t) (dist t)) (act s) (orp s) in
    Some (GC g (r_cap s) (tr_cap s) (flow s) t q o (time s))
  end.
Definition process_source_orphan := process_orphan false.
Definition process_sink_orphan := process_orphan true.

(** mod.rs:345-355 and 361-371: the bottleneck of the path to the root, and the root. *)
Fixpoint bottleneck (fuel : nat) (side : bool) (g : graph) (r : nat -> Z) (p : nat -> par) (i : nat) (b : Z) : option (nat * Z) :=
  match fuel with
  | O => None
  | S fuel =>
    match p i with
    | PTerm => Some (i, b)
    | PArc a => bottleneck fuel side g r p (head g a) (if Z.ltb (side_cap side g r a) b then side_cap side g r a else b)
    | _ => None
    end
  end.
(** mod.rs:382-396 (source tree) and 404-416 (sink tree): push [b] along the
    path to the root. *)
Fixpoint push_path (fuel : nat) (side : bool) (g : graph) (b : Z) (r : nat -> Z) (p : nat -> par) (o : orphans) (i : nat)
  : option ((nat -> Z) * (nat -> par) * orphans * nat) :=
  match fuel with
  | O => None
  | S fuel =>
    match p i with
    | PTerm => Some (r, p, o, i)
    | PArc a =>
      let up := if side then sister g a else a in
      let down := if side then a else sister g a in
      let r := fupd r up (r up + b)%Z in
      let r := fupd r down (r down - b)%Z in
      let (p, o) := if Z.eqb (r down) 0 then set_orphan_front p o i else (p, o) in
      push_path fuel side g b r p o (head g a)
    | _ => None
    end
  end.
(** mod.rs:340-424 *)
Definition augment (s : gc) (m : nat) : option gc :=
  let g := gr s in
  let n := S (n_nodes g) in
  let p := parent (tr s) in
  let b := r_cap s m in
  '(i, b) <- bottleneck n false g (r_cap s) p (head g (sister g m)) b ;;
  let b := if Z.ltb (tr_cap s i) b then tr_cap s i else b in
  '(i, b) <- bottleneck n true g (r_cap s) p (head g m) b ;;
  let b := if Z.ltb (- tr_cap s i) b then (- tr_cap s i)%Z else b in
  let r := fupd (r_cap s) (sister g m) (r_cap s (sister g m) + b)%Z in
  let r := fupd r m (r m - b)%Z in
  '(r, p, o, i) <- push_path n false g b r p (orp s) (head g (sister g m)) ;;
  let c := fupd (tr_cap s) i (tr_cap s i - b)%Z in
  let (p, o) := if Z.eqb (c i) 0 then set_orphan_front p o i else (p, o) in
  '(r, p, o, i) <- push_path n true g b r p o (head g m) ;;
  let c := fupd c i (c i + b)%Z in
  let (p, o) := if Z.eqb (c i) 0 then set_orphan_front p o i else (p, o) in
  Some (GC g r c (flow s + b)%Z (Tree (is_sink (tr s)) p (ts (tr s)) (dist (tr s))) (act s) o (time s)).

(** mod.rs:444-464 (source) and 466-488 (sink): scan the arcs of the active
    node [i]; the result is the arc joining the two trees, if one is met. *)
Fixpoint grow (side : bool) (g : graph) (r : nat -> Z) (i : nat) (as_ : list nat) (t : tree) (q : actives) : tree * actives * option nat :=
  match as_ with
  | [] => (t, q, None)
  | a :: as_ =>
    if Z.eqb (side_cap (negb side) g r a) 0 then grow side g r i as_ t q
    else
      let j := head g a in
      if is_none (parent t j) then
        grow side g r i as_
          (Tree (fupd (is_sink t) j side) (fupd (parent t) j (PArc (sister g a))) (fupd (ts t) j (ts t i)) (fupd (dist t) j (S (dist t i))))
          (set_active q j)
      else if negb (Bool.eqb (is_sink t j) side) then (t, q, Some (if side then sister g a else a))
      else if Nat.leb (ts t j) (ts t i) && Nat.ltb (dist t i) (dist t j) then
        grow side g r i as_
          (Tree (is_sink t) (fupd (parent t) j (PArc (sister g a))) (fupd (ts t) j (ts t i)) (fupd (dist t) j (S (dist t i)))) q
      else grow side g r i as_ t q
  end.

(** mod.rs:500-511 *)
Fixpoint adopt_inner (fuel : nat) (s : gc) : option gc :=
  match fuel with
  | O => None
  | S fuel =>
    match ofirst (orp s) with
    | None => Some s
    | Some i =>
      let o := orp s in
      let f := next_orphan o i in
      let o := Orphans (next_orphan o) f (match f with None => None | Some _ => olast o end) in
      let s := GC (gr s) (r_cap s) (tr_cap s) (flow s) (tr s) (act s) o (time s) in
      s <- (if is_sink (tr s) i then process_sink_orphan s i else process_source_orphan s i) ;;
      adopt_inner fuel s
    end
  end.
(** mod.rs:495-514 *)
Fixpoint adopt (fuel : nat) (s : gc) : option gc :=
  match fuel with
  | O => None
  | S fuel =>
    match ofirst (orp s) with
    | None => Some s
    | Some i =>
      let o := orp s in
      let next_node := next_orphan o i in
      let s := GC (gr s) (r_cap s) (tr_cap s) (flow s) (tr s) (act s) (Orphans (fupd (next_orphan o) i None) (ofirst o) (olast o)) (time s) in
      s <- adopt_inner (S (S (n_nodes (gr s)))) s ;;
      let o := orp s in
      adopt fuel (GC (gr s) (r_cap s) (tr_cap s) (flow s) (tr s) (act s) (Orphans (next_orphan o) next_node (olast o)) (time s))
    end
  end.

(** mod.rs:428-441: the node to grow from; [Some (s, None)]: leave the loop. *)
Definition pick (s : gc) (current : option nat) : option (gc * option nat) :=
  let g := gr s in
  let with_act q := GC g (r_cap s) (tr_cap s) (flow s) (tr s) q (orp s) (time s) in
  let fresh q := '(q, i) <- next_active (S (n_nodes g)) (parent (tr s)) q ;; Some (with_act q, i) in
  match current with
  | None => fresh (act s)
  | Some i =>
    let q := act s in
    let q := Actives (fupd (next q) i None) (qfirst0 q) (qlast0 q) (qfirst1 q) (qlast1 q) in
    if is_none (parent (tr s) i) then fresh q else Some (with_act q, Some i)
  end.
(** mod.rs:442-518: the rest of a round. *)
Definition work (s : gc) (i : nat) : option (gc * option nat) :=
  let g := gr s in
  let '(t, q, a) := grow (is_sink (tr s) i) g (r_cap s) i (out_arcs g i) (tr s) (act s) in
  let s := GC g (r_cap s) (tr_cap s) (flow s) t q (orp s) (S (time s)) in
  match a with
  | None => Some (s, None)
  | Some a =>
    let q := Actives (fupd (next q) i (Some i)) (qfirst0 q) (qlast0 q) (qfirst1 q) (qlast1 q) in
    s <- augment (GC g (r_cap s) (tr_cap s) (flow s) t q (orp s) (time s)) a ;;
    s <- adopt (S (n_nodes g)) s ;;
    Some (s, Some i)
  end.
(** mod.rs:426-521; [fuel] bounds the rounds. *)
Fixpoint max_flow_loop (fuel : nat) (s : gc) (current : option nat) : option gc :=
  match fuel with
  | O => None
  | S fuel =>
    '(s, i) <- pick s current ;;
    match i with
    | None => Some s
    | Some i => '(s, current) <- work s i ;; max_flow_loop fuel s current
    end
  end.
Definition max_flow (fuel : nat) (s : gc) : option gc := max_flow_loop fuel s None.

(** A graph as the callers build it: [new], then [add_edge] for each (i, j, cap, rev_cap). *)
Definition build (source_cap sink_cap : list Z) (edges : list (nat * nat * Z * Z)) : option gc :=
  s <- new source_cap sink_cap ;;
  Some (fold_left (fun s e => let '(i, j, c, r) := e in add_edge s i j c r) edges s).
