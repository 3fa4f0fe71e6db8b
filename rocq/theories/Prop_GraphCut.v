(** C10, C11: the minimum cut of graphcut/mod.rs. *)
From Coq Require Import ZArith List Bool Arith Lia.
From Verif Require Import Lib GraphCut GcSpec GcBase GcTree GcAug GcAdopt GcLoop.
Import ListNotations.

(** * Specification *)
(** The node is in the source's (sink's) tree: it has a parent, and the flag. *)
Definition in_source (s : gc) (v : nat) : bool := negb (is_none (parent (tr s) v)) && negb (is_sink (tr s) v).
Definition in_sink (s : gc) (v : nat) : bool := negb (is_none (parent (tr s) v)) && is_sink (tr s) v.
(** The source side according to the flags. *)
Definition flags (s : gc) (v : nat) : bool := negb (is_sink (tr s) v).
(** From the node [v] of the tree of [side] (true: the sink's), the arcs to
    the parents lead to a node that still has capacity from (to) the terminal,
    and each has capacity left in the direction of the flow. *)
Inductive to_terminal (s : gc) (side : bool) : nat -> Prop :=
| tt_root : forall v, parent (tr s) v = PTerm -> is_sink (tr s) v = side ->
    (if side then tr_cap s v < 0 else 0 < tr_cap s v)%Z -> to_terminal s side v
| tt_arc : forall v a, parent (tr s) v = PArc a -> is_sink (tr s) v = side -> a < n_arcs (gr s) ->
    head (gr s) (sister (gr s) a) = v ->
    (0 < if side then r_cap s a else r_cap s (sister (gr s) a))%Z ->
    to_terminal s side (head (gr s) a) -> to_terminal s side v.

(** * Lemmas *)
Lemma chain_terminal : forall s v l e, chain (gr s) (parent (tr s)) v l e -> gwf (gr s) -> shape (gr s) (r_cap s) (tr_cap s) (tr s) ->
  (forall v, v < n_nodes (gr s) -> parent (tr s) v <> POrphan) -> v < n_nodes (gr s) -> to_terminal s (is_sink (tr s) v) v.
Proof.
  intros s v l e C W Sh U. induction C; intros Hv.
  - destruct H as [H|H]; [|destruct (U v Hv H)]. apply tt_root; auto. apply (sh_term _ _ _ _ Sh v Hv H).
  - destruct (sh_arc _ _ _ _ Sh v a Hv H) as (A1 & A2 & A3 & A4 & A5 & A6).
    apply tt_arc with (a := a); auto. rewrite <- A5. apply IHC. apply gw_head; auto.
Qed.
Lemma rescap_zero : forall s x, gwf (gr s) -> shape (gr s) (r_cap s) (tr_cap s) (tr s) ->
  (forall v, v < n_nodes (gr s) -> parent (tr s) v <> POrphan) ->
  (forall v, v < n_nodes (gr s) -> in_source s v = true -> x v = true) ->
  (forall v, v < n_nodes (gr s) -> in_sink s v = true -> x v = false) ->
  (forall a, a < n_arcs (gr s) -> r_cap s a <> 0%Z -> x (tail (gr s) a) = true -> x (head (gr s) a) = true) ->
  rescap (gr s) (r_cap s) (tr_cap s) x = 0%Z.
Proof.
  intros s x W Sh U H1 H2 H3. unfold rescap. rewrite !sumn_0; auto.
  - intros v Hv. unfold term_cap. unfold in_source in H1. unfold in_sink in H2. specialize (H1 v Hv). specialize (H2 v Hv).
    destruct (parent (tr s) v) as [| | |a] eqn:E.
    + rewrite (sh_none _ _ _ _ Sh v Hv E). destruct (x v); auto.
    + pose proof (sh_term _ _ _ _ Sh v Hv E) as X. destruct (is_sink (tr s) v); [rewrite H2 by auto|rewrite H1 by auto]; lia.
    + destruct (U v Hv E).
    + destruct (sh_arc _ _ _ _ Sh v a Hv E) as (_ & _ & -> & _). destruct (x v); auto.
  - intros a Ha. unfold crosses. destruct (x (tail (gr s) a)) eqn:E1; auto. destruct (x (head (gr s) a)) eqn:E2; auto. simpl.
    destruct (Z.eq_dec (r_cap s a) 0); auto. rewrite (H3 a Ha n E1) in E2. discriminate.
Qed.

(** * C10 *)
(** On every valid graph max_flow ends, and its value is the capacity of a
    minimum cut: no cut is smaller, and the source's tree is one with this
    capacity, as is the complement of the sink's tree. *)
Theorem C10_value : forall src snk edges, valid_graph src snk edges ->
  exists s0 fuel s, build src snk edges = Some s0 /\ (forall k, max_flow (fuel + k) s0 = Some s) /\
    (forall x, (flow s <= cut_cost src snk edges x)%Z) /\
    cut_cost src snk edges (in_source s) = flow s /\
    cut_cost src snk edges (fun v => negb (in_sink s v)) = flow s.
Proof.
  intros src snk edges V. destruct (build_ok src snk edges V) as (s0 & E0 & L0 & N0).
  destruct (loop_ok _ (S (Z.to_nat (cut_cost src snk edges (fun _ => false) - flow s0))) _ s0 None L0 ltac:(lia) (Nat.lt_succ_diag_r _)) as (fuel & s & E & L & A & N).
  exists s0, fuel, s. split; auto. split; [intros k; apply loop_mono; auto|]. split; [intros x; apply (flow_le _ s None x L)|].
  destruct L as [W R C O Sh U F P Q].
  assert (PS : forall sd a, a < n_arcs (gr s) -> side_cap (negb sd) (gr s) (r_cap s) a <> 0%Z -> inT (tr s) sd (tail (gr s) a) -> inT (tr s) sd (head (gr s) a)).
  { intros sd a Ha NZ I1. apply (P sd a Ha NZ I1). apply A. }
  assert (XS : forall v, in_source s v = true <-> inT (tr s) false v).
  { intros v. unfold in_source, inT. rewrite andb_true_iff, !negb_true_iff, is_none_not. tauto. }
  assert (XK : forall v, in_sink s v = true <-> inT (tr s) true v).
  { intros v. unfold in_sink, inT. rewrite andb_true_iff, !negb_true_iff, is_none_not. tauto. }
  split; rewrite C, rescap_zero; auto; try lia.
  - intros v Hv X. unfold in_source, in_sink in *. destruct (is_none (parent (tr s) v)), (is_sink (tr s) v); simpl in *; congruence.
  - intros a Ha NZ X. apply XS. apply (PS false); auto. apply XS. auto.
  - intros v Hv X. unfold in_source, in_sink in *. destruct (is_none (parent (tr s) v)), (is_sink (tr s) v); simpl in *; congruence.
  - intros v Hv X. rewrite X. auto.
  - intros a Ha NZ X. apply negb_true_iff in X. apply negb_true_iff. destruct (in_sink s (head (gr s) a)) eqn:E2; auto.
    apply XK in E2. destruct (gw_sis _ W a Ha) as (S1 & S2 & _).
    assert (Y : in_sink s (tail (gr s) a) = true); [|congruence]. apply XK. apply (PS true (sister (gr s) a)); auto; unfold side_cap; simpl; rewrite S2; auto.
Qed.
(** The flags give that cut when no node outside of both trees is flagged; the
    full claim (without this condition) is refuted below. *)
Theorem C10_flags_partial : forall src snk edges, valid_graph src snk edges ->
  exists s0 fuel s, build src snk edges = Some s0 /\ (forall k, max_flow (fuel + k) s0 = Some s) /\
    (forall x, (flow s <= cut_cost src snk edges x)%Z) /\
    ((forall v, v < length src -> is_sink (tr s) v = true -> parent (tr s) v <> PNone) -> cut_cost src snk edges (flags s) = flow s).
Proof.
  intros src snk edges V. destruct (C10_value src snk edges V) as (s0 & fuel & s & E0 & E & M & _ & K).
  exists s0, fuel, s. split; auto. split; auto. split; auto. intros H.
  rewrite <- K. destruct V as [_ F]. unfold cut_cost.
  assert (X : forall v, v < length src -> flags s v = negb (in_sink s v)).
  { intros v Hv. unfold flags, in_sink. destruct (is_sink (tr s) v) eqn:Ev; [|rewrite andb_false_r; auto].
    rewrite andb_true_r, (proj2 (is_none_not _) (H v Hv Ev)). auto. }
  f_equal.
  - f_equal. apply map_ext_in. intros v Hv. apply in_seq in Hv. rewrite X by lia. auto.
  - f_equal. apply map_ext_in. intros [[[i j] c] r] He. rewrite Forall_forall in F. specialize (F _ He). simpl in F.
    unfold edge_cost. rewrite !X by tauto. auto.
Qed.
Definition stale_src : list Z := [0; 1; 0; 0]%Z.
Definition stale_snk : list Z := [1; 0; 0; 0]%Z.
Definition stale_edges : list (nat * nat * Z * Z) := [(1, 0, 1%Z, 0%Z); (2, 0, 1%Z, 0%Z); (3, 2, 5%Z, 0%Z)].
(** The claim about the flags is false: a node freed by the adoption keeps its
    flag.  Here the flow is 1 and the cut given by the flags costs 6. *)
Theorem C10_flags_refuted : ~ forall src snk edges s0 fuel s, valid_graph src snk edges -> build src snk edges = Some s0 ->
  max_flow fuel s0 = Some s -> cut_cost src snk edges (flags s) = flow s.
Proof.
  intros H. specialize (H stale_src stale_snk stale_edges).
  destruct (build stale_src stale_snk stale_edges) as [s0|] eqn:E0; [|vm_compute in E0; discriminate].
  destruct (max_flow 200 s0) as [s|] eqn:E.
  - specialize (H s0 200 s).
    assert (X : (match max_flow 200 s0 with Some s => Z.eqb (cut_cost stale_src stale_snk stale_edges (flags s)) (flow s) | None => true end) = false).
    { vm_compute in E0. injection E0 as <-. vm_compute. reflexivity. }
    rewrite E in X. apply Z.eqb_neq in X. apply X. apply H; auto. split; [reflexivity|]. repeat constructor; simpl; lia.
  - vm_compute in E0. injection E0 as <-. vm_compute in E. discriminate.
Qed.

(** * C11 *)
(** At the head of every round of max_flow each node with a parent reaches its
    terminal along arcs with capacity left, no orphan is waiting, and the next
    round comes to its end: the search stops, or a tree node is picked and its
    growth, the augmentation and the adoption all terminate without an index
    out of bounds (whatever the fuel of the round loop). *)
Theorem C11_forest : forall src snk edges s0 s cur, valid_graph src snk edges -> build src snk edges = Some s0 -> rounds s0 s cur ->
  (forall v, v < length src -> parent (tr s) v <> PNone -> to_terminal s (is_sink (tr s) v) v) /\
  (ofirst (orp s) = None /\ forall v, v < length src -> parent (tr s) v <> POrphan) /\
  ((exists s', pick s cur = Some (s', None)) \/
   (exists s1 i s2 cur2, pick s cur = Some (s1, Some i) /\ work s1 i = Some (s2, cur2) /\ rounds s0 s2 cur2)).
Proof.
  intros src snk edges s0 s cur V E0 R. destruct (build_ok src snk edges V) as (s0' & E0' & L0 & N0).
  assert (s0' = s0) as -> by congruence. destruct (rounds_linv _ s0 L0 s cur R) as [L N]. rewrite <- N0, <- N.
  assert (L' := L). destruct L' as [W _ C O Sh U F P Q]. split; [|split; [auto|]].
  - intros v Hv NP. destruct (chain_ex _ _ _ _ _ W O Sh v Hv NP) as (l & e & Ch & _). eapply chain_terminal; eauto.
  - destruct (pick_work _ s cur L) as [(s' & E & _)|(s1 & i & s2 & cur2 & E1 & E2 & _)]; [left; eauto|].
    right. exists s1, i, s2, cur2. split; auto. split; auto. econstructor; eauto.
Qed.
(** The rounds are finite in number, and a round either raises the flow or
    leaves it: together with C11_forest every run of max_flow ends. *)
Theorem C11_terminates : forall src snk edges s0 s cur, valid_graph src snk edges -> build src snk edges = Some s0 -> rounds s0 s cur ->
  exists fuel s', max_flow_loop fuel s cur = Some s'.
Proof.
  intros src snk edges s0 s cur V E0 R. destruct (build_ok src snk edges V) as (s0' & E0' & L0 & N0).
  assert (s0' = s0) as -> by congruence. destruct (rounds_linv _ s0 L0 s cur R) as [L N].
  destruct (loop_ok _ (S (Z.to_nat (cut_cost src snk edges (fun _ => false) - flow s))) _ s cur L ltac:(lia) (Nat.lt_succ_diag_r _)) as (fuel & s' & E & _). eauto.
Qed.
(** The arcs to the parents make no cycle: nodes can be numbered so that each
    step to the parent lowers the number. *)
Theorem C11_acyclic : forall src snk edges s0 s cur, valid_graph src snk edges -> build src snk edges = Some s0 -> rounds s0 s cur ->
  exists rank : nat -> nat, forall v a, v < length src -> parent (tr s) v = PArc a -> rank (head (gr s) a) < rank v.
Proof.
  intros src snk edges s0 s cur V E0 R. destruct (build_ok src snk edges V) as (s0' & E0' & L0 & N0).
  assert (s0' = s0) as -> by congruence. destruct (rounds_linv _ s0 L0 s cur R) as [L N]. rewrite <- N0, <- N.
  destruct L as [W _ C O Sh U F P Q].
  (* rank: the number of nodes above *)
  assert (DEC : forall u v, {above (tr s) u v} + {~ above (tr s) u v}).
  { intros u v. unfold above. destruct (lt_dec (ts (tr s) v) (ts (tr s) u)); [left; auto|].
    destruct (Nat.eq_dec (ts (tr s) v) (ts (tr s) u)); [|right; lia]. destruct (lt_dec (dist (tr s) u) (dist (tr s) v)); [left; auto|right; lia]. }
  exists (fun v => cnt (fun u => if DEC u v then true else false) (n_nodes (gr s))).
  intros v a Hv E. pose proof (od_arc _ _ _ O v a Hv E) as A.
  assert (Hh : head (gr s) a < n_nodes (gr s)) by (apply gw_head; auto; apply (sh_arc _ _ _ _ Sh v a Hv E)).
  apply cnt_lt with (u := head (gr s) a); auto.
  - intros u Hu X. destruct (DEC u (head (gr s) a)) as [Y|]; [|discriminate]. destruct (DEC u v) as [|Z]; auto. destruct Z. eapply above_trans; eauto.
  - destruct (DEC (head (gr s) a) (head (gr s) a)) as [Y|]; auto. destruct (above_irr _ _ Y).
  - destruct (DEC (head (gr s) a) v); tauto.
Qed.

(** * Examples *)
Definition ex_src : list Z := [5; 0; 3; 0; 1; 0]%Z.
Definition ex_snk : list Z := [0; 4; 0; 6; 1; 0]%Z.
Definition ex_edges : list (nat * nat * Z * Z) := [(0, 1, 3%Z, 1%Z); (0, 2, 2%Z, 2%Z); (2, 3, 4%Z, 0%Z); (1, 3, 1%Z, 1%Z); (4, 4, 2%Z, 2%Z); (2, 5, 1%Z, 0%Z); (5, 1, 1%Z, 0%Z)].
Example ex_valid : valid_graph ex_src ex_snk ex_edges.
Proof. split; [reflexivity|]. repeat constructor; simpl; lia. Qed.
(** [k] rounds. *)
Fixpoint run (k : nat) (s : gc) (cur : option nat) : option (gc * option nat) :=
  match k with
  | O => Some (s, cur)
  | S k => match pick s cur with
           | Some (s1, Some i) => match work s1 i with Some (s2, cur2) => run k s2 cur2 | None => None end
           | _ => None
           end
  end.
Lemma run_rounds : forall s0 k s cur s' cur', rounds s0 s cur -> run k s cur = Some (s', cur') -> rounds s0 s' cur'.
Proof.
  intros s0. induction k; intros s cur s' cur' R E; cbn [run] in E; [congruence|].
  destruct (pick s cur) as [[s1 [i|]]|] eqn:E1; try discriminate. destruct (work s1 i) as [[s2 cur2]|] eqn:E2; try discriminate.
  apply (IHk s2 cur2); auto. econstructor; eauto.
Qed.
(** After five rounds both trees have a node hanging on another, and the flow
    has been raised four times. *)
Example C11_state : exists s0 s cur, build ex_src ex_snk ex_edges = Some s0 /\ rounds s0 s cur /\ flow s = 7%Z /\
  parent (tr s) 1 = PArc 6 /\ parent (tr s) 2 = PArc 3 /\ is_sink (tr s) 1 = true /\ is_sink (tr s) 2 = false.
Proof.
  destruct (build ex_src ex_snk ex_edges) as [s0|] eqn:E0; [|vm_compute in E0; discriminate].
  assert (X : match run 5 s0 None with
    | Some (s, _) => flow s = 7%Z /\ parent (tr s) 1 = PArc 6 /\ parent (tr s) 2 = PArc 3 /\ is_sink (tr s) 1 = true /\ is_sink (tr s) 2 = false
    | None => False end).
  { vm_compute in E0. injection E0 as <-. vm_compute. repeat split. }
  destruct (run 5 s0 None) as [[s cur]|] eqn:E; [|destruct X]. exists s0, s, cur. split; auto. split; auto.
  apply (run_rounds s0 5 s0 None); auto. constructor.
Qed.
Example C10_flow : exists s0 fuel s, build ex_src ex_snk ex_edges = Some s0 /\ max_flow fuel s0 = Some s /\ flow s = 9%Z /\
  cut_cost ex_src ex_snk ex_edges (in_source s) = 9%Z /\ cut_cost ex_src ex_snk ex_edges (fun v => Nat.ltb v 3) = 11%Z.
Proof.
  destruct (build ex_src ex_snk ex_edges) as [s0|] eqn:E0; [|vm_compute in E0; discriminate].
  assert (X : match max_flow 20 s0 with
    | Some s => flow s = 9%Z /\ cut_cost ex_src ex_snk ex_edges (in_source s) = 9%Z /\ cut_cost ex_src ex_snk ex_edges (fun v => Nat.ltb v 3) = 11%Z
    | None => False end).
  { vm_compute in E0. injection E0 as <-. vm_compute. repeat split. }
  destruct (max_flow 20 s0) as [s|] eqn:E; [|destruct X]. exists s0, 20, s. tauto.
Qed.

Print Assumptions C10_value.
Print Assumptions C10_flags_partial.
Print Assumptions C10_flags_refuted.
Print Assumptions C11_forest.
Print Assumptions C11_terminates.
Print Assumptions C11_acyclic.
