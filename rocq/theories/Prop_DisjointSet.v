(** Properties C01-C04: union-find (src/disjoint_set/mod.rs). *)
From Coq Require Import List Arith Bool Lia Relations Permutation Sorted.
From Verif Require Import Lib DisjointSet DisjointSetProofs.
Import ListNotations.

(** Specification: two indices are connected when they are related by the
    equivalence closure of the merged pairs of the history. *)
Definition connected (os : list op) : nat -> nat -> Prop :=
  clos_refl_sym_trans nat (fun a b => In (Merge a b) os).

(** The arguments of every merge of a history are valid indices. *)
Definition args_ok (n : nat) (os : list op) : Prop :=
  forall x y, In (Merge x y) os -> x < n /\ y < n.

Lemma args_ok_range n os : args_ok n os -> Forall (in_range n) os.
Proof. intros H. apply Forall_forall. intros [x y|] Hi; simpl; auto. Qed.

Lemma output_groups_lemma n os s s' groups :
  run n os = Some s -> output s = Some (s', groups) ->
  inv n s /\ groups_ok s (seq 0 n) groups /\
  (forall u v, u < n -> v < n -> (same s u v <-> connected os u v)).
Proof.
  intros R O. assert (F := run_range n os _ _ (inv_new n) R).
  destruct (run_spec n os F) as (t & E & I & Q). rewrite R in E. inversion E; subst t.
  destruct (output_spec n s I) as (s2 & m & E2 & _ & _ & _ & G).
  rewrite O in E2. inversion E2; subst. auto.
Qed.

(** C01: after any history of merges and outputs, two indices are in the same
    group exactly when they are connected. *)
Theorem ds_output_connected n os s s' groups :
  run n os = Some s -> output s = Some (s', groups) ->
  forall i j, i < n -> j < n ->
    ((exists k g, In (k, g) groups /\ In i g /\ In j g) <-> connected os i j).
Proof.
  intros R O i j Hi Hj.
  destruct (output_groups_lemma _ _ _ _ _ R O) as (I & (N & M & C & P) & Q).
  rewrite <- Q by auto. split.
  - intros (k & g & Hkg & Hig & Hjg). destruct (M _ _ Hkg) as (_ & _ & D).
    apply D in Hig, Hjg. exists k; tauto.
  - intros (r & H1 & H2). destruct (C i) as (k & g & Hkg & Hig); [apply in_seq; lia|].
    exists k, g. split; auto. split; auto. destruct (M _ _ Hkg) as (_ & _ & D).
    apply D. split; [apply in_seq; lia|]. apply D in Hig as [_ Hik].
    now rewrite (repr_fun _ _ _ _ Hik H1).
Qed.

(** C02: [n_groups] is the number of classes of connected indices: there is a
    system of pairwise unconnected representatives of that size, one in each
    class. *)
Theorem ds_n_groups n os s :
  run n os = Some s ->
  exists reps, NoDup reps /\ length reps = n_groups s /\
    (forall r, In r reps -> r < n) /\
    (forall i, i < n -> exists r, In r reps /\ connected os i r) /\
    (forall r t, In r reps -> In t reps -> connected os r t -> r = t).
Proof.
  intros R. assert (F := run_range n os _ _ (inv_new n) R).
  destruct (run_spec n os F) as (t & E & I & Q). rewrite R in E. inversion E; subst t.
  assert (I' := I). destruct I' as (L & LR & K & G).
  assert (RL : forall r, In r (roots (parent s)) -> r < n).
  { intros r Hr. apply in_roots, nth_error_lt in Hr. lia. }
  exists (roots (parent s)). split; [apply roots_NoDup|]. split; [auto|]. split; [auto|]. split.
  - intros i Hi. destruct (repr_total n s i I Hi) as [r Hr].
    assert (Hroot := repr_is_root _ _ _ Hr).
    assert (r < n) by (apply nth_error_lt in Hroot; lia).
    exists r. split; [now apply in_roots|]. apply Q; auto.
    exists r; split; auto. now apply repr_root.
  - intros r t Hr Ht H. apply Q in H; auto. destruct H as (u & H1 & H2).
    apply in_roots in Hr, Ht.
    assert (r = u) by exact (repr_fun _ _ _ _ (repr_root _ _ Hr) H1).
    assert (t = u) by exact (repr_fun _ _ _ _ (repr_root _ _ Ht) H2).
    congruence.
Qed.

(** C02, link with C03: the number of groups returned is [n_groups]. *)
Theorem ds_output_n_groups n os s s' groups :
  run n os = Some s -> output s = Some (s', groups) ->
  length groups = n_groups s /\ n_groups s' = n_groups s.
Proof.
  intros R O.
  destruct (output_groups_lemma _ _ _ _ _ R O) as (I & (N & M & C & P) & Q).
  destruct (output_spec n s I) as (s2 & m & E2 & _ & Gn & _).
  rewrite O in E2. inversion E2; subst s2 m. split; auto.
  destruct I as (L & LR & K & G). rewrite G, <- (map_length fst groups).
  apply Permutation_length. apply NoDup_Permutation; auto using roots_NoDup.
  intros k. rewrite in_roots, in_map_iff. split.
  - intros ((k0 & g) & <- & Hkg). simpl. destruct (M _ _ Hkg) as (A & _ & D).
    destruct g as [|i g]; [congruence|].
    destruct (proj1 (D i)) as [_ H]; [now left|]. eapply repr_is_root; eauto.
  - intros H. destruct (C k) as (k0 & g & Hkg & Hk).
    { apply in_seq. apply nth_error_lt in H. lia. }
    destruct (M _ _ Hkg) as (_ & _ & D). apply D in Hk as [_ Hk].
    assert (k = k0) by exact (repr_fun _ _ _ _ (repr_root _ _ H) Hk). subst k0.
    exists (k, g); auto.
Qed.

(** C03: the groups partition the indices: keys are distinct members of their
    own groups, groups are non-empty and ascending, and together the groups
    list every index exactly once. *)
Theorem ds_output_partition n os s s' groups :
  run n os = Some s -> output s = Some (s', groups) ->
  NoDup (map fst groups) /\
  Permutation (concat (map snd groups)) (seq 0 n) /\
  (forall k g, In (k, g) groups -> In k g /\ g <> [] /\ StronglySorted lt g).
Proof.
  intros R O.
  destruct (output_groups_lemma _ _ _ _ _ R O) as (I & (N & M & C & P) & Q).
  split; [auto|]. split; [auto|]. intros k g Hkg. destruct (M _ _ Hkg) as (A & B & D).
  split; [|auto]. destruct g as [|i g]; [congruence|].
  destruct (proj1 (D i)) as [_ H]; [now left|].
  assert (Hroot := repr_is_root _ _ _ H).
  apply D. split; [|now apply repr_root].
  apply in_seq. apply nth_error_lt in Hroot. destruct I. lia.
Qed.

(** C04: no history with valid arguments panics or diverges, and [output] is
    then defined as well; an out-of-range argument always panics. *)
Theorem ds_total n os :
  args_ok n os -> exists s s' groups, run n os = Some s /\ output s = Some (s', groups).
Proof.
  intros H. destruct (run_spec n os (args_ok_range _ _ H)) as (s & E & I & _).
  destruct (output_spec n s I) as (s' & m & E' & _). eauto.
Qed.

Theorem ds_out_of_range_panics n os :
  ~ args_ok n os -> run n os = None.
Proof.
  intros H. destruct (run n os) as [s|] eqn:R; auto. exfalso. apply H.
  apply (run_range n os _ _ (inv_new n)) in R. rewrite Forall_forall in R.
  intros x y Hi. now apply R in Hi.
Qed.

(** The histories the theorems speak about exist: chains of merges that make
    path compression and both branches of [link] happen. *)
Definition sample_history : list op :=
  [Merge 0 1; Merge 2 3; Merge 1 3; Output; Merge 4 0; Merge 5 6; Merge 2 4].

Example ds_sample_ok : args_ok 8 sample_history.
Proof.
  intros x y H. simpl in H.
  repeat (destruct H as [H|H]; [inversion H; subst; lia|]). tauto.
Qed.

Example ds_sample_run :
  exists s, run 8 sample_history = Some s /\ n_groups s = 3 /\
    exists s', output s = Some (s', [(3, [0; 1; 2; 3; 4]); (6, [5; 6]); (7, [7])]).
Proof. eexists. split; [vm_compute; reflexivity|]. split; [reflexivity|]. eexists. reflexivity. Qed.

Print Assumptions ds_output_connected.
Print Assumptions ds_n_groups.
Print Assumptions ds_output_n_groups.
Print Assumptions ds_output_partition.
Print Assumptions ds_total.
Print Assumptions ds_out_of_range_panics.
