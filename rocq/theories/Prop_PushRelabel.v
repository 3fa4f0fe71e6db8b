(** Properties C05-C09: FIFO push-relabel (src/graphcut/push_relabel_fifo.rs)
    and ArcBuilder (src/graphcut/mod.rs). *)
From Coq Require Import List Arith ZArith Bool Lia Sorting.Permutation.
From Verif Require Import Lib PushRelabel PushRelabelProofs.
Import ListNotations.

(** ** Specification *)

(** A graph is a list of directed arcs (from, to, capacity); parallel and
    opposite arcs are allowed. *)
Definition valid_graph (n : nat) (arcs : list (nat * nat * Z)) : Prop :=
  2 <= n /\ forall f t c, In (f, t, c) arcs -> f < n /\ t < n /\ f <> t /\ (0 <= c)%Z.

(** A cut is a set of nodes with node 0 and without node n-1. *)
Definition is_cut (n : nat) (S : nat -> bool) : Prop := S 0 = true /\ S (n - 1) = false.

(** Total capacity of the arcs that leave [S]. *)
Fixpoint cut_capacity (arcs : list (nat * nat * Z)) (S : nat -> bool) : Z :=
  match arcs with
  | [] => 0
  | (f, t, c) :: arcs' => (if S f && negb (S t) then c else 0) + cut_capacity arcs' S
  end%Z.

Definition min_cut (n : nat) (arcs : list (nat * nat * Z)) (S : nat -> bool) : Prop :=
  is_cut n S /\ forall S', is_cut n S' -> (cut_capacity arcs S <= cut_capacity arcs S')%Z.

(** The set the caller reads off the result: nodes with [is_sink] false. *)
Definition source_side (s : pr) (v : nat) : bool :=
  match is_sink s v with Some b => negb b | None => false end.

(** [s] is the state of a graph after [PushRelabelFifo::from] and
    [find_max_flow]. *)
Definition solved (arcs : list (nat * nat * Z)) (n : nat) (s : pr) : Prop :=
  exists s0 fuel, from arcs n = Some s0 /\ find_max_flow fuel s0 = Some s.

(** ** Bridges to the invariants *)
Lemma valid_good n arcs : valid_graph n arcs -> forall a, In a arcs -> good_arc n a.
Proof. intros [_ H] [[f t] c] Ha. simpl. apply (H f t c Ha). Qed.

Lemma cut_capacity_asum arcs S : asum (cutw S) arcs = cut_capacity arcs S.
Proof.
  induction arcs as [|[[f t] c] arcs IH]; simpl; auto. rewrite IH. unfold cutw.
  destruct (S f && negb (S t)); lia.
Qed.

Lemma main_loop_mono : forall f s s', main_loop f s = Some s' -> forall f', f <= f' -> main_loop f' s = Some s'.
Proof.
  induction f as [|f IH]; intros s s' H f' Hf; destruct f' as [|f']; try lia; simpl in *;
  destruct (queue s) as [|v q]; auto; try discriminate.
  destruct (round s v q); [|discriminate]. apply IH; auto. lia.
Qed.

Lemma find_max_flow_mono f s s' f' : find_max_flow f s = Some s' -> f <= f' -> find_max_flow f' s = Some s'.
Proof.
  unfold find_max_flow. destruct (global_relabel s); [|discriminate]. intros. eapply main_loop_mono; eauto.
Qed.

Lemma solved_inv arcs n s : valid_graph n arcs -> solved arcs n s ->
  exists g0, Inv g0 s nocur /\ queue s = [] /\ nn s = n /\ forall h, wsum h g0 = asum h arcs.
Proof.
  intros V (s0 & fuel & E & F).
  destruct (from_spec arcs n (proj1 V) (valid_good _ _ V)) as (g0 & s0' & E' & R & N & W).
  rewrite E in E'. inversion E'; subst s0'.
  destruct (find_max_flow_spec g0 s0 R) as (f0 & s' & H1 & H2 & H3 & H4 & H5).
  assert (s' = s).
  { specialize (H1 (f0 + fuel) ltac:(lia)).
    rewrite (find_max_flow_mono fuel s0 s (f0 + fuel) F ltac:(lia)) in H1. congruence. }
  subst s'. exists g0. split; [exact H2|]. split; [exact H3|]. split; [congruence|exact W].
Qed.

Lemma source_side_label s v : v < length (label s) -> source_side s v = (nth v (label s) 0 =? nn s).
Proof. intros H. unfold source_side, is_sink. rewrite nth_error_nthn by auto. now rewrite negb_involutive. Qed.

(** Cut capacities only depend on the set restricted to the nodes. *)
Lemma cut_capacity_ext n arcs S S' : (forall f t c, In (f, t, c) arcs -> f < n /\ t < n) ->
  (forall v, v < n -> S v = S' v) -> cut_capacity arcs S = cut_capacity arcs S'.
Proof.
  induction arcs as [|[[f t] c] arcs IH]; intros G H; simpl; auto.
  rewrite IH; auto; [|intros; apply (G f0 t0 c0); now right].
  destruct (G f t c (or_introl eq_refl)). now rewrite !H.
Qed.

(** ** C08: termination *)
Theorem pr_terminates arcs n : valid_graph n arcs ->
  exists s0 s fuel0, from arcs n = Some s0 /\ forall fuel, fuel0 <= fuel -> find_max_flow fuel s0 = Some s.
Proof.
  intros V. destruct (from_spec arcs n (proj1 V) (valid_good _ _ V)) as (g0 & s0 & E & R & N & W).
  destruct (find_max_flow_spec g0 s0 R) as (f0 & s' & H1 & _). eauto.
Qed.

(** The result does not depend on the fuel. *)
Theorem pr_deterministic arcs n s s' : solved arcs n s -> solved arcs n s' -> s = s'.
Proof.
  intros (s0 & f & E & F) (s0' & f' & E' & F'). rewrite E in E'. inversion E'; subst s0'.
  pose proof (find_max_flow_mono f s0 s (f + f') F ltac:(lia)).
  pose proof (find_max_flow_mono f' s0 s' (f + f') F' ltac:(lia)). congruence.
Qed.

(** ** C05: the cut *)

(** The excess of the sink is the capacity of a minimum cut. *)
Theorem pr_flow_value arcs n s : valid_graph n arcs -> solved arcs n s ->
  (exists S, min_cut n arcs S /\ nth (n - 1) (excess s) 0%Z = cut_capacity arcs S) /\
  forall S, is_cut n S -> (nth (n - 1) (excess s) 0 <= cut_capacity arcs S)%Z.
Proof.
  intros V R. destruct (solved_inv _ _ _ V R) as (g0 & I & Q & N & W).
  assert (U : forall S, is_cut n S -> (nth (n - 1) (excess s) 0 <= cut_capacity arcs S)%Z).
  { intros S [H1 H2]. rewrite <- cut_capacity_asum, <- W. rewrite <- N in *.
    apply (cut_upper g0 s S I H1 H2). }
  split; auto.
  destruct (gap_exists s (in_lab _ _ _ I) (in_n _ _ _ I)) as (k & Hk & Hg).
  destruct (gap_cut g0 s k I Q Hk Hg) as (A1 & A2 & A3).
  exists (above s k). rewrite <- cut_capacity_asum, <- W. unfold sink in *. rewrite <- N.
  split; auto. split; [split; auto|]. intros S' HS'. rewrite N in *.
  rewrite <- cut_capacity_asum, <- W, <- A3. auto.
Qed.

(** The set read off the result is always a cut. *)
Theorem pr_source_side_is_cut arcs n s : valid_graph n arcs -> solved arcs n s -> is_cut n (source_side s).
Proof.
  intros V R. destruct (solved_inv _ _ _ V R) as (g0 & I & Q & N & W).
  pose proof (in_lab _ _ _ I) as L. pose proof (in_n _ _ _ I) as N2.
  pose proof (la_len _ _ L) as LL. unfold nn in *. split.
  - rewrite source_side_label by lia. rewrite (la_src _ _ L). unfold nn. apply Nat.eqb_refl.
  - rewrite source_side_label by lia. rewrite <- N, (la_sink _ _ L). unfold nn. apply Nat.eqb_neq. lia.
Qed.

(** It is minimal when no node ends with label n-1.  Missing for the full
    statement: that hypothesis; [pr_min_cut_refuted] shows it is needed. *)
Theorem pr_min_cut_partial arcs n s : valid_graph n arcs -> solved arcs n s ->
  (forall v, v < n -> nth v (label s) 0 <> n - 1) -> min_cut n arcs (source_side s).
Proof.
  intros V R Hg. split; [eapply pr_source_side_is_cut; eauto|].
  destruct (solved_inv _ _ _ V R) as (g0 & I & Q & N & W).
  pose proof (in_lab _ _ _ I) as L. pose proof (in_n _ _ _ I) as N2. pose proof (la_len _ _ L) as LL.
  assert (B : exists k, 1 <= k < nn s /\ (forall v, v < nn s -> nth v (label s) 0 <> k) /\
     forall v, v < n -> source_side s v = above s k v).
  { exists (n - 1). split; [|split].
    - destruct (Nat.eq_dec n 2) as [->|]; lia.
    - rewrite N. exact Hg.
    - intros v Hv. rewrite source_side_label by (unfold nn in *; lia). unfold above.
      pose proof (la_le _ _ L v ltac:(unfold nn in *; lia)) as Hle. rewrite N. unfold nn in N. rewrite N in Hle.
      specialize (Hg v Hv). destruct (Nat.eqb_spec (nth v (label s) 0) n), (Nat.ltb_spec (n - 1) (nth v (label s) 0)); lia. }
  destruct B as (k & Hk & Hgk & Hs).
  destruct (gap_cut g0 s k I Q Hk Hgk) as (A1 & A2 & A3).
  intros S' [H1 H2].
  rewrite (cut_capacity_ext n arcs (source_side s) (above s k)); auto.
  2:{ intros f t c Hin. destruct (proj2 V f t c Hin) as (? & ? & _). auto. }
  rewrite <- !cut_capacity_asum, <- !W, <- A3. rewrite <- N in H2. apply (cut_upper g0 s S' I H1 H2).
Qed.

(** One more [global_relabel] after the run makes the set a minimum cut. *)
Theorem pr_min_cut_after_relabel arcs n s s' : valid_graph n arcs -> solved arcs n s ->
  global_relabel s = Some s' -> min_cut n arcs (source_side s').
Proof.
  intros V R E. destruct (solved_inv _ _ _ V R) as (g0 & I & Q & N & W).
  pose proof (in_lab _ _ _ I) as L.
  destruct (global_relabel_spec g0 s (label s) (in_core _ _ _ I) (in_n _ _ _ I) (in_src _ _ _ I)
    (la_len _ _ L) (lab_old_ok _ _ L)) as (s1 & E1 & P1 & P2 & _ & _ & I1 & X & M).
  rewrite E in E1. inversion E1; subst s1. clear E1.
  assert (N1 : nn s' = n) by (unfold nn in *; rewrite P1; auto).
  pose proof (in_lab _ _ _ I1) as L1. pose proof (in_n _ _ _ I1) as N2. pose proof (la_len _ _ L1) as LL.
  assert (SS : forall v, v < n -> source_side s' v = (nth v (label s') 0 =? n)).
  { intros v Hv. rewrite source_side_label by (unfold nn in *; lia). now rewrite N1. }
  set (S := fun v => nth v (label s') 0 =? n).
  assert (S0 : S 0 = true) by (unfold S; rewrite (la_src _ _ L1); apply Nat.eqb_eq; exact N1).
  assert (Ss : S (sink s') = false).
  { unfold S, sink, nn. rewrite (la_sink _ _ L1). apply Nat.eqb_neq. lia. }
  assert (T : nth (sink s') (excess s') 0%Z = wsum (cutw S) g0).
  { apply cut_tight; auto.
    - intros v i a Ha Hc Hv. unfold S in *. apply Nat.eqb_eq in Hv. apply Nat.eqb_eq.
      unfold nn in N1. rewrite <- N1 in *. apply (X v i a Ha Hc Hv).
    - intros v Hv Hs Hf. unfold S in Hf. apply Nat.eqb_neq in Hf. rewrite P2.
      apply (no_excess g0 s v I Q); [lia|unfold sink in *; congruence|].
      specialize (M v ltac:(lia)). pose proof (la_le _ _ L1 v Hv). unfold nn in N1. lia. }
  split.
  - split; [rewrite SS by lia; exact S0|]. rewrite SS by lia. unfold sink in Ss. rewrite N1 in Ss. exact Ss.
  - intros S' [H1 H2]. rewrite (cut_capacity_ext n arcs (source_side s') S); auto.
    2:{ intros f t c Hin. destruct (proj2 V f t c Hin) as (? & ? & _). auto. }
    rewrite <- !cut_capacity_asum, <- !W, <- T. rewrite <- N1 in H2. apply (cut_upper g0 s' S' I1 H1 H2).
Qed.

(** The relabelling of the previous theorem always succeeds. *)
Theorem pr_relabel_after_total arcs n s : valid_graph n arcs -> solved arcs n s ->
  exists s', global_relabel s = Some s' /\ queue s' = [] /\ excess s' = excess s.
Proof.
  intros V R. destruct (solved_inv _ _ _ V R) as (g0 & I & Q & N & W).
  pose proof (in_lab _ _ _ I) as L.
  destruct (global_relabel_spec g0 s (label s) (in_core _ _ _ I) (in_n _ _ _ I) (in_src _ _ _ I)
    (la_len _ _ L) (lab_old_ok _ _ L)) as (s1 & E1 & P1 & P2 & _ & _ & I1 & X & M).
  exists s1. split; auto. split; auto.
  assert (N1 : nn s1 = nn s) by (unfold nn; now rewrite P1).
  destruct (queue s1) as [|v q] eqn:Eq; auto. exfalso.
  assert (A : In v (queue s1)) by (rewrite Eq; now left).
  apply (qu_in _ _ _ _ _ (in_que _ _ _ I1)) in A. destruct A as [(A1 & A2 & A3 & A4) _].
  rewrite P2, N1 in *. rewrite (no_excess g0 s v I Q) in A3; try lia.
  - exact A2.
  - specialize (M v A1). lia.
Qed.

(** If some cut has capacity 0, the set read off the result without a further
    relabelling is a minimum cut, and it contains every such cut. *)
Lemma arc_weight h g v i a : arc_at g v i = Some a ->
  (forall v i a, arc_at g v i = Some a -> (0 <= cap a)%Z) -> (forall v w, (0 <= h v w)%Z) ->
  (h v (dist a) * cap a <= wsum h g)%Z.
Proof.
  intros Ha Hc Hh. pose proof Ha as Ha'. unfold arc_at in Ha'. destruct (nth_error g v) as [r|] eqn:Er; [|discriminate].
  pose proof (wsum_upd h g 0 v r (upd r i (Arc (dist a) (rev a) 0)) Er) as U. rewrite (rsum_upd _ _ _ _ _ Ha') in U.
  assert (P : (0 <= wsum_from 0 h (upd g v (upd r i (Arc (dist a) (rev a) 0))))%Z).
  { apply wsum_nonneg. intros w r' Hw b Hb. apply Z.mul_nonneg_nonneg; [apply Hh|].
    rewrite nth_error_upd in Hw. destruct ((v =? w) && (v <? length g)) eqn:B.
    - injection Hw as <-. apply In_nth_error in Hb. destruct Hb as [j Hj]. rewrite nth_error_upd in Hj.
      destruct ((i =? j) && (i <? length r)); [injection Hj as <-; simpl; lia|].
      apply (Hc v j b). unfold arc_at. now rewrite Er.
    - apply In_nth_error in Hb. destruct Hb as [j Hj]. apply (Hc w j b). unfold arc_at. now rewrite Hw. }
  unfold wsum. simpl in U. lia.
Qed.

Theorem pr_min_cut_zero arcs n s S : valid_graph n arcs -> solved arcs n s ->
  is_cut n S -> cut_capacity arcs S = 0%Z ->
  min_cut n arcs (source_side s) /\ cut_capacity arcs (source_side s) = 0%Z /\
  forall v, v < n -> S v = true -> source_side s v = true.
Proof.
  intros V R [S0 Sn] Zc.
  destruct R as (s0 & fuel & E & F).
  destruct (from_spec arcs n (proj1 V) (valid_good _ _ V)) as (g0 & s0' & E' & Rd & N & W).
  rewrite E in E'. injection E' as <-. destruct Rd as (C & N2 & Src & LL & O).
  assert (Lg : length (net s0) = n) by exact N.
  assert (Lx : length (excess s0) = n) by (rewrite (co_elen _ _ _ C), <- (co_len _ _ _ C); exact Lg).
  pose proof (cut_excess _ _ _ S C S0) as X. rewrite W, cut_capacity_asum, Zc in X.
  pose proof (rescut_nonneg _ _ _ S C) as Pn.
  assert (Xn : forall x, x < length (excess s0) -> (0 <= outw S (0 + x)%nat * nth x (excess s0) 0)%Z).
  { intros x _. pose proof (co_ex _ _ _ C x). unfold outw. destruct (S (0 + x)); lia. }
  assert (Ex : forall v, v < n -> S v = false -> nth v (excess s0) 0%Z = 0%Z).
  { intros v Hv Sv. pose proof (esum_ge (outw S) (excess s0) 0 v ltac:(lia) Xn) as G. unfold esum in X.
    simpl in G. unfold outw in G at 1. rewrite Sv in G. pose proof (co_ex _ _ _ C v). lia. }
  assert (Cl : forall v i a, arc_at (net s0) v i = Some a -> (0 < cap a)%Z -> S v = true -> S (dist a) = true).
  { intros v i a Ha Hc Sv. destruct (S (dist a)) eqn:Sd; auto. exfalso.
    assert (Hw : forall v w, (0 <= cutw S v w)%Z) by (intros; unfold cutw; destruct (_ && _); lia).
    pose proof (arc_weight (cutw S) _ _ _ _ Ha (co_cap _ _ _ C) Hw) as G. unfold cutw in G at 1. rewrite Sv, Sd in G. cbn [andb negb] in G.
    assert (0 <= esum (outw S) (excess s0))%Z; [|lia].
    pose proof (esum_ge (outw S) (excess s0) 0 0 ltac:(lia) Xn) as G0. pose proof (Xn 0 ltac:(lia)). unfold esum. lia. }
  set (old := map (fun v => if S v then n else 0) (seq 0 n)).
  assert (On : forall v, v < n -> nth v old 0 = if S v then n else 0).
  { intros v Hv. apply nth_error_nth. unfold old. rewrite nth_error_map, (nth_error_nth' _ 0) by (rewrite seq_length; lia).
    rewrite seq_nth by lia. reflexivity. }
  destruct (global_relabel_spec g0 s0 old C N2 Src LL) as (s1 & E1 & P1 & P2 & _ & _ & I & Xu & Mo).
  { unfold old_ok. rewrite Lg. split; [rewrite On by lia; now rewrite Sn|]. split.
    - intros x Hx. rewrite On by lia. destruct (S x); lia.
    - intros v i a Ha Hc. destruct (arc_at_lt _ _ _ _ Ha) as [Hv _]. destruct (co_wf _ _ _ C _ _ _ Ha) as (Hd & _).
      rewrite !On by lia. specialize (Cl v i a Ha Hc). destruct (S v); [rewrite Cl by auto; lia|lia]. }
  pose proof (in_lab _ _ _ I) as L. assert (N1 : nn s1 = n) by (unfold nn; rewrite P1; exact Lg).
  assert (Ls : forall v, v < n -> S v = true -> nth v (label s1) 0 = n).
  { intros v Hv Sv. specialize (Mo v ltac:(lia)). rewrite On, Sv in Mo by lia.
    pose proof (la_le _ _ L v ltac:(unfold nn in N1; lia)). unfold nn in N1. lia. }
  assert (Q : queue s1 = []).
  { destruct (queue s1) as [|v q] eqn:Eq; auto. exfalso.
    assert (A : In v (queue s1)) by (rewrite Eq; now left).
    apply (qu_in _ _ _ _ _ (in_que _ _ _ I)) in A. destruct A as [(A1 & A2 & A3 & A4) _]. rewrite N1 in *.
    destruct (S v) eqn:Sv; [rewrite Ls in A4 by auto; lia|]. rewrite P2, Ex in A3 by auto. lia. }
  assert (s1 = s).
  { unfold find_max_flow in F. rewrite E1 in F. destruct fuel; simpl in F; rewrite Q in F; congruence. }
  subst s1. pose proof (la_len _ _ L) as Ll. unfold nn in N1. rewrite N1 in Ll.
  assert (SS : forall v, v < n -> source_side s v = (nth v (label s) 0 =? n)).
  { intros v Hv. rewrite source_side_label by lia. unfold nn. now rewrite N1. }
  assert (Big : forall v, v < n -> S v = true -> source_side s v = true).
  { intros v Hv Sv. rewrite SS, Ls by auto. apply Nat.eqb_refl. }
  set (S1 := fun v => nth v (label s) 0 =? n).
  assert (S10 : S1 0 = true) by (unfold S1; rewrite (la_src _ _ L), N1; apply Nat.eqb_refl).
  assert (S1s : S1 (sink s) = false).
  { unfold S1, sink, nn. rewrite (la_sink _ _ L). apply Nat.eqb_neq. lia. }
  assert (Cap : cut_capacity arcs (source_side s) = 0%Z).
  { rewrite (cut_capacity_ext n arcs (source_side s) S1); auto.
    2:{ intros f t c Hin. destruct (proj2 V f t c Hin) as (? & ? & _). auto. }
    rewrite <- cut_capacity_asum, <- W, <- (cut_tight g0 s S1 I S10 S1s).
    - unfold sink, nn. rewrite N1, P2. apply Ex; [lia|exact Sn].
    - intros v i a Ha Hc Hv. unfold S1 in *. apply Nat.eqb_eq in Hv. apply Nat.eqb_eq. rewrite <- N1 in *. apply (Xu v i a Ha Hc Hv).
    - intros v Hv Hs Hf. unfold S1 in Hf. apply Nat.eqb_neq in Hf. unfold nn in Hv. rewrite P2. apply Ex; [lia|].
      destruct (S v) eqn:Sv; auto. exfalso. apply Hf. apply Ls; auto. lia. }
  split; [|split; [exact Cap|exact Big]]. split.
  - split; [rewrite SS by lia; exact S10|]. rewrite SS by lia. unfold sink, nn in S1s. rewrite N1 in S1s. exact S1s.
  - intros S' _. rewrite Cap, <- cut_capacity_asum. clear - V.
    destruct V as [_ V]. induction arcs as [|[[f t] c] arcs IH]; simpl; [lia|].
    destruct (V f t c (or_introl eq_refl)) as (_ & _ & _ & Hc).
    assert (0 <= asum (cutw S') arcs)%Z by (apply IH; intros; apply V; now right).
    unfold cutw at 1. destruct (S' f && negb (S' t)); lia.
Qed.

(** The set returned by the code is not a minimum cut in general: two inner
    nodes, source arcs of 6 and 0, sink arcs of 1 and 0 and an edge of 5 in both
    directions.  Node 1 ends with label n-1 = 3 although it cannot reach the
    sink; the returned set {0, 2} has capacity 11, the minimum is 1. *)
Definition bad_arcs : list (nat * nat * Z) :=
  add_arc (arc_builder_new [6; 0]%Z [1; 0]%Z) 0 1 5%Z true.

Theorem pr_min_cut_refuted :
  exists arcs n s, valid_graph n arcs /\ solved arcs n s /\ ~ min_cut n arcs (source_side s) /\
    cut_capacity arcs (source_side s) = 11%Z /\ cut_capacity arcs (fun v => v <=? 2) = 1%Z.
Proof.
  exists bad_arcs, 4.
  assert (E : exists s0 s, from bad_arcs 4 = Some s0 /\ find_max_flow 100 s0 = Some s /\ label s = [4; 3; 4; 0] /\ cut_capacity bad_arcs (source_side s) = 11%Z).
  { assert (Q : match from bad_arcs 4 with Some s0 => match find_max_flow 100 s0 with Some s => label s = [4; 3; 4; 0] /\ cut_capacity bad_arcs (source_side s) = 11%Z | None => False end | None => False end) by (vm_compute; repeat split).
    destruct (from bad_arcs 4) as [s0|]; [|destruct Q]. exists s0. destruct (find_max_flow 100 s0) as [s|]; [|destruct Q]. exists s. auto. }
  destruct E as (s0 & s & E1 & E2 & E3 & E4). exists s.
  split; [|split; [|split; [|split]]]; auto.
  - split; [lia|]. intros f t c H. simpl in H. repeat destruct H as [H|H]; inversion H; subst; lia.
  - exists s0, 100. auto.
  - intros [_ H]. specialize (H (fun v => v <=? 2)). rewrite E4 in H.
    assert (C : is_cut 4 (fun v => v <=? 2)) by (split; reflexivity). specialize (H C). revert H.
    vm_compute. congruence.
Qed.

(** ** C06 and C07: every point of a run *)

(** The heads of the loop of [discharge] on [v] and the points between two arc
    scans of [push], for a start state [s0] (the result of [from]). *)
Inductive disch (s0 : pr) (v : nat) : pr -> Prop :=
| di_start s q : reach s0 s -> queue s = v :: q ->
    disch s0 v (PR (net s) (label s) (excess s) q (progress s) (threshold s))
| di_next s l s1 s2 l2 : disch s0 v s -> nth_error (label s) v = Some l -> l < nn s ->
    push s v l = Some (s1, false) -> relabel s1 v = Some (s2, l2) -> disch s0 v s2.

Inductive point (s0 : pr) : pr -> Prop :=
| po_start : point s0 s0
| po_round s : reach s0 s -> point s0 s
| po_disch v s : disch s0 v s -> point s0 s
| po_push v s k t s1 done : disch s0 v s -> nth_error (label s) v = Some (S t) -> S t < nn s ->
    push_loop (seq 0 k) v t s = Some (s1, done) -> k <= length (nth v (net s) []) -> point s0 s1.

(** Every state of a run is a point: the run of [discharge] is the chain of
    [disch] states. *)
Lemma disch_inv g0 s0 v s : ready g0 s0 -> disch s0 v s ->
  Inv g0 s (fun x => x = v) /\ v < nn s /\ v <> sink s /\ v <> 0 /\ (0 < nth v (excess s) 0)%Z.
Proof.
  intros R D. induction D as [s q Re Eq|s l s1 s2 l2 D IH El Hl Hp Hr].
  - pose proof (reach_inv _ _ _ R Re) as I.
    pose proof (in_que _ _ _ I) as [Q1 Q2].
    assert (A : active (nn s) (label s) (excess s) v) by (apply Q2; rewrite Eq; now left).
    destruct A as (A1 & A2 & A3 & A4). pose proof (in_lab _ _ _ I) as L.
    split; [|repeat split; auto].
    + destruct I as [I1 I2 I3 I4 _]. constructor; auto. rewrite Eq in Q1, Q2. inversion Q1; subst.
      constructor; auto. intros w. simpl. unfold nn. simpl. fold (nn s). specialize (Q2 w). unfold nocur in Q2.
      split.
      * intros Hw. split; [apply Q2; now right|]. intros ->. contradiction.
      * intros [Hw Hne]. destruct (proj2 Q2 (conj Hw (fun x => x))) as [->|]; auto. contradiction.
    + intros ->. pose proof (la_src _ _ L). unfold nn in *. lia.
  - destruct IH as (I & Hv & Hs & Hv0 & Hex).
    pose proof (in_lab _ _ _ I) as L. pose proof (la_len _ _ L) as LL.
    assert (Ell : nth v (label s) 0 = l) by (eapply nth_error_nth_eq; eauto).
    unfold push in Hp. destruct l as [|t]; [discriminate|].
    rewrite row_nth_error in Hp by (unfold nn in *; lia).
    destruct (push_loop_spec g0 v t (seq 0 (length (row (net s) v))) s) as
      (s1' & done & E & I1 & R1 & R2 & R3 & R4 & R5 & R6 & (new & R7 & R7') & R8); auto.
    { apply seq_NoDup. }
    { intros i Hi. now apply seq_row_spec. }
    rewrite E in Hp. inversion Hp; subst s1' done. destruct R8 as [R8 R9].
    assert (Hsink : sink s1 = sink s) by (unfold sink; congruence).
    destruct (relabel_spec g0 s1 v I1) as (l' & s2' & E2 & Es2 & Hl' & I2); auto.
    + lia.
    + congruence.
    + rewrite R2, Ell. lia.
    + intros i a Ha Hc. rewrite R2.
      assert (Hi : i < length (row (net s) v)).
      { rewrite <- R6. apply (arc_at_lt _ _ _ _ Ha). }
      pose proof (R9 i a (proj2 (seq_row_spec _ _) Hi) Ha Hc) as Hne.
      pose proof (la_valid _ _ (in_lab _ _ _ I1) _ _ _ Ha Hc) as Hval. rewrite R2 in Hval. lia.
    + assert (Eq2 : s2' = s2) by congruence. rewrite Eq2 in *.
      assert (N2 : nn s2 = nn s) by (rewrite Es2; unfold nn in *; simpl; auto).
      split; [exact I2|]. unfold sink in *. rewrite N2. split; [lia|]. split; [congruence|]. split; [auto|].
      rewrite Es2. simpl. exact R8.
Qed.

Lemma point_core g0 s0 s : ready g0 s0 -> point s0 s -> Core g0 (net s) (excess s) /\
  nn s = nn s0 /\ length (label s) = nn s /\ (s = s0 \/ Lab (net s) (label s)).
Proof.
  intros R P.
  assert (Nq : forall g1 g2 ex, Core g1 g2 ex -> length g2 = length g1) by (intros; eapply co_len; eauto).
  pose proof R as (C0 & N0 & S0 & L0 & _).
  assert (Fin : forall s cur, Inv g0 s cur -> Core g0 (net s) (excess s) /\
    nn s = nn s0 /\ length (label s) = nn s /\ (s = s0 \/ Lab (net s) (label s))).
  { intros s' cur I. split; [apply (in_core _ _ _ I)|]. split.
    - unfold nn. rewrite (Nq _ _ _ (in_core _ _ _ I)), (Nq _ _ _ C0). reflexivity.
    - split; [apply (la_len _ _ (in_lab _ _ _ I))|]. right. apply (in_lab _ _ _ I). }
  destruct P as [|s Re|v s D|v s k t s1 done D El Hl Hp Hk].
  - auto.
  - apply (Fin s nocur). eapply reach_inv; eauto.
  - destruct (disch_inv _ _ _ _ R D) as (I & _). eapply Fin; eauto.
  - destruct (disch_inv _ _ _ _ R D) as (I & Hv & Hs & Hv0 & Hex).
    destruct (push_loop_spec g0 v t (seq 0 k) s) as (s1' & d & E & I1 & _); auto.
    { eapply nth_error_nth_eq; eauto. }
    { apply seq_NoDup. }
    { intros i Hi. apply in_seq in Hi. unfold row. lia. }
    rewrite Hp in E. inversion E; subst s1'. eapply Fin; eauto.
Qed.

(** Capacity from [v] to [w] in the graph, and in a residual network. *)
Fixpoint graph_cap (arcs : list (nat * nat * Z)) (v w : nat) : Z :=
  match arcs with
  | [] => 0
  | (f, t, c) :: arcs' => (if ((f =? v) && (t =? w))%nat then c else 0) + graph_cap arcs' v w
  end%Z.
Fixpoint row_cap (r : list arc) (w : nat) : Z :=
  match r with [] => 0 | a :: r' => (if (dist a =? w)%nat then cap a else 0) + row_cap r' w end%Z.
Definition res_cap (s : pr) (v w : nat) : Z := row_cap (nth v (net s) []) w.
(** The flow a state represents, and sums over the nodes. *)
Definition flow (arcs : list (nat * nat * Z)) (s : pr) (v w : nat) : Z := (graph_cap arcs v w - res_cap s v w)%Z.
Fixpoint sum_nodes (n : nat) (h : nat -> Z) : Z := match n with O => 0 | S m => sum_nodes m h + h m end%Z.

Definition ind2 (v w x y : nat) : Z := if (x =? v) && (y =? w) then 1 else 0.

Lemma graph_cap_asum arcs v w : graph_cap arcs v w = asum (ind2 v w) arcs.
Proof.
  induction arcs as [|[[f t] c] arcs IH]; simpl; auto. rewrite IH. unfold ind2.
  destruct ((f =? v) && (t =? w)); lia.
Qed.

Lemma res_cap_wsum s v w : v < nn s -> res_cap s v w = wsum (ind2 v w) (net s).
Proof.
  unfold res_cap, nn, wsum.
  assert (R0 : forall k r, k <> v -> rsum (ind2 v w k) r = 0%Z).
  { induction r as [|a r IH]; simpl; intros H; auto. rewrite IH by auto. unfold ind2.
    destruct (Nat.eqb_spec k v); [contradiction|]. reflexivity. }
  assert (R1 : forall r, rsum (ind2 v w v) r = row_cap r w).
  { induction r as [|a r IH]; simpl; auto. rewrite IH. unfold ind2. rewrite Nat.eqb_refl. simpl.
    destruct (dist a =? w); lia. }
  assert (G : forall g k, (k <= v < k + length g -> wsum_from k (ind2 v w) g = row_cap (nth (v - k) g []) w) /\
     (v < k -> wsum_from k (ind2 v w) g = 0%Z)).
  { induction g as [|r g IH]; intros k; simpl.
    - split; auto. lia.
    - destruct (IH (S k)) as [I1 I2]. split; intros H.
      + destruct (Nat.eq_dec k v) as [->|Nk].
        * rewrite Nat.sub_diag, R1, I2 by lia. lia.
        * rewrite R0, I1 by lia. destruct (v - k) as [|m] eqn:Em; [lia|].
          replace (v - S k) with m by lia. lia.
      + rewrite R0, I2 by lia. lia. }
  intros H. destruct (G (net s) 0) as [G1 _]. rewrite G1 by lia. now rewrite Nat.sub_0_r.
Qed.

Lemma sum_nodes_add n h1 h2 : sum_nodes n (fun u => h1 u + h2 u)%Z = (sum_nodes n h1 + sum_nodes n h2)%Z.
Proof. induction n; simpl; auto. rewrite IHn. ring. Qed.

Lemma sum_nodes_ext n h1 h2 : (forall u, u < n -> h1 u = h2 u) -> sum_nodes n h1 = sum_nodes n h2.
Proof. induction n; simpl; intros H; auto. rewrite IHn, H; auto. Qed.

Lemma sum_nodes_single n x : (0 <= x)%nat -> forall h, sum_nodes n (fun u => if x =? u then h else 0%Z) = if x <? n then h else 0%Z.
Proof.
  intros _ h. induction n; simpl; auto. rewrite IHn.
  destruct (Nat.eqb_spec x n), (Nat.ltb_spec x n), (Nat.ltb_spec x (S n)); lia.
Qed.

Lemma sum_nodes_0 n : sum_nodes n (fun _ => 0%Z) = 0%Z.
Proof. induction n; simpl; auto. rewrite IHn. reflexivity. Qed.

Lemma sum_graph_cap n arcs v : (forall f t c, In (f, t, c) arcs -> t < n) ->
  sum_nodes n (graph_cap arcs v) = asum (fun x _ => if x =? v then 1%Z else 0%Z) arcs.
Proof.
  induction arcs as [|[[f t] c] arcs IH]; simpl; intros H.
  - apply sum_nodes_0.
  - rewrite (sum_nodes_add n (fun u => if (f =? v) && (t =? u) then c else 0%Z) (graph_cap arcs v)).
    rewrite IH by (intros; eapply H; right; eauto).
    rewrite (sum_nodes_ext n _ (fun u => if t =? u then (if f =? v then c else 0%Z) else 0%Z)).
    + rewrite sum_nodes_single by lia. specialize (H f t c (or_introl eq_refl)).
      destruct (Nat.ltb_spec t n); [|lia]. destruct (f =? v); lia.
    + intros u _. destruct (f =? v), (t =? u); reflexivity.
Qed.

Lemma sum_row_cap n r : (forall a, In a r -> dist a < n) ->
  sum_nodes n (row_cap r) = rsum (fun _ => 1%Z) r.
Proof.
  induction r as [|a r IH]; simpl; intros H.
  - apply sum_nodes_0.
  - rewrite (sum_nodes_add n (fun u => if dist a =? u then cap a else 0%Z) (row_cap r)).
    rewrite IH by auto. rewrite sum_nodes_single by lia. specialize (H a (or_introl eq_refl)).
    destruct (Nat.ltb_spec (dist a) n); [|lia]. destruct (cap a); reflexivity.
Qed.

Lemma wsum_row g v : v < length g -> wsum (fun x _ => if x =? v then 1%Z else 0%Z) g = rsum (fun _ => 1%Z) (nth v g []).
Proof.
  unfold wsum.
  assert (R0 : forall k r, k <> v -> rsum (fun _ => if k =? v then 1%Z else 0%Z) r = 0%Z).
  { intros k r H. destruct (Nat.eqb_spec k v); [contradiction|]. induction r; simpl; auto. }
  assert (G : forall g k, (k <= v < k + length g -> wsum_from k (fun x _ => if x =? v then 1%Z else 0%Z) g = rsum (fun _ => 1%Z) (nth (v - k) g [])) /\
     (v < k -> wsum_from k (fun x _ => if x =? v then 1%Z else 0%Z) g = 0%Z)).
  { induction g0 as [|r g0 IH]; intros k; simpl.
    - split; auto. lia.
    - destruct (IH (S k)) as [I1 I2]. split; intros H.
      + destruct (Nat.eq_dec k v) as [->|Nk].
        * rewrite Nat.sub_diag, I2 by lia. rewrite Nat.eqb_refl. lia.
        * rewrite R0, I1 by lia. destruct (v - k) as [|m] eqn:Em; [lia|].
          replace (v - S k) with m by lia. lia.
      + rewrite R0, I2 by lia. lia. }
  intros H. destruct (G g 0) as [G1 _]. rewrite G1 by lia. now rewrite Nat.sub_0_r.
Qed.

(** C06: at every point the residual capacities and the excesses are
    non-negative, the represented flow is antisymmetric and bounded by the
    capacities, and the excess of every node but the source is its inflow. *)
Theorem pr_preflow arcs n s0 s : valid_graph n arcs -> from arcs n = Some s0 -> point s0 s ->
  (forall v r a, nth_error (net s) v = Some r -> In a r -> (0 <= cap a)%Z) /\
  (forall v, (0 <= nth v (excess s) 0)%Z) /\
  (forall v w, v < n -> w < n -> flow arcs s v w = (- flow arcs s w v)%Z) /\
  (forall v w, v < n -> w < n -> (flow arcs s v w <= graph_cap arcs v w)%Z) /\
  (forall v, v < n -> v <> 0 -> nth v (excess s) 0%Z = sum_nodes n (fun u => flow arcs s u v)).
Proof.
  intros V E P.
  destruct (from_spec arcs n (proj1 V) (valid_good _ _ V)) as (g0 & s0' & E' & R & N & W).
  rewrite E in E'. inversion E'; subst s0'.
  destruct (point_core _ _ _ R P) as (C & Ns & _ & _). rewrite N in Ns.
  assert (Cap : forall v r a, nth_error (net s) v = Some r -> In a r -> (0 <= cap a)%Z).
  { intros v r a Hr Ha. apply In_nth_error in Ha. destruct Ha as [i Hi].
    apply (co_cap _ _ _ C v i a). unfold arc_at. now rewrite Hr. }
  assert (Anti : forall v w, v < n -> w < n -> flow arcs s v w = (- flow arcs s w v)%Z).
  { intros v w Hv Hw. unfold flow. rewrite !graph_cap_asum, !res_cap_wsum by lia. rewrite <- !W.
    assert (X : wsum (fun x y => ind2 v w x y + ind2 w v x y)%Z (net s) = wsum (fun x y => ind2 v w x y + ind2 w v x y)%Z g0).
    { apply (co_sym _ _ _ C). intros x y. unfold ind2.
      rewrite (andb_comm (y =? v)), (andb_comm (y =? w)). lia. }
    unfold wsum in *. rewrite !wsum_add in X. lia. }
  split; [exact Cap|]. split; [apply (co_ex _ _ _ C)|]. split; [exact Anti|]. split.
  - intros v w Hv Hw. unfold flow. assert (0 <= res_cap s v w)%Z; [|lia].
    unfold res_cap. assert (A : forall a, In a (nth v (net s) []) -> (0 <= cap a)%Z).
    { intros a. apply (Cap v). apply nth_error_nth'. unfold nn in Ns. lia. }
    induction (nth v (net s) []) as [|a r IH]; simpl; [lia|].
    pose proof (A a (or_introl eq_refl)). specialize (IH (fun b Hb => A b (or_intror Hb))).
    destruct (dist a =? w); lia.
  - intros v Hv Hv0.
    rewrite (sum_nodes_ext n _ (fun u => - flow arcs s v u)%Z) by (intros; apply Anti; auto).
    pose proof (co_bal _ _ _ C (fun x => if x =? v then 1%Z else 0%Z)) as B.
    cbv beta in B. destruct (Nat.eqb_spec 0 v) as [Ev|_]; [congruence|]. specialize (B eq_refl).
    rewrite W in B. rewrite wsum_row in B by (unfold nn in Ns; lia).
    rewrite <- (sum_graph_cap n) in B by (intros f t c Hin; apply (proj2 V f t c Hin)).
    unfold esum in B. rewrite (esum_single _ _ 0 v) in B.
    + simpl in B. rewrite Nat.eqb_refl in B.
      rewrite <- (sum_row_cap n) in B.
      2:{ intros a Ha. apply In_nth_error in Ha. destruct Ha as [i Hi].
          unfold nn in Ns. rewrite <- Ns. apply (co_wf _ _ _ C v i a). rewrite arc_at_row. exact Hi. }
      assert (B2 : forall m, sum_nodes m (fun u => - flow arcs s v u)%Z =
        (sum_nodes m (row_cap (nth v (net s) [])) - sum_nodes m (graph_cap arcs v))%Z).
      { induction m; simpl; auto. rewrite IHm. unfold flow, res_cap. lia. }
      rewrite B2. lia.
    + rewrite (co_elen _ _ _ C), <- (co_len _ _ _ C). unfold nn in Ns. lia.
    + intros x Hx Hne. simpl. destruct (Nat.eqb_spec x v); [contradiction|]. reflexivity.
Qed.

(** A residual path of a state: each step has positive residual capacity. *)
Inductive res_path (s : pr) : nat -> nat -> nat -> Prop :=
| rp_here v : res_path s v v 0
| rp_step v w x k r a : nth_error (net s) v = Some r -> In a r -> dist a = w -> (0 < cap a)%Z ->
    res_path s w x k -> res_path s v x (S k).

(** C07: after the first [global_relabel] (initially every label is 0), labels
    drop by at most one along residual arcs, the source has label n and the sink
    label 0; so a label is a lower bound for the length of any residual path to
    the sink. *)
Theorem pr_labels_valid arcs n s0 s : valid_graph n arcs -> from arcs n = Some s0 -> point s0 s -> s <> s0 ->
  nth 0 (label s) 0 = n /\ nth (n - 1) (label s) 0 = 0 /\
  (forall v r a, nth_error (net s) v = Some r -> In a r -> (0 < cap a)%Z ->
     nth v (label s) 0 <= nth (dist a) (label s) 0 + 1) /\
  (forall v k, res_path s v (n - 1) k -> nth v (label s) 0 <= k) /\
  (forall k, ~ (k < n /\ res_path s 0 (n - 1) k)).
Proof.
  intros V E P Hne.
  destruct (from_spec arcs n (proj1 V) (valid_good _ _ V)) as (g0 & s0' & E' & R & N & W).
  rewrite E in E'. inversion E'; subst s0'.
  destruct (point_core _ _ _ R P) as (C & Ns & _ & [?|L]); [contradiction|]. rewrite N in Ns.
  unfold nn in Ns.
  assert (Val : forall v r a, nth_error (net s) v = Some r -> In a r -> (0 < cap a)%Z ->
     nth v (label s) 0 <= nth (dist a) (label s) 0 + 1).
  { intros v r a Hr Ha Hc. apply In_nth_error in Ha. destruct Ha as [i Hi].
    apply (la_valid _ _ L v i a); auto. unfold arc_at. now rewrite Hr. }
  assert (A0 : nth 0 (label s) 0 = n) by (rewrite (la_src _ _ L); exact Ns).
  assert (As : nth (n - 1) (label s) 0 = 0) by (rewrite <- Ns; apply (la_sink _ _ L)).
  assert (Pa : forall v x k, res_path s v x k -> x = n - 1 -> nth v (label s) 0 <= k).
  { intros v x k Hp. induction Hp as [|v w x k r a Hr Ha Hd Hc Hp IH]; intros ->.
    - lia.
    - specialize (Val v r a Hr Ha Hc). rewrite Hd in Val. specialize (IH eq_refl). lia. }
  split; [exact A0|]. split; [exact As|]. split; [exact Val|]. split; [eauto|].
  intros k [Hk Hp]. specialize (Pa _ _ _ Hp eq_refl). lia.
Qed.

(** ** C09: ArcBuilder *)

(** A labelling gives each of the k cells a side: [true] for the source side. *)
Fixpoint terminal_energy (src snk : list Z) (lab : nat -> bool) (i : nat) : Z :=
  match src, snk with
  | a :: src', b :: snk' => (if lab i then b else a) + terminal_energy src' snk' lab (S i)
  | _, _ => 0
  end%Z.
(** The calls [add_arc f t c rev]. *)
Definition call := (nat * nat * Z * bool)%type.
Definition pair_energy1 (lab : nat -> bool) (k : call) : Z :=
  let '(f, t, c, r) := k in
  if lab f then if lab t then 0 else c else if lab t then (if r then c else 0) else 0.
Fixpoint pair_energy (lab : nat -> bool) (ks : list call) : Z :=
  match ks with [] => 0 | k :: ks' => pair_energy1 lab k + pair_energy lab ks' end%Z.
Definition energy (src snk : list Z) (ks : list call) (lab : nat -> bool) : Z :=
  (terminal_energy src snk lab 0 + pair_energy lab ks)%Z.

(** [ArcBuilder::new] followed by the calls. *)
Definition built (src snk : list Z) (ks : list call) : list (nat * nat * Z) :=
  fold_left (fun arcs k => let '(f, t, c, r) := k in add_arc arcs f t c r) ks (arc_builder_new src snk).

(** Cell [i] is node [i+1]; the source is node 0, the sink node k+1. *)
Definition side (k : nat) (lab : nat -> bool) (v : nat) : bool :=
  match v with 0 => true | S i => if i =? k then false else lab i end.

Definition call_ok (k : nat) (c : call) : Prop :=
  let '(f, t, w, r) := c in f < k /\ t < k /\ f <> t /\ (0 <= w)%Z.
Definition costs_ok (src snk : list Z) (ks : list call) : Prop :=
  length src = length snk /\ Forall (fun c => (0 <= c)%Z) src /\ Forall (fun c => (0 <= c)%Z) snk /\
  Forall (call_ok (length src)) ks.

Lemma cut_capacity_app a b S : cut_capacity (a ++ b) S = (cut_capacity a S + cut_capacity b S)%Z.
Proof. induction a as [|[[f t] c] a IH]; simpl; auto. rewrite IH. ring. Qed.

Lemma built_snoc src snk ks c : built src snk (ks ++ [c]) = let '(f, t, w, r) := c in add_arc (built src snk ks) f t w r.
Proof. unfold built. rewrite fold_left_app. simpl. destruct c as [[[f t] w] r]. reflexivity. Qed.

Lemma pair_energy_app lab a b : pair_energy lab (a ++ b) = (pair_energy lab a + pair_energy lab b)%Z.
Proof. induction a; simpl; auto. rewrite IHa. ring. Qed.

(** The cut capacity of a labelling is its energy. *)
Theorem arc_builder_energy src snk ks lab : length src = length snk -> Forall (call_ok (length src)) ks ->
  cut_capacity (built src snk ks) (side (length src) lab) = energy src snk ks lab.
Proof.
  intros Le. unfold energy. induction ks as [|c ks IH] using rev_ind; intros F.
  - unfold built. simpl. rewrite Z.add_0_r. unfold arc_builder_new. rewrite cut_capacity_app.
    assert (G : forall a b i, length a = length b -> i + length a = length src ->
      (cut_capacity (map (fun p => (0, fst p + 1, snd p))%nat (enum_from i a)) (side (length src) lab) +
       cut_capacity (map (fun p => (fst p + 1, length src + 1, snd p))%nat (enum_from i b)) (side (length src) lab)
       = terminal_energy a b lab i)%Z).
    { induction a as [|x a IHa]; intros [|y b] i H1 H2; simpl in *; try discriminate; auto.
      rewrite <- (IHa b (S i)) by lia.
      replace (i + 1) with (S i) by lia. replace (length src + 1) with (S (length src)) by lia. simpl.
      rewrite Nat.eqb_refl. destruct (Nat.eqb_spec i (length src)); [lia|].
      destruct (lab i); simpl; lia. }
    apply G; lia.
  - apply Forall_app in F. destruct F as [F1 F2]. inversion F2; subst.
    rewrite built_snoc, pair_energy_app. destruct c as [[[f t] w] r]. unfold add_arc.
    rewrite cut_capacity_app, (IH F1). destruct H1 as (Hf & Ht & _ & _).
    assert (Sf : side (length src) lab (f + 1) = lab f).
    { replace (f + 1) with (S f) by lia. simpl. destruct (Nat.eqb_spec f (length src)); [lia|auto]. }
    assert (St : side (length src) lab (t + 1) = lab t).
    { replace (t + 1) with (S t) by lia. simpl. destruct (Nat.eqb_spec t (length src)); [lia|auto]. }
    simpl pair_energy. unfold pair_energy1. rewrite cut_capacity_app.
    destruct r; simpl; rewrite Sf, St; destruct (lab f), (lab t); simpl; lia.
Qed.

(** The built graph is accepted by [pr_terminates] and the others. *)
Theorem arc_builder_valid src snk ks : costs_ok src snk ks -> valid_graph (length src + 2) (built src snk ks).
Proof.
  intros (Le & F1 & F2 & F3). split; [lia|].
  induction ks as [|c ks IH] using rev_ind.
  - intros f t c H. unfold built, arc_builder_new in H. simpl in H.
    assert (En : forall (l : list Z) i j x, In (j, x) (enum_from i l) -> i <= j < i + length l /\ In x l).
    { induction l as [|y l IHl]; intros i j x Hin; simpl in *; [tauto|].
      destruct Hin as [Eq|Hin]; [inversion Eq; subst; split; auto; lia|].
      destruct (IHl _ _ _ Hin). split; auto. lia. }
    rewrite Forall_forall in F1, F2.
    apply in_app_iff in H. destruct H as [H|H]; apply in_map_iff in H; destruct H as ((j & x) & Eq & Hin);
    destruct (En _ _ _ _ Hin) as [H1 H2]; simpl in *; inversion Eq; subst.
    + repeat split; try lia. auto.
    + repeat split; try lia. auto.
  - apply Forall_app in F3. destruct F3 as [F3 F4]. inversion F4; subst. specialize (IH F3).
    rewrite built_snoc. destruct c as [[[f t] w] r]. intros f0 t0 c0 H. unfold add_arc in H.
    destruct H1 as (Hf & Ht & Hne & Hw).
    apply in_app_iff in H. destruct H as [H|H]; [apply (IH _ _ _ H)|].
    apply in_app_iff in H. destruct H as [[H|[]]|H].
    + inversion H; subst. repeat split; lia.
    + destruct r; [|destruct H]. destruct H as [H|[]]. inversion H; subst. repeat split; lia.
Qed.

(** The maximum flow value is the least energy, so a labelling read off after
    one more [global_relabel] minimises the energy. *)
Theorem arc_builder_min_energy src snk ks s s' : costs_ok src snk ks ->
  solved (built src snk ks) (length src + 2) s -> global_relabel s = Some s' ->
  (forall lab, (nth (length src + 1) (excess s) 0 <= energy src snk ks lab)%Z) /\
  energy src snk ks (fun i => source_side s' (i + 1)) = nth (length src + 1) (excess s) 0%Z.
Proof.
  intros Ok R E. pose proof (arc_builder_valid _ _ _ Ok) as V.
  pose proof Ok as (Le & _ & _ & F).
  destruct (pr_flow_value _ _ _ V R) as [(S & [Sc Sm] & Se) U].
  replace (length src + 2 - 1) with (length src + 1) in * by lia.
  assert (Sides : forall lab, is_cut (length src + 2) (side (length src) lab)).
  { intros lab. split; [reflexivity|]. replace (length src + 2 - 1) with (Datatypes.S (length src)) by lia.
    simpl. now rewrite Nat.eqb_refl. }
  split.
  - intros lab. rewrite <- arc_builder_energy by auto. apply U. apply Sides.
  - rewrite <- arc_builder_energy by auto.
    pose proof (pr_min_cut_after_relabel _ _ _ _ V R E) as [[C1 C2] Cm].
    assert (Ex : cut_capacity (built src snk ks) (side (length src) (fun i => source_side s' (i + 1))) =
                 cut_capacity (built src snk ks) (source_side s')).
    { apply (cut_capacity_ext (length src + 2)).
      - intros f t c Hin. destruct (proj2 V f t c Hin) as (? & ? & _). auto.
      - intros v Hv. destruct v as [|i]; simpl; [auto|].
        destruct (Nat.eqb_spec i (length src)) as [->|]; [|now rewrite Nat.add_1_r].
        replace (length src + 2 - 1) with (Datatypes.S (length src)) in C2 by lia. auto. }
    rewrite Ex, Se. apply Z.le_antisymm.
    + apply Cm; auto.
    + apply Sm. split; auto.
Qed.

(** The labelling the code reads off does not minimise the energy. *)
Theorem arc_builder_min_energy_refuted :
  exists src snk ks s, costs_ok src snk ks /\ solved (built src snk ks) (length src + 2) s /\
    exists lab, (energy src snk ks lab < energy src snk ks (fun i => source_side s (i + 1)))%Z.
Proof.
  exists [6; 0]%Z, [1; 0]%Z, [(0, 1, 5%Z, true)].
  assert (E : exists s0 s, from (built [6; 0]%Z [1; 0]%Z [(0, 1, 5%Z, true)]) 4 = Some s0 /\ find_max_flow 100 s0 = Some s /\ energy [6; 0]%Z [1; 0]%Z [(0, 1, 5%Z, true)] (fun i => source_side s (i + 1)) = 11%Z).
  { assert (Q : match from (built [6; 0]%Z [1; 0]%Z [(0, 1, 5%Z, true)]) 4 with Some s0 => match find_max_flow 100 s0 with Some s => energy [6; 0]%Z [1; 0]%Z [(0, 1, 5%Z, true)] (fun i => source_side s (i + 1)) = 11%Z | None => False end | None => False end) by (vm_compute; repeat split).
    destruct (from (built [6; 0]%Z [1; 0]%Z [(0, 1, 5%Z, true)]) 4) as [s0|]; [|destruct Q]. exists s0. destruct (find_max_flow 100 s0) as [s|]; [|destruct Q]. exists s. auto. }
  destruct E as (s0 & s & E1 & E2 & E3). exists s. split; [|split].
  - repeat split; repeat constructor; lia.
  - exists s0, 100. auto.
  - exists (fun _ => true). rewrite E3. reflexivity.
Qed.

(** ** Examples: the hypotheses are met *)

(** A five-node graph with parallel and opposite arcs. *)
Definition ex_arcs : list (nat * nat * Z) :=
  [(0, 1, 3%Z); (0, 2, 2%Z); (1, 2, 5%Z); (2, 1, 1%Z); (1, 3, 2%Z); (2, 3, 2%Z); (2, 3, 1%Z); (3, 4, 4%Z); (1, 4, 1%Z)].

Example ex_valid : valid_graph 5 ex_arcs.
Proof. split; [lia|]. intros f t c H. simpl in H. repeat destruct H as [H|H]; inversion H; subst; lia. Qed.

Example ex_solved : exists s, solved ex_arcs 5 s /\ nth 4 (excess s) 0%Z = 5%Z /\
  (forall v, v < 5 -> nth v (label s) 0 <> 4) /\ cut_capacity ex_arcs (source_side s) = 5%Z.
Proof.
  assert (E : exists s0 s, from ex_arcs 5 = Some s0 /\ find_max_flow 100 s0 = Some s /\ nth 4 (excess s) 0%Z = 5%Z /\ forallb (fun v => negb (nth v (label s) 0 =? 4)) (seq 0 5) = true /\
    cut_capacity ex_arcs (source_side s) = 5%Z).
  { assert (Q : match from ex_arcs 5 with Some s0 => match find_max_flow 100 s0 with Some s => nth 4 (excess s) 0%Z = 5%Z /\ forallb (fun v => negb (nth v (label s) 0 =? 4)) (seq 0 5) = true /\
    cut_capacity ex_arcs (source_side s) = 5%Z | None => False end | None => False end) by (vm_compute; repeat split).
    destruct (from ex_arcs 5) as [s0|]; [|destruct Q]. exists s0. destruct (find_max_flow 100 s0) as [s|]; [|destruct Q]. exists s. auto. }
  destruct E as (s0 & s & E1 & E2 & E3 & E4 & E5). exists s. split; [exists s0, 100; auto|].
  split; auto. split; auto. intros v Hv H. rewrite forallb_forall in E4.
  specialize (E4 v). rewrite H, in_seq in E4. simpl in E4. specialize (E4 ltac:(lia)). discriminate.
Qed.

Example ex_point : exists s0 s, from ex_arcs 5 = Some s0 /\ point s0 s /\ s <> s0 /\ queue s = [1; 2].
Proof.
  assert (E : exists s0 s, from ex_arcs 5 = Some s0 /\ global_relabel s0 = Some s /\ label s0 = [0; 0; 0; 0; 0] /\ label s = [5; 1; 2; 1; 0] /\ queue s = [1; 2]).
  { assert (Q : match from ex_arcs 5 with Some s0 => match global_relabel s0 with Some s => label s0 = [0; 0; 0; 0; 0] /\ label s = [5; 1; 2; 1; 0] /\ queue s = [1; 2] | None => False end | None => False end) by (vm_compute; repeat split).
    destruct (from ex_arcs 5) as [s0|]; [|destruct Q]. exists s0. destruct (global_relabel s0) as [s|]; [|destruct Q]. exists s. auto. }
  destruct E as (s0 & s & E1 & E2 & E3 & E4 & E5). exists s0, s. split; auto.
  split; [apply po_round; now constructor|]. split; auto. congruence.
Qed.

Example ex_costs : costs_ok [4; 0; 3]%Z [0; 2; 1]%Z [(0, 1, 2%Z, true); (1, 2, 5%Z, false)] /\
  energy [4; 0; 3]%Z [0; 2; 1]%Z [(0, 1, 2%Z, true); (1, 2, 5%Z, false)] (fun i => i =? 0) = 5%Z.
Proof. split; [repeat split; repeat constructor; lia|reflexivity]. Qed.

Print Assumptions pr_terminates.
Print Assumptions pr_deterministic.
Print Assumptions pr_flow_value.
Print Assumptions pr_source_side_is_cut.
Print Assumptions pr_min_cut_partial.
Print Assumptions pr_min_cut_after_relabel.
Print Assumptions pr_relabel_after_total.
Print Assumptions pr_min_cut_zero.
Print Assumptions pr_min_cut_refuted.
Print Assumptions pr_preflow.
Print Assumptions pr_labels_valid.
Print Assumptions arc_builder_energy.
Print Assumptions arc_builder_valid.
Print Assumptions arc_builder_min_energy.
Print Assumptions arc_builder_min_energy_refuted.
