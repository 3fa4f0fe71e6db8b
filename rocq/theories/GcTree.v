(** GraphCut: the search trees, chains of parents, growing. *)
From Coq Require Import ZArith List Bool Arith Lia.
From Verif Require Import Lib GraphCut GcBase.
Import ListNotations.

(** * The trees *)
(** [u] comes after [v] on the way to the terminal. *)
Definition above (t : tree) (u v : nat) : Prop := ts t v < ts t u \/ (ts t v = ts t u /\ dist t u < dist t v).
Record order (g : graph) (t : tree) (now : nat) : Prop := {
  od_dist : forall v, v < n_nodes g -> 1 <= dist t v;
  od_ts : forall v, v < n_nodes g -> ts t v <= now;
  od_term : forall v, v < n_nodes g -> parent t v = PTerm -> dist t v = 1;
  od_arc : forall v a, v < n_nodes g -> parent t v = PArc a -> above t (head g a) v }.
Record shape (g : graph) (r c : nat -> Z) (t : tree) : Prop := {
  sh_none : forall v, v < n_nodes g -> parent t v = PNone -> c v = 0%Z;
  sh_orph : forall v, v < n_nodes g -> parent t v = POrphan -> c v = 0%Z;
  sh_term : forall v, v < n_nodes g -> parent t v = PTerm -> if is_sink t v then (c v < 0)%Z else (0 < c v)%Z;
  sh_arc : forall v a, v < n_nodes g -> parent t v = PArc a ->
    a < n_arcs g /\ tail g a = v /\ c v = 0%Z /\ parent t (head g a) <> PNone /\
    is_sink t (head g a) = is_sink t v /\ (0 < side_cap (is_sink t v) g r a)%Z }.
Definition inT (t : tree) (side : bool) (v : nat) : Prop := parent t v <> PNone /\ is_sink t v = side.
(** A residual arc from a node of a tree which is not active leads to the same tree. *)
Definition passive (g : graph) (r : nat -> Z) (t : tree) (act : nat -> bool) : Prop :=
  forall side a, a < n_arcs g -> side_cap (negb side) g r a <> 0%Z ->
    inT t side (tail g a) -> act (tail g a) = false -> inT t side (head g a).

Lemma above_trans : forall t a b c, above t a b -> above t b c -> above t a c.
Proof. unfold above. intros. lia. Qed.
Lemma above_irr : forall t a, ~ above t a a.
Proof. unfold above. intros. lia. Qed.

(** * Chains of parents *)
Inductive chain (g : graph) (p : nat -> par) : nat -> list nat -> nat -> Prop :=
| ch_end : forall v, p v = PTerm \/ p v = POrphan -> chain g p v [v] v
| ch_step : forall v a l e, p v = PArc a -> chain g p (head g a) l e -> chain g p v (v :: l) e.
Lemma chain_ex : forall g r c t now, gwf g -> order g t now -> shape g r c t ->
  forall v, v < n_nodes g -> parent t v <> PNone ->
  exists l e, chain g (parent t) v l e /\ (forall u, In u l -> u < n_nodes g /\ inT t (is_sink t v) u) /\
    (forall u, In u l -> u = v \/ above t u v) /\ NoDup l.
Proof.
  intros g r c t now W O S.
  assert (H : forall k, forall d v, v < n_nodes g -> now - ts t v <= k -> dist t v <= d -> parent t v <> PNone ->
    exists l e, chain g (parent t) v l e /\ (forall u, In u l -> u < n_nodes g /\ inT t (is_sink t v) u) /\
      (forall u, In u l -> u = v \/ above t u v) /\ NoDup l).
  { induction k as [k IHk] using (well_founded_induction lt_wf).
    induction d as [d IHd] using (well_founded_induction lt_wf). intros v Hv Hk Hd NP.
    destruct (parent t v) as [| | |a] eqn:E; [tauto| | |].
    - exists [v], v. split; [apply ch_end; auto|]. split; [intros u [<-|[]]; split; auto; split; congruence|].
      split; [intros u [<-|[]]; auto|]. constructor; auto. constructor.
    - exists [v], v. split; [apply ch_end; auto|]. split; [intros u [<-|[]]; split; auto; split; congruence|].
      split; [intros u [<-|[]]; auto|]. constructor; auto. constructor.
    - destruct (sh_arc _ _ _ _ S v a Hv E) as (Ha & Ta & _ & Nh & Sh & _).
      pose proof (od_arc _ _ _ O v a Hv E) as A. pose proof (gw_head g W a Ha) as Hh.
      assert (R : exists l e, chain g (parent t) (head g a) l e /\ (forall u, In u l -> u < n_nodes g /\ inT t (is_sink t (head g a)) u) /\
                 (forall u, In u l -> u = head g a \/ above t u (head g a)) /\ NoDup l).
      { pose proof (od_ts _ _ _ O (head g a) Hh). destruct A as [A|[A1 A2]].
        - apply (IHk (now - ts t (head g a)) ltac:(lia) (dist t (head g a))); auto.
        - apply (IHd (dist t (head g a)) ltac:(lia)); auto. lia. }
      destruct R as (l & e & C & B & U & N). rewrite Sh in B.
      assert (UV : forall u, In u l -> above t u v).
      { intros u Hu. destruct (U u Hu) as [->|X]; auto. eapply above_trans; eauto. }
      exists (v :: l), e. split; [econstructor; eauto|]. split; [intros u [<-|Hu]; auto; split; auto; split; congruence|].
      split; [intros u [<-|Hu]; auto|]. constructor; auto. intros I. apply (above_irr t v). auto. }
  intros v Hv NP. apply (H _ _ v Hv (le_n _) (le_n _) NP).
Qed.
Lemma chain_length : forall g p v l e n, chain g p v l e -> NoDup l -> (forall u, In u l -> u < n) -> length l <= n.
Proof. intros. apply nodup_lt_length; auto. Qed.
Lemma chain_in : forall g p v l e, chain g p v l e -> In v l /\ In e l /\ (p e = PTerm \/ p e = POrphan).
Proof. intros g p v l e C. induction C; simpl; tauto. Qed.
Lemma chain_mid : forall g p v l e, chain g p v l e -> forall u, In u l -> u = e \/ exists a, p u = PArc a /\ In (head g a) l.
Proof.
  intros g p v l e C. induction C; intros u I.
  - destruct I as [->|[]]; auto.
  - destruct I as [<-|I].
    + right. exists a. split; auto. right. apply (chain_in _ _ _ _ _ C).
    + destruct (IHC u I) as [->|(b & ? & ?)]; auto. right. exists b. split; auto. right; auto.
Qed.

(** * Growing *)
Definition free (t : tree) (v : nat) : bool := is_none (parent t v).
Lemma is_none_iff : forall p, is_none p = true <-> p = PNone.
Proof. destruct p; simpl; split; congruence. Qed.
Lemma is_none_not : forall p, is_none p = false <-> p <> PNone.
Proof. destruct p; simpl; split; congruence. Qed.
Lemma side_cap_sister : forall g r s a, sister g (sister g a) = a -> side_cap s g r (sister g a) = side_cap (negb s) g r a.
Proof. intros g r s a E. unfold side_cap. destruct s; simpl; rewrite ?E; auto. Qed.
Lemma side_cap_pos : forall g r s a, (forall a, (0 <= r a)%Z) -> (0 <= side_cap s g r a)%Z.
Proof. intros. unfold side_cap. destruct s; auto. Qed.

Lemma grow_ok : forall g r c now side i, gwf g -> (forall a, (0 <= r a)%Z) -> i < n_nodes g ->
  forall as_ t q, order g t now -> shape g r c t -> (forall v, v < n_nodes g -> parent t v <> POrphan) ->
  qok q None (n_nodes g) -> passive g r t (fun v => active q v || Nat.eqb v i) -> inT t side i ->
  (forall a, In a as_ -> a < n_arcs g /\ tail g a = i) ->
  (forall a, a < n_arcs g -> tail g a = i -> In a as_ \/ (side_cap (negb side) g r a <> 0%Z -> inT t side (head g a))) ->
  active q i = false ->
  exists t' q' o, grow side g r i as_ t q = (t', q', o) /\
    order g t' now /\ shape g r c t' /\ (forall v, v < n_nodes g -> parent t' v <> POrphan) /\
    qok q' None (n_nodes g) /\ active q' i = false /\ inT t' side i /\
    2 * cnt (free t') (n_nodes g) + cnt (active q') (n_nodes g) <= 2 * cnt (free t) (n_nodes g) + cnt (active q) (n_nodes g) /\
    match o with
    | None => passive g r t' (active q')
    | Some m => passive g r t' (fun v => active q' v || Nat.eqb v i) /\ m < n_arcs g /\ r m <> 0%Z /\ inT t' false (tail g m) /\ inT t' true (head g m)
    end.
Proof.
  intros g r c now side i W R0 Hi. induction as_ as [|a as_ IH]; intros t q O S NO Q P Ti LA SC Ai.
  - exists t, q, None. simpl. split; auto. do 7 (split; auto).
    intros sd a Ha RC In1 Act. destruct (Nat.eq_dec (tail g a) i) as [E|E].
    + destruct (SC a Ha E) as [[]|X]. rewrite E in In1. assert (sd = side) as -> by (destruct In1, Ti; congruence). auto.
    + apply (P sd a); auto. rewrite (proj2 (Nat.eqb_neq _ _) E), orb_false_r. auto.
  - destruct (LA a (or_introl eq_refl)) as [Ha Ta]. pose proof (gw_head g W a Ha) as Hj. destruct (gw_sis g W a Ha) as (S1 & S2 & S3).
    assert (LA' : forall a, In a as_ -> a < n_arcs g /\ tail g a = i) by (intros; apply LA; right; auto).
    cbn [grow]. set (j := head g a) in *.
    destruct (Z.eqb_spec (side_cap (negb side) g r a) 0) as [Z0|NZ].
    { apply IH; auto. intros b Hb Tb. destruct (SC b Hb Tb) as [[<-|I]|X]; auto. right. intros; tauto. }
    assert (PZ : (0 < side_cap side g r (sister g a))%Z).
    { rewrite side_cap_sister by auto. pose proof (side_cap_pos g r (negb side) a R0). lia. }
    destruct (is_none (parent t j)) eqn:PN.
    + apply is_none_iff in PN.
      assert (Nij : i <> j) by (intros E; destruct Ti as [X _]; rewrite E in X; auto).
      set (t1 := Tree (fupd (is_sink t) j side) (fupd (parent t) j (PArc (sister g a))) (fupd (ts t) j (ts t i)) (fupd (dist t) j (1 + dist t i))).
      assert (NH : forall v b, v < n_nodes g -> parent t v = PArc b -> head g b <> j).
      { intros v b Hv Eb E. destruct (sh_arc _ _ _ _ S v b Hv Eb) as (_ & _ & _ & X & _). rewrite E in X. auto. }
      assert (NF : forall u, u <> j -> inT t1 side u <-> inT t side u).
      { intros u Hu. unfold inT, t1. simpl. rewrite !fupd_neq by auto. tauto. }
      assert (TJ : inT t1 side j). { unfold inT, t1. simpl. rewrite !fupd_eq. split; [discriminate|auto]. }
      assert (MON : forall sd u, inT t sd u -> inT t1 sd u).
      { intros sd u [X1 X2]. unfold inT, t1. simpl. rewrite !fupd_neq by congruence. auto. }
      destruct (set_active_ok q None (n_nodes g) j Q Hj) as [Q1 A1].
      destruct (IH t1 (set_active q j)) as (t' & q' & o & E & K); auto.
      * constructor; unfold t1; cbn [dist ts parent is_sink].
        -- intros v Hv. fcase v j; [lia|apply (od_dist _ _ _ O); auto].
        -- intros v Hv. fcase v j; apply (od_ts _ _ _ O); auto.
        -- intros v Hv. fcase v j; [discriminate|]. apply (od_term _ _ _ O); auto.
        -- intros v b Hv. unfold above. cbn [dist ts]. fcase v j.
           ++ intros X. injection X as <-. rewrite S2 || idtac. fold (tail g a). rewrite Ta. rewrite !fupd_neq by auto. right. lia.
           ++ intros X. rewrite !(fupd_neq _ j) by (eapply NH; eauto). apply (od_arc _ _ _ O v b Hv X).
      * constructor; unfold t1; cbn [dist ts parent is_sink].
        -- intros v Hv. fcase v j; [discriminate|]. apply (sh_none _ _ _ _ S); auto.
        -- intros v Hv. fcase v j; [discriminate|]. apply (sh_orph _ _ _ _ S); auto.
        -- intros v Hv. fcase v j; [discriminate|]. apply (sh_term _ _ _ _ S); auto.
        -- intros v b Hv. fcase v j.
           ++ intros X. injection X as <-. rewrite S2. fold (tail g a). rewrite Ta, !fupd_neq by auto.
              do 2 (split; auto). split; [apply (sh_none _ _ _ _ S); auto|]. split; [apply Ti|]. split; [apply Ti|auto].
           ++ intros X. rewrite !(fupd_neq _ j) by (eapply NH; eauto). apply (sh_arc _ _ _ _ S v b Hv X).
      * intros v Hv. unfold t1. simpl. fcase v j; [discriminate|auto].
      * intros sd b Hb RC In1 Act. rewrite A1 in Act. apply orb_false_iff in Act. destruct Act as [Act Ab].
        apply orb_false_iff in Act. destruct Act as [Act Aj]. apply Nat.eqb_neq in Aj.
        apply MON. apply (P sd b); auto.
        -- destruct In1 as [X1 X2]. unfold t1 in X1, X2. simpl in X1, X2. rewrite fupd_neq in X1 by auto. rewrite fupd_neq in X2 by auto. split; auto.
        -- rewrite Act, Ab. auto.
      * intros b Hb Tb. destruct (SC b Hb Tb) as [[<-|I]|X]; auto.
      * rewrite A1, Ai. apply Nat.eqb_neq. auto.
      * exists t', q', o. split; auto. destruct K as (K1 & K2 & K3 & K4 & K5 & K6 & K7 & K8).
        do 6 (split; auto). split; auto.
        assert (L1 : cnt (free t1) (n_nodes g) < cnt (free t) (n_nodes g)).
        { apply cnt_lt with (u := j); auto.
          - intros v Hv. unfold free, t1. simpl. fcase v j; [discriminate|auto].
          - unfold free, t1. simpl. rewrite fupd_eq. auto.
          - unfold free. rewrite PN. auto. }
        assert (L2 : cnt (active (set_active q j)) (n_nodes g) <= 1 + cnt (active q) (n_nodes g)).
        { apply cnt_add1 with (u := j). intros v Hv N. rewrite A1, (proj2 (Nat.eqb_neq v j) N), orb_false_r. auto. }
        lia.
    + apply is_none_not in PN.
      destruct (Bool.eqb (is_sink t j) side) eqn:ES; cbn [negb].
      * apply eqb_prop in ES. assert (TJ : inT t side j) by (split; auto).
        destruct (Nat.leb (ts t j) (ts t i) && Nat.ltb (dist t i) (dist t j)) eqn:CL.
        -- apply andb_prop in CL. destruct CL as [CL1 CL2]. apply Nat.leb_le in CL1. apply Nat.ltb_lt in CL2.
           assert (Nij : i <> j) by (intros E; rewrite E in CL2; lia).
           assert (Pj : exists b0, parent t j = PArc b0).
           { destruct (parent t j) eqn:E; [tauto| | |eauto].
             - pose proof (od_term _ _ _ O j Hj E). pose proof (od_dist _ _ _ O i Hi). lia.
             - destruct (NO j Hj E). }
           destruct Pj as [b0 Pj]. destruct (sh_arc _ _ _ _ S j b0 Hj Pj) as (_ & _ & Cj & _).
           set (t1 := Tree (is_sink t) (fupd (parent t) j (PArc (sister g a))) (fupd (ts t) j (ts t i)) (fupd (dist t) j (1 + dist t i))).
           assert (EQT : forall sd u, inT t1 sd u <-> inT t sd u).
           { intros sd u. unfold inT, t1. simpl. fcase u j; [|tauto]. split; intros [X1 X2]; split; auto. discriminate. }
           destruct (IH t1 q) as (t' & q' & o & E & K); auto.
           ++ constructor; unfold t1; cbn [dist ts parent is_sink].
              ** intros v Hv. fcase v j; [lia|apply (od_dist _ _ _ O); auto].
              ** intros v Hv. fcase v j; apply (od_ts _ _ _ O); auto.
              ** intros v Hv. fcase v j; [discriminate|]. apply (od_term _ _ _ O); auto.
              ** intros v b Hv. unfold above. cbn [dist ts]. fcase v j.
                 --- intros X. injection X as <-. fold (tail g a). rewrite Ta. rewrite !fupd_neq by auto. right. lia.
                 --- intros X. pose proof (od_arc _ _ _ O v b Hv X) as A. unfold above in A.
                     destruct (Nat.eq_dec (head g b) j) as [Eb|Eb]; [rewrite Eb in *; rewrite !fupd_eq|rewrite !fupd_neq by auto; auto]. lia.
           ++ constructor; unfold t1; cbn [dist ts parent is_sink].
              ** intros v Hv. fcase v j; [discriminate|]. apply (sh_none _ _ _ _ S); auto.
              ** intros v Hv. fcase v j; [discriminate|]. apply (sh_orph _ _ _ _ S); auto.
              ** intros v Hv. fcase v j; [discriminate|]. apply (sh_term _ _ _ _ S); auto.
              ** intros v b Hv. fcase v j.
                 --- intros X. injection X as <-. rewrite S2. fold (tail g a). rewrite Ta, !fupd_neq by auto.
                     do 3 (split; auto). split; [apply Ti|]. rewrite ES. split; [apply Ti|auto].
                 --- intros X. destruct (sh_arc _ _ _ _ S v b Hv X) as (X1 & X2 & X3 & X4 & X5 & X6).
                     do 3 (split; auto). split; auto. fcase (head g b) j; [discriminate|auto].
           ++ intros v Hv. unfold t1. simpl. fcase v j; [discriminate|auto].
           ++ intros sd b Hb RC In1 Act. apply EQT. apply EQT in In1. apply (P sd b); auto.
           ++ apply EQT. auto.
           ++ intros b Hb Tb. destruct (SC b Hb Tb) as [[<-|I]|X]; auto; right; intros; apply EQT; auto.
           ++ exists t', q', o. split; auto. destruct K as (K1 & K2 & K3 & K4 & K5 & K6 & K7 & K8).
              do 6 (split; auto). split; auto.
              assert (L1 : cnt (free t1) (n_nodes g) <= cnt (free t) (n_nodes g)).
              { apply cnt_le. intros v Hv. unfold free, t1. simpl. fcase v j; [discriminate|auto]. }
              lia.
        -- apply IH; auto. intros b Hb Tb. destruct (SC b Hb Tb) as [[<-|I]|X]; auto.
      * exists t, q, (Some (if side then sister g a else a)). split; auto. do 7 (split; auto). split; auto.
        assert (TJ : inT t (negb side) j).
        { split; auto. destruct (is_sink t j), side; simpl in *; congruence. }
        unfold side_cap in NZ. destruct side; simpl in *.
        -- rewrite S2. fold j. rewrite Ta. auto.
        -- rewrite Ta. auto.
Qed.
