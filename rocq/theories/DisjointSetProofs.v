(** Lemmas about the union-find model. *)
From Coq Require Import List Arith Bool Lia Relations Permutation Sorted.
From Verif Require Import Lib DisjointSet.
Import ListNotations.

(** [repr p x r]: following parents from [x] ends in the root [r]. *)
Inductive repr (p : list nat) : nat -> nat -> Prop :=
| repr_root x : nth_error p x = Some x -> repr p x x
| repr_step x y r : nth_error p x = Some y -> x <> y -> repr p y r -> repr p x r.

Definition ranked (rk : nat -> nat) (p : list nat) : Prop :=
  forall x y, nth_error p x = Some y -> y < length p /\ (x <> y -> rk x < rk y).

Lemma repr_fun p x r s : repr p x r -> repr p x s -> r = s.
Proof.
  intros H; revert s; induction H as [x H|x y r H Hne Hr IH]; intros s Hs.
  - inversion Hs; subst; congruence.
  - inversion Hs; subst; try congruence. apply IH. congruence.
Qed.

Lemma repr_is_root p x r : repr p x r -> nth_error p r = Some r.
Proof. induction 1; auto. Qed.

Lemma repr_lt p x r : repr p x r -> x < length p.
Proof. destruct 1; eapply nth_error_lt; eauto. Qed.

Lemma repr_rank rk p x r : ranked rk p -> repr p x r -> x = r \/ rk x < rk r.
Proof.
  intros Hk; induction 1 as [|x y r H Hne Hr IH]; auto.
  right. destruct (Hk _ _ H) as [_ Hlt]. specialize (Hlt Hne).
  destruct IH; [subst; auto|lia].
Qed.

Lemma compress rk p x r :
  ranked rk p -> repr p x r -> x <> r ->
  ranked rk (upd p x r) /\ forall y s, repr (upd p x r) y s <-> repr p y s.
Proof.
  intros Hk Hr Hne.
  assert (Hx : x < length p) by (eapply repr_lt; eauto).
  assert (Hroot := repr_is_root _ _ _ Hr).
  assert (Hroot' : nth_error (upd p x r) r = Some r) by (rewrite nth_error_upd_neq; auto).
  split.
  - intros a b Hab. rewrite upd_length.
    destruct (Nat.eq_dec x a) as [<-|Ha].
    + rewrite nth_error_upd_eq in Hab by auto. inversion Hab; subst b.
      split; [eapply nth_error_lt; eauto|intros _].
      destruct (repr_rank _ _ _ _ Hk Hr); [congruence|auto].
    + rewrite nth_error_upd_neq in Hab by auto. auto.
  - intros y s; split.
    + intros H; induction H as [y H|y z s H Hyz Hzs IH].
      * destruct (Nat.eq_dec x y) as [<-|Hxy].
        -- rewrite nth_error_upd_eq in H by auto. congruence.
        -- rewrite nth_error_upd_neq in H by auto. now apply repr_root.
      * destruct (Nat.eq_dec x y) as [<-|Hxy].
        -- rewrite nth_error_upd_eq in H by auto. inversion H; subst z.
           assert (s = r) as -> by (eapply repr_fun; [exact IH|now apply repr_root]).
           exact Hr.
        -- rewrite nth_error_upd_neq in H by auto. eapply repr_step; eauto.
    + intros H; induction H as [y H|y z s H Hyz Hzs IH].
      * destruct (Nat.eq_dec x y) as [<-|Hxy].
        -- exfalso; apply Hne. apply (repr_fun p x); [now apply repr_root|exact Hr].
        -- apply repr_root. rewrite nth_error_upd_neq; auto.
      * destruct (Nat.eq_dec x y) as [<-|Hxy].
        -- assert (s = r) as ->.
           { eapply repr_fun; [eapply repr_step; eauto|exact Hr]. }
           eapply repr_step with (y := r); auto.
           ++ now rewrite nth_error_upd_eq.
           ++ now apply repr_root.
        -- eapply repr_step with (y := z); auto. rewrite nth_error_upd_neq; auto.
Qed.

Lemma find_rec_spec rk fuel : forall p x p' r,
  ranked rk p -> find_rec fuel p x = Some (p', r) ->
  length p' = length p /\ ranked rk p' /\ repr p x r /\
  (forall y s, repr p' y s <-> repr p y s).
Proof.
  induction fuel as [|fuel IH]; intros p x p' r Hk H; simpl in H; [discriminate|].
  destruct (nth_error p x) as [px|] eqn:Ex; [|discriminate].
  destruct (Nat.eqb_spec x px) as [<-|Hne].
  - inversion H; subst. split; [auto|]. split; [auto|]. split; [now apply repr_root|tauto].
  - destruct (find_rec fuel p px) as [[p1 r1]|] eqn:Ef; [|discriminate].
    destruct (set p1 x r1) as [p2|] eqn:Es; [|discriminate].
    inversion H; subst p2 r1; clear H.
    apply set_Some in Es as [Hl ->].
    destruct (IH _ _ _ _ Hk Ef) as (L & K & R & E).
    assert (Rx : repr p x r) by (eapply repr_step; eauto).
    assert (Hxr : x <> r).
    { intros ->. destruct (repr_rank _ _ _ _ Hk R) as [<-|Hlt]; [congruence|].
      destruct (Hk _ _ Ex) as [_ H1]. specialize (H1 Hne). lia. }
    destruct (compress rk p1 x r K) as [K' E']; auto.
    { now apply E. }
    rewrite upd_length. split; [auto|]. split; [auto|]. split; [auto|].
    intros y s. rewrite E'. apply E.
Qed.

(** Fuel: nodes already on the path are distinct and of smaller rank. *)
Lemma find_rec_total rk p :
  ranked rk p ->
  forall fuel seen x,
    x < length p -> NoDup seen -> (forall z, In z seen -> z < length p /\ rk z < rk x) ->
    fuel + length seen >= S (length p) ->
    find_rec fuel p x <> None.
Proof.
  intros Hk; induction fuel as [|fuel IH]; intros seen x Hx Hnd Hs Hf.
  - exfalso.
    assert (length (x :: seen) <= length (seq 0 (length p))).
    { apply NoDup_incl_length.
      - constructor; auto. intros Hi. destruct (Hs _ Hi); lia.
      - intros z [<-|Hz]; apply in_seq; [lia|destruct (Hs _ Hz); lia]. }
    rewrite seq_length in H. simpl in H. lia.
  - simpl. destruct (nth_error_ex p x Hx) as [px Hpx]. rewrite Hpx.
    destruct (Nat.eqb_spec x px) as [->|Hne]; [discriminate|].
    destruct (Hk _ _ Hpx) as [Hpl Hrk]. specialize (Hrk Hne).
    assert (Hrec : find_rec fuel p px <> None).
    { apply (IH (x :: seen)); auto.
      - constructor; auto. intros Hi. destruct (Hs _ Hi); lia.
      - intros z [<-|Hz]; auto. destruct (Hs _ Hz); split; lia.
      - simpl; lia. }
    destruct (find_rec fuel p px) as [[p1 r]|] eqn:Ef; [|congruence].
    destruct (find_rec_spec rk _ _ _ _ _ Hk Ef) as (L & _).
    unfold set. rewrite L. destruct (Nat.ltb_spec x (length p)); [discriminate|lia].
Qed.

(** Roots and their number. *)
Definition is_root (p : list nat) (x : nat) : bool :=
  match nth_error p x with Some y => x =? y | None => false end.

Definition roots (p : list nat) : list nat := filter (is_root p) (seq 0 (length p)).

Lemma is_root_iff p x : is_root p x = true <-> nth_error p x = Some x.
Proof.
  unfold is_root. destruct (nth_error p x) as [y|]; [|split; discriminate].
  rewrite Nat.eqb_eq. split; congruence.
Qed.

Lemma root_repr p x : nth_error p x = Some x <-> repr p x x.
Proof. split; [apply repr_root|apply repr_is_root]. Qed.

Lemma in_roots p x : In x (roots p) <-> nth_error p x = Some x.
Proof.
  unfold roots. rewrite filter_In, in_seq, is_root_iff. split; [tauto|].
  intros H; split; auto. apply nth_error_lt in H. lia.
Qed.

Lemma roots_ext p q :
  length p = length q -> (forall x s, repr p x s <-> repr q x s) -> roots p = roots q.
Proof.
  intros L E. unfold roots. rewrite L. apply filter_ext. intros x.
  apply eq_true_iff_eq. rewrite !is_root_iff, !root_repr. apply E.
Qed.

(** Invariant of reachable states. *)
Definition inv (n : nat) (s : ds) : Prop :=
  length (parent s) = n /\ length (rank s) = n /\
  ranked (fun x => nth x (rank s) 0) (parent s) /\
  n_groups s = length (roots (parent s)).

Lemma repr_total n s x : inv n s -> x < n -> exists r, repr (parent s) x r.
Proof.
  intros (L & _ & K & _) Hx.
  assert (H : find_rec (S (length (parent s))) (parent s) x <> None).
  { apply (find_rec_total _ _ K) with (seen := []); simpl; try lia; try constructor; tauto. }
  destruct (find_rec _ _ _) as [[p r]|] eqn:E; [|congruence].
  exists r. now apply (find_rec_spec _ _ _ _ _ _ K) in E as (_ & _ & ? & _).
Qed.

Lemma filter_all {A} (f : A -> bool) l : (forall x, In x l -> f x = true) -> filter f l = l.
Proof.
  induction l as [|a l IH]; simpl; intros H; auto.
  rewrite (H a) by auto. f_equal. apply IH; auto.
Qed.

Lemma inv_new n : inv n (ds_new n).
Proof.
  unfold inv, ds_new; simpl. rewrite seq_length, repeat_length. repeat split; auto.
  - apply nth_error_lt in H as Hx. rewrite seq_length in *.
    assert (Hy : nth x (seq 0 n) 0 = y) by (now apply nth_error_nth).
    rewrite seq_nth in Hy by auto. lia.
  - intros Hne. apply nth_error_lt in H as Hx. rewrite seq_length in *.
    assert (Hy : nth x (seq 0 n) 0 = y) by (now apply nth_error_nth).
    rewrite seq_nth in Hy by auto. simpl in Hy. congruence.
  - unfold roots. rewrite seq_length.
    transitivity (length (seq 0 n)); [now rewrite seq_length|]. f_equal.
    symmetry. apply filter_all. intros x Hx. apply is_root_iff. apply in_seq in Hx.
    rewrite nth_error_nth' with (d := 0) by (rewrite seq_length; lia).
    now rewrite seq_nth by lia.
Qed.

Lemma repr_new n x r : repr (parent (ds_new n)) x r <-> x = r /\ x < n.
Proof.
  assert (Hr : forall y, y < n -> nth_error (parent (ds_new n)) y = Some y).
  { intros y Hy. simpl. rewrite nth_error_nth' with (d := 0) by (rewrite seq_length; lia).
    now rewrite seq_nth by lia. }
  split.
  - intros H. assert (Hx := repr_lt _ _ _ H). simpl in Hx; rewrite seq_length in Hx.
    split; auto. eapply repr_fun; [|exact H]. constructor; auto.
  - intros [-> H]. constructor; auto.
Qed.

Lemma find_set_spec n s x :
  inv n s -> x < n ->
  exists s' r, find_set s x = Some (s', r) /\ inv n s' /\ repr (parent s) x r /\
    rank s' = rank s /\ n_groups s' = n_groups s /\
    (forall y t, repr (parent s') y t <-> repr (parent s) y t).
Proof.
  intros (L & LR & K & G) Hx. unfold find_set.
  assert (H : find_rec (S (length (parent s))) (parent s) x <> None).
  { apply (find_rec_total _ _ K) with (seen := []); simpl; try lia; try constructor; tauto. }
  destruct (find_rec _ _ _) as [[p r]|] eqn:E; [|congruence].
  destruct (find_rec_spec _ _ _ _ _ _ K E) as (L' & K' & R & EQ).
  eexists _, _; split; [reflexivity|]. split.
  { split; [simpl; congruence|]. split; [auto|]. split; [auto|]. simpl.
    rewrite G. f_equal. symmetry. apply roots_ext; auto. }
  simpl; auto.
Qed.

Lemma find_set_panics s x : length (parent s) <= x -> find_set s x = None.
Proof.
  intros H. unfold find_set. simpl. apply nth_error_None in H. now rewrite H.
Qed.

Lemma in_split_filter {A} (f : A -> bool) l1 l2 :
  filter f (l1 ++ l2) = filter f l1 ++ filter f l2.
Proof. apply filter_app. Qed.

(** Turning the root [a] into a child of the root [b]. *)
Lemma graft_repr p a b :
  nth_error p a = Some a -> nth_error p b = Some b -> a <> b ->
  forall x r, repr (upd p a b) x r <->
     (repr p x r /\ r <> a) \/ (repr p x a /\ r = b).
Proof.
  intros Ha Hb Hab.
  assert (La : a < length p) by (eapply nth_error_lt; eauto).
  assert (Hb' : nth_error (upd p a b) b = Some b) by (rewrite nth_error_upd_neq; auto).
  intros x r; split.
  - intros H; induction H as [x H|x y r H Hne Hr IH].
    + destruct (Nat.eq_dec a x) as [<-|Hx].
      * rewrite nth_error_upd_eq in H by auto. congruence.
      * rewrite nth_error_upd_neq in H by auto. left; split; auto. now apply repr_root.
    + destruct (Nat.eq_dec a x) as [<-|Hx].
      * rewrite nth_error_upd_eq in H by auto. inversion H; subst y.
        right. split; [now apply repr_root|]. symmetry.
        eapply repr_fun; [exact (repr_root _ _ Hb')|exact Hr].
      * rewrite nth_error_upd_neq in H by auto.
        destruct IH as [[IH1 IH2]|[IH1 IH2]]; [left|right]; split; auto;
          eapply repr_step; eauto.
  - intros [[H Hr]|[H ->]].
    + induction H as [x H|x y r H Hne H' IH].
      * apply repr_root. rewrite nth_error_upd_neq; auto.
      * destruct (Nat.eq_dec a x) as [<-|Hx].
        -- exfalso. congruence.
        -- eapply repr_step with (y := y); auto. rewrite nth_error_upd_neq; auto.
    + assert (G : forall z, repr p z a -> repr (upd p a b) z b).
      { intros z Hz. remember a as c eqn:Ec in Hz. revert Ec.
        induction Hz as [z Hz|z y c Hz Hne Hz' IH]; intros ->.
        - eapply repr_step with (y := b); auto.
          + now rewrite nth_error_upd_eq.
          + now apply repr_root.
        - destruct (Nat.eq_dec a z) as [<-|Hz2]; [congruence|].
          eapply repr_step with (y := y); auto. rewrite nth_error_upd_neq; auto. }
      now apply G.
Qed.

Lemma NoDup_remove_one (l l' : list nat) a :
  NoDup l -> NoDup l' -> In a l ->
  (forall x, In x l' <-> In x l /\ x <> a) -> length l = S (length l').
Proof.
  intros N N' Ha E.
  assert (P : Permutation l (a :: l')).
  { apply NoDup_Permutation; auto.
    - constructor; auto. intros Hi. apply E in Hi. tauto.
    - intros x; split.
      + intros Hx. destruct (Nat.eq_dec a x); [left; auto|right; apply E; auto].
      + intros [<-|Hx]; auto. now apply E in Hx. }
  now rewrite (Permutation_length P).
Qed.

Lemma roots_NoDup p : NoDup (roots p).
Proof. apply NoDup_filter, seq_NoDup. Qed.

Lemma roots_graft p a b :
  nth_error p a = Some a -> nth_error p b = Some b -> a <> b ->
  length (roots p) = S (length (roots (upd p a b))).
Proof.
  intros Ha Hb Hab. apply NoDup_remove_one with (a := a); try apply roots_NoDup.
  - now apply in_roots.
  - intros x. rewrite !in_roots.
    assert (La : a < length p) by (eapply nth_error_lt; eauto).
    destruct (Nat.eq_dec a x) as [<-|Hx].
    + rewrite nth_error_upd_eq by auto. split; [congruence|tauto].
    + rewrite nth_error_upd_neq by auto. split; [auto|tauto].
Qed.

Lemma link_spec n s a b :
  inv n s -> nth_error (parent s) a = Some a -> nth_error (parent s) b = Some b ->
  exists s', link s a b = Some s' /\ inv n s' /\
    ((a = b /\ s' = s) \/
     (a <> b /\ exists c d, ((c = a /\ d = b) \/ (c = b /\ d = a)) /\
        (forall x r, repr (parent s') x r <->
           (repr (parent s) x r /\ r <> c) \/ (repr (parent s) x c /\ r = d)))).
Proof.
  intros (L & LR & K & G) Ha Hb. unfold link.
  destruct (Nat.eqb_spec a b) as [->|Hab].
  { exists s; split; [auto|]. split; [|auto]. repeat (split; [assumption|]). exact G. }
  assert (La := nth_error_lt _ _ _ Ha). assert (Lb := nth_error_lt _ _ _ Hb).
  destruct (nth_error_ex (rank s) a) as [ra Hra]; [lia|].
  destruct (nth_error_ex (rank s) b) as [rb Hrb]; [lia|].
  rewrite Hra, Hrb.
  assert (Nra := nth_error_nth_eq _ _ _ 0 Hra). assert (Nrb := nth_error_nth_eq _ _ _ 0 Hrb).
  destruct (Nat.ltb_spec rb ra) as [Hlt|Hge].
  - unfold set. destruct (Nat.ltb_spec b (length (parent s))); [|lia].
    assert (R := roots_graft _ b a Hb Ha (not_eq_sym Hab)).
    rewrite G, R.
    eexists; split; [reflexivity|]. split.
    + unfold inv; simpl; rewrite ?upd_length. split; [auto|]. split; [auto|]. split; [|reflexivity].
      intros x y H0. rewrite upd_length. destruct (Nat.eq_dec b x) as [<-|Hx].
      * rewrite nth_error_upd_eq in H0 by auto. inversion H0; subst y. split; [auto|lia].
      * rewrite nth_error_upd_neq in H0 by auto. now apply K in H0.
    + right; split; auto. exists b, a; split; auto. simpl.
      apply graft_repr; auto.
  - unfold set. destruct (Nat.ltb_spec a (length (parent s))); [|lia].
    assert (R := roots_graft _ a b Ha Hb Hab).
    destruct (Nat.eqb_spec ra rb) as [He|Hne].
    + destruct (Nat.ltb_spec b (length (rank s))); [|lia].
      rewrite G, R.
      eexists; split; [reflexivity|]. split.
      * assert (KK : forall x y, nth_error (upd (parent s) a b) x = Some y ->
           y < length (parent s) /\ (x <> y ->
             nth x (upd (rank s) b (rb + 1)) 0 < nth y (upd (rank s) b (rb + 1)) 0)).
        { intros x y Hxy. destruct (Nat.eq_dec a x) as [<-|Hx].
          - rewrite nth_error_upd_eq in Hxy by auto. inversion Hxy; subst y.
            split; auto. intros _. rewrite nth_upd_eq by lia.
            rewrite nth_upd_neq by auto. lia.
          - rewrite nth_error_upd_neq in Hxy by auto. destruct (K _ _ Hxy) as [Hy Hk].
            split; auto. intros Hxy'. specialize (Hk Hxy').
            destruct (Nat.eq_dec b x) as [<-|Hbx]; [congruence|].
            rewrite nth_upd_neq by auto.
            destruct (Nat.eq_dec b y) as [<-|Hby].
            + rewrite nth_upd_eq by lia. lia.
            + now rewrite nth_upd_neq by auto. }
        unfold inv; simpl; rewrite ?upd_length. split; [auto|]. split; [auto|].
        split; [|reflexivity]. intros x y Hxy. rewrite upd_length. auto.
      * right; split; auto. exists a, b; split; auto. simpl. apply graft_repr; auto.
    + rewrite G, R. eexists; split; [reflexivity|]. split.
      * unfold inv; simpl; rewrite ?upd_length. split; [auto|]. split; [auto|]. split; [|reflexivity].
        intros x y H0. rewrite upd_length. destruct (Nat.eq_dec a x) as [<-|Hx].
        -- rewrite nth_error_upd_eq in H0 by auto. inversion H0; subst y. split; [auto|lia].
        -- rewrite nth_error_upd_neq in H0 by auto. now apply K in H0.
      * right; split; auto. exists a, b; split; auto. simpl. apply graft_repr; auto.
Qed.

(** The equivalence computed by a state. *)
Definition same (s : ds) (x y : nat) : Prop :=
  exists r, repr (parent s) x r /\ repr (parent s) y r.

Lemma merge_spec n s x y :
  inv n s -> x < n -> y < n ->
  exists s', merge s x y = Some s' /\ inv n s' /\
    forall u v, same s' u v <->
      same s u v \/ (same s u x /\ same s v y) \/ (same s u y /\ same s v x).
Proof.
  intros I Hx Hy. unfold merge.
  destruct (find_set_spec n s x I Hx) as (s1 & a & E1 & I1 & R1 & _ & _ & Q1).
  rewrite E1.
  destruct (find_set_spec n s1 y I1 Hy) as (s2 & b & E2 & I2 & R2 & _ & _ & Q2).
  rewrite E2.
  apply Q1 in R2.
  assert (A1 : nth_error (parent s2) a = Some a).
  { apply root_repr, Q2, Q1, root_repr. eapply repr_is_root; eauto. }
  assert (B1 : nth_error (parent s2) b = Some b).
  { apply root_repr, Q2, Q1, root_repr. eapply repr_is_root; eauto. }
  destruct (link_spec n s2 a b I2 A1 B1) as (s3 & E3 & I3 & C).
  exists s3; split; auto; split; auto.
  assert (Q : forall u t, repr (parent s2) u t <-> repr (parent s) u t).
  { intros u t. rewrite Q2. apply Q1. }
  assert (Sx : forall u, same s u x <-> repr (parent s) u a).
  { intros u; split; [intros (r & H1 & H2)|intros; exists a; auto].
    now rewrite (repr_fun _ _ _ _ R1 H2). }
  assert (Sy : forall u, same s u y <-> repr (parent s) u b).
  { intros u; split; [intros (r & H1 & H2)|intros; exists b; auto].
    now rewrite (repr_fun _ _ _ _ R2 H2). }
  intros u v. rewrite !Sx, !Sy.
  destruct C as [[-> ->]|(Hab & c & d & Hcd & C)].
  - unfold same. setoid_rewrite Q. split; [tauto|].
    intros [H|[[H1 H2]|[H1 H2]]]; eauto.
  - unfold same. setoid_rewrite C. setoid_rewrite Q. split.
    + intros (r & [[H1 H2]|[H1 H2]] & [[H3 H4]|[H3 H4]]); subst.
      * left; eauto.
      * destruct Hcd as [[-> ->]|[-> ->]]; tauto.
      * destruct Hcd as [[-> ->]|[-> ->]]; tauto.
      * left; eauto.
    + intros [(r & H1 & H2)|[[H1 H2]|[H1 H2]]].
      * destruct (Nat.eq_dec r c) as [->|Hrc]; [exists d|exists r]; auto.
      * exists d. destruct Hcd as [[-> ->]|[-> ->]]; auto.
      * exists d. destruct Hcd as [[-> ->]|[-> ->]]; auto.
Qed.

Lemma merge_panics n s x y : inv n s -> n <= x \/ n <= y -> merge s x y = None.
Proof.
  intros I H. unfold merge.
  destruct (Nat.lt_ge_cases x n) as [Hx|Hx].
  - destruct (find_set_spec n s x I Hx) as (s1 & a & E1 & I1 & _). rewrite E1.
    rewrite (find_set_panics s1 y); auto. destruct I1 as [-> _]. lia.
  - rewrite find_set_panics; auto. destruct I as [-> _]. lia.
Qed.

(** output *)
Definition groups_ok (s : ds) (done : list nat) (m : list (nat * list nat)) : Prop :=
  NoDup (map fst m) /\
  (forall k g, In (k, g) m -> g <> [] /\ StronglySorted lt g /\
     forall i, In i g <-> In i done /\ repr (parent s) i k) /\
  (forall i, In i done -> exists k g, In (k, g) m /\ In i g) /\
  Permutation (concat (map snd m)) done.

Lemma push_entry_keys m k v x :
  In x (map fst (push_entry m k v)) <-> x = k \/ In x (map fst m).
Proof.
  induction m as [|[k' g] m IH]; simpl.
  - intuition.
  - destruct (Nat.eqb_spec k' k) as [->|]; simpl; rewrite ?IH; intuition.
Qed.

Lemma push_entry_NoDup m k v : NoDup (map fst m) -> NoDup (map fst (push_entry m k v)).
Proof.
  induction m as [|[k' g] m IH]; simpl; intros H.
  - repeat constructor; auto.
  - inversion H; subst. destruct (Nat.eqb_spec k' k) as [->|]; simpl; constructor; auto.
    rewrite push_entry_keys. intros [->|?]; auto.
Qed.

Lemma push_entry_In m k v : NoDup (map fst m) ->
  forall k' g', In (k', g') (push_entry m k v) <->
    (k' <> k /\ In (k', g') m) \/
    (k' = k /\ ((exists g, In (k, g) m /\ g' = g ++ [v]) \/
                (~ In k (map fst m) /\ g' = [v]))).
Proof.
  induction m as [|[k0 g0] m IH]; simpl; intros N k' g'.
  - split.
    + intros [H|[]]. inversion H; subst. right; auto.
    + intros [[_ []]|(-> & [(g & [] & _)|[_ ->]])]; auto.
  - inversion N; subst. destruct (Nat.eqb_spec k0 k) as [->|Hk]; simpl.
    + split.
      * intros [H|H].
        -- inversion H; subst. right; split; auto. left. eauto.
        -- left. split; auto. intros ->. apply H1. apply in_map_iff.
           exists (k, g'); auto.
      * intros [[Hn [H|H]]|(-> & [(g & [H|H] & ->)|[Hn _]])]; auto.
        -- inversion H; congruence.
        -- inversion H; subst; auto.
        -- exfalso. apply H1. apply in_map_iff. exists (k, g); auto.
        -- exfalso; auto.
    + rewrite IH by auto. split.
      * intros [H|[[Hn H]|(-> & [(g & H & ->)|[Hn ->]])]].
        -- inversion H; subst. left; split; auto.
        -- left; auto.
        -- right; split; auto. left; eauto.
        -- right; split; auto. right; split; auto. intros [|]; auto.
      * intros [[Hn [H|H]]|(-> & [(g & [H|H] & ->)|[Hn ->]])]; auto.
        -- inversion H; congruence.
        -- right; right; split; auto. left; eauto.
        -- right; right; split; auto. right; split; auto.
Qed.

Lemma push_entry_perm m k v :
  Permutation (concat (map snd (push_entry m k v))) (concat (map snd m) ++ [v]).
Proof.
  induction m as [|[k0 g0] m IH]; simpl; auto.
  destruct (k0 =? k); simpl.
  - rewrite <- !app_assoc. apply Permutation_app_head. apply Permutation_app_comm.
  - rewrite IH. now rewrite app_assoc.
Qed.

Lemma SSorted_snoc l (v : nat) :
  StronglySorted lt l -> (forall x, In x l -> x < v) -> StronglySorted lt (l ++ [v]).
Proof.
  induction 1 as [|a l S IH F]; simpl; intros H.
  - repeat constructor.
  - constructor; auto. apply Forall_app; split; auto.
Qed.

Lemma output_loop_spec n : forall is s done m,
  inv n s -> (forall i, In i is -> i < n) ->
  StronglySorted lt (done ++ is) -> groups_ok s done m ->
  exists s' m', output_loop is s m = Some (s', m') /\ inv n s' /\
    n_groups s' = n_groups s /\
    (forall x r, repr (parent s') x r <-> repr (parent s) x r) /\
    groups_ok s (done ++ is) m'.
Proof.
  induction is as [|i is IH]; intros s done m I Hi Hs G; simpl.
  - exists s, m. rewrite app_nil_r. split; [auto|]. repeat (split; auto); apply G.
  - destruct (find_set_spec n s i I) as (s1 & r & E & I1 & R & _ & Gn & Q); [apply Hi; now left|].
    rewrite E.
    assert (Hmem : forall x, In x done -> x < i).
    { clear -Hs. induction done as [|d done IHd]; simpl in *; [tauto|].
      inversion Hs; subst. intros x [<-|Hx]; auto.
      rewrite Forall_forall in H2. apply H2. apply in_or_app; right; now left. }
    assert (G1 : groups_ok s (done ++ [i]) (push_entry m r i)).
    { destruct G as (N & M & C & P). split; [|split; [|split]].
      - now apply push_entry_NoDup.
      - intros k g Hkg. apply push_entry_In in Hkg; auto.
        destruct Hkg as [[Hk Hkg]|(-> & [(g0 & Hg0 & ->)|[Hn ->]])].
        + destruct (M _ _ Hkg) as (A & B & D). repeat split; auto.
          * rewrite in_app_iff. left. now apply D.
          * now apply D.
          * intros [H1 H2]. apply D. split; auto. apply in_app_iff in H1 as [H1|[<-|[]]]; auto.
            exfalso; apply Hk. eapply repr_fun; eauto.
        + destruct (M _ _ Hg0) as (A & B & D). split; [|split].
          * destruct g0; discriminate.
          * apply SSorted_snoc; auto. intros x Hx. apply Hmem. now apply D.
          * intros j. rewrite !in_app_iff, D. simpl. split.
            -- intros [[? ?]|[<-|[]]]; auto.
            -- intros [[?|[<-|[]]] ?]; auto.
        + split; [discriminate|]. split; [repeat constructor|].
          intros j. rewrite in_app_iff. simpl. split.
          * intros [<-|[]]; auto.
          * intros [[H1|[<-|[]]] H2]; auto. exfalso.
            destruct (C _ H1) as (k & g & Hkg & Hj).
            destruct (M _ _ Hkg) as (_ & _ & D). apply D in Hj as [_ Hj].
            apply Hn. assert (k = r) as -> by (eapply repr_fun; eauto).
            apply in_map_iff. exists (r, g); auto.
      - intros j Hj. apply in_app_iff in Hj as [Hj|[<-|[]]].
        + destruct (C _ Hj) as (k & g & Hkg & Hg).
          destruct (Nat.eq_dec k r) as [->|Hk].
          * exists r, (g ++ [i]). split; [|apply in_app_iff; auto].
            apply push_entry_In; auto. right; split; auto. left; eauto.
          * exists k, g. split; auto. apply push_entry_In; auto.
        + destruct (in_dec Nat.eq_dec r (map fst m)) as [Hin|Hin].
          * apply in_map_iff in Hin as ((k & g) & Hk & Hkg). simpl in Hk; subst k.
            exists r, (g ++ [i]). split; [|apply in_app_iff; right; now left].
            apply push_entry_In; auto. right; split; auto. left; eauto.
          * exists r, [i]. split; [|now left]. apply push_entry_In; auto.
      - rewrite push_entry_perm. now apply Permutation_app_tail. }
    destruct (IH s1 (done ++ [i]) (push_entry m r i)) as (s' & m' & E' & I' & Gn' & Q' & G'); auto.
    + intros j Hj; apply Hi; now right.
    + rewrite <- app_assoc. simpl. auto.
    + destruct G1 as (N & M & C & P). split; [|split; [|split]]; auto.
      intros k g Hkg. destruct (M _ _ Hkg) as (A & B & D). repeat split; auto; 
        [apply D; auto|apply Q, D; auto|].
      intros [H1 H2]. apply D; split; auto. now apply Q.
    + exists s', m'. split; auto. split; auto. split; [congruence|]. split.
      { intros x t. rewrite Q'. apply Q. }
      rewrite <- app_assoc in G'. simpl in G'.
      destruct G' as (N & M & C & P). split; [|split; [|split]]; auto.
      intros k g Hkg. destruct (M _ _ Hkg) as (A & B & D). repeat split; auto; 
        [apply D; auto|apply Q, D; auto|].
      intros [H1 H2]. apply D; split; auto. now apply Q.
Qed.

Lemma seq_SSorted a n : StronglySorted lt (seq a n).
Proof.
  revert a; induction n; simpl; intros; constructor; auto.
  apply Forall_forall. intros x Hx. apply in_seq in Hx. lia.
Qed.

Lemma output_spec n s :
  inv n s ->
  exists s' m, output s = Some (s', m) /\ inv n s' /\ n_groups s' = n_groups s /\
    (forall x r, repr (parent s') x r <-> repr (parent s) x r) /\
    groups_ok s (seq 0 n) m.
Proof.
  intros I. unfold output. destruct I as (L & I').
  rewrite L.
  destruct (output_loop_spec n (seq 0 n) s [] []) as (s' & m' & H); auto.
  - now split.
  - intros i Hi. apply in_seq in Hi; lia.
  - apply seq_SSorted.
  - split; [|split; [|split]]; simpl; auto; try tauto. constructor.
  - exists s', m'. exact H.
Qed.

(** The connectivity relation of the merges of a history. *)
Definition merged (os : list op) (x y : nat) : Prop := In (Merge x y) os.

Lemma same_refl n s x : inv n s -> x < n -> same s x x.
Proof. intros I H. destruct (repr_total n s x I H) as [r Hr]. exists r; auto. Qed.

Lemma same_sym s x y : same s x y -> same s y x.
Proof. intros (r & ? & ?); exists r; auto. Qed.

Lemma same_trans s x y z : same s x y -> same s y z -> same s x z.
Proof.
  intros (r & H1 & H2) (t & H3 & H4). rewrite (repr_fun _ _ _ _ H2 H3) in H1.
  exists t; auto.
Qed.

Definition in_range (n : nat) (o : op) : Prop :=
  match o with Merge x y => x < n /\ y < n | Output => True end.

Lemma step_spec n s o :
  inv n s -> in_range n o ->
  exists s', step s o = Some s' /\ inv n s' /\
    forall u v, same s' u v <->
      same s u v \/ match o with
                    | Merge x y => (same s u x /\ same s v y) \/ (same s u y /\ same s v x)
                    | Output => False
                    end.
Proof.
  intros I H. destruct o as [x y|]; simpl in *.
  - apply merge_spec with (n := n); tauto.
  - destruct (output_spec n s I) as (s' & m & E & I' & _ & Q & _).
    rewrite E. exists s'. split; auto. split; auto.
    intros u v. unfold same. setoid_rewrite Q. tauto.
Qed.

Lemma run_from_spec n : forall os s,
  inv n s -> Forall (in_range n) os ->
  exists s', run_from s os = Some s' /\ inv n s' /\
    forall u v, u < n -> v < n -> (same s' u v <->
      clos_refl_sym_trans _ (fun a b => same s a b \/ merged os a b) u v).
Proof.
  induction os as [|o os IH]; intros s I F; simpl.
  - exists s; split; auto; split; auto. intros u v Hu Hv. split.
    + intros H. apply rst_step; auto.
    + intros H. 
      assert (G : forall a b, clos_refl_sym_trans _ (fun a b => same s a b \/ merged [] a b) a b ->
          a = b \/ same s a b).
      { induction 1 as [a b [H1|[]]| |a b H1 IH1|a b c H1 IH1 H2 IH2]; auto.
        - destruct IH1 as [->|]; auto. right; now apply same_sym.
        - destruct IH1 as [->|], IH2 as [<-|]; auto. right; eapply same_trans; eauto. }
      destruct (G _ _ H) as [->|]; auto. eapply same_refl; eauto.
  - inversion F as [|? ? Ho F']; subst.
    destruct (step_spec n s o I Ho) as (s1 & E1 & I1 & Q1). rewrite E1.
    destruct (IH s1 I1 F') as (s2 & E2 & I2 & Q2).
    exists s2; split; auto; split; auto.
    intros u v Hu Hv. rewrite (Q2 u v Hu Hv). clear Hu Hv. split.
    + intros H. induction H as [a b [H|H]| |a b H IHr|a b c H1 IH1 H2 IH2].
      * apply Q1 in H as [H|H]; [apply rst_step; auto|].
        destruct o as [x y|]; [|tauto].
        assert (M : clos_refl_sym_trans nat
           (fun a b => same s a b \/ merged (Merge x y :: os) a b) x y).
        { apply rst_step; right; now left. }
        destruct H as [[H1 H2]|[H1 H2]].
        -- eapply rst_trans; [apply rst_step; left; exact H1|].
           eapply rst_trans; [exact M|]. apply rst_sym, rst_step; auto.
        -- eapply rst_trans; [apply rst_step; left; exact H1|].
           eapply rst_trans; [apply rst_sym; exact M|]. apply rst_sym, rst_step; auto.
      * apply rst_step. right. right. exact H.
      * apply rst_refl.
      * apply rst_sym; auto.
      * eapply rst_trans; eauto.
    + intros H. induction H as [a b [H|[H|H]]| |a b H IHr|a b c H1 IH1 H2 IH2].
      * apply rst_step; left. apply Q1; auto.
      * subst o. apply rst_step; left. apply Q1. right. left.
        destruct Ho. split; eapply same_refl; eauto.
      * apply rst_step; right; auto.
      * apply rst_refl.
      * apply rst_sym; auto.
      * eapply rst_trans; eauto.
Qed.

Lemma run_spec n os :
  Forall (in_range n) os ->
  exists s, run n os = Some s /\ inv n s /\
    forall u v, u < n -> v < n ->
      (same s u v <-> clos_refl_sym_trans _ (merged os) u v).
Proof.
  intros F. destruct (run_from_spec n os (ds_new n) (inv_new n) F) as (s & E & I & Q).
  exists s; split; auto; split; auto. intros u v Hu Hv. rewrite (Q u v Hu Hv). clear Hu Hv.
  split; intros H.
  - induction H as [a b [H|H]| | |].
    + destruct H as (r & H1 & H2). apply repr_new in H1, H2.
      destruct H1, H2; subst. apply rst_refl.
    + now apply rst_step.
    + apply rst_refl.
    + now apply rst_sym.
    + eapply rst_trans; eauto.
  - induction H; [apply rst_step; auto|apply rst_refl|now apply rst_sym|eapply rst_trans; eauto].
Qed.

Lemma run_range n : forall os s s',
  inv n s -> run_from s os = Some s' -> Forall (in_range n) os.
Proof.
  induction os as [|o os IH]; intros s s' I H; simpl in *; constructor.
  - destruct o as [x y|]; simpl; auto.
    destruct (Nat.lt_ge_cases x n); [destruct (Nat.lt_ge_cases y n)|]; auto;
      simpl in H; rewrite (merge_panics n) in H by auto; discriminate.
  - destruct (step s o) as [s1|] eqn:E; [|discriminate].
    assert (R : in_range n o).
    { destruct o as [x y|]; simpl; auto.
      destruct (Nat.lt_ge_cases x n); [destruct (Nat.lt_ge_cases y n)|]; auto;
        simpl in E; rewrite (merge_panics n) in E by auto; discriminate. }
    destruct (step_spec n s o I R) as (s2 & E2 & I2 & _).
    rewrite E in E2. inversion E2; subst. eauto.
Qed.
