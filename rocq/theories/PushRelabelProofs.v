(** Lemmas about the push-relabel model (PushRelabel.v). *)
From Coq Require Import List Arith ZArith Bool Lia Sorting.Sorted.
From Verif Require Import Lib PushRelabel.
Import ListNotations.
Open Scope opt_scope.

(** ** Rows and weighted sums of capacities *)
Definition row (g : network) (v : nat) : list arc := nth v g [].

Lemma arc_at_row g v i : arc_at g v i = nth_error (row g v) i.
Proof.
  unfold arc_at, row. destruct (nth_error g v) as [r|] eqn:E.
  - rewrite (nth_error_nth _ _ [] E). reflexivity.
  - apply nth_error_None in E. rewrite nth_overflow by lia. now destruct i.
Qed.

Lemma arc_at_lt g v i a : arc_at g v i = Some a -> v < length g /\ i < length (row g v).
Proof.
  intros H. split.
  - unfold arc_at in H. destruct (nth_error g v) eqn:E; [|discriminate]. eapply nth_error_lt; eauto.
  - rewrite arc_at_row in H. eapply nth_error_lt; eauto.
Qed.

Lemma row_nth_error g v : v < length g -> nth_error g v = Some (row g v).
Proof. intros. apply nth_error_nth'. auto. Qed.

Fixpoint rsum (h : nat -> Z) (r : list arc) : Z :=
  match r with [] => 0 | a :: r' => h (dist a) * cap a + rsum h r' end%Z.
Fixpoint wsum_from (k : nat) (h : nat -> nat -> Z) (g : network) : Z :=
  match g with [] => 0 | r :: g' => rsum (h k) r + wsum_from (S k) h g' end%Z.
Definition wsum := wsum_from 0.

Lemma rsum_upd h r i a c : nth_error r i = Some a ->
  rsum h (upd r i (Arc (dist a) (rev a) c)) = (rsum h r + h (dist a) * (c - cap a))%Z.
Proof.
  revert i; induction r as [|x r IH]; intros [|i] H; simpl in *; try discriminate.
  - inversion H; subst. ring.
  - rewrite (IH _ H). ring.
Qed.

Lemma wsum_upd h g : forall k v r r', nth_error g v = Some r ->
  wsum_from k h (upd g v r') = (wsum_from k h g + rsum (h (k + v)%nat) r' - rsum (h (k + v)%nat) r)%Z.
Proof.
  induction g as [|x g IH]; intros k [|v] r r' H; simpl in *; try discriminate.
  - inversion H; subst. rewrite Nat.add_0_r. ring.
  - rewrite (IH (S k) _ _ _ H). replace (S k + v) with (k + S v) by lia. ring.
Qed.

Lemma wsum_from_ext h1 h2 : forall g k,
  (forall v r, nth_error g v = Some r -> forall a, In a r -> h1 (k + v) (dist a) = h2 (k + v) (dist a)) ->
  wsum_from k h1 g = wsum_from k h2 g.
Proof.
  assert (R : forall (f1 f2 : nat -> Z) r, (forall a, In a r -> f1 (dist a) = f2 (dist a)) -> rsum f1 r = rsum f2 r).
  { induction r as [|x r IH]; simpl; intros H; auto. rewrite IH, H; auto. }
  induction g as [|r g IH]; intros k H; simpl; auto. f_equal.
  - apply R. intros a Ha. specialize (H 0 r eq_refl a Ha). now rewrite Nat.add_0_r in H.
  - apply IH. intros v r' Hv a Ha. specialize (H (S v) r' Hv a Ha).
    now replace (S k + v) with (k + S v) by lia.
Qed.

Lemma wsum_add h1 h2 : forall g k,
  wsum_from k (fun v w => h1 v w + h2 v w)%Z g = (wsum_from k h1 g + wsum_from k h2 g)%Z.
Proof.
  assert (R : forall (f1 f2 : nat -> Z) r, rsum (fun w => f1 w + f2 w)%Z r = (rsum f1 r + rsum f2 r)%Z).
  { induction r as [|x r IH]; simpl; auto. rewrite IH. ring. }
  induction g as [|r g IH]; intros k; simpl; auto. rewrite (R (h1 k) (h2 k)), IH. ring.
Qed.

Lemma wsum_nonneg h : forall g k,
  (forall v r, nth_error g v = Some r -> forall a, In a r -> (0 <= h (k + v)%nat (dist a) * cap a)%Z) ->
  (0 <= wsum_from k h g)%Z.
Proof.
  assert (R : forall (f : nat -> Z) r, (forall a, In a r -> 0 <= f (dist a) * cap a)%Z -> (0 <= rsum f r)%Z).
  { induction r as [|x r IH]; simpl; intros H; [lia|]. specialize (H x (or_introl eq_refl)) as H1.
    assert (0 <= rsum f r)%Z by (apply IH; auto). lia. }
  induction g as [|r g IH]; intros k H; simpl; [lia|].
  assert (0 <= rsum (h k) r)%Z.
  { apply R. intros a Ha. specialize (H 0 r eq_refl a Ha). now rewrite Nat.add_0_r in H. }
  assert (0 <= wsum_from (S k) h g)%Z; [|lia].
  apply IH. intros v r' Hv a Ha. specialize (H (S v) r' Hv a Ha).
  now replace (S k + v) with (k + S v) by lia.
Qed.

(** ** Changing one capacity *)
Lemma set_cap_spec g v i a c : arc_at g v i = Some a ->
  exists g', set_cap g v i c = Some g' /\ length g' = length g /\
    (forall w, length (row g' w) = length (row g w)) /\
    (forall w j, arc_at g' w j = if (v =? w) && (i =? j) then Some (Arc (dist a) (rev a) c) else arc_at g w j) /\
    (forall h, wsum h g' = (wsum h g + h v (dist a) * (c - cap a))%Z).
Proof.
  intros H. destruct (arc_at_lt _ _ _ _ H) as [Hv Hi].
  pose proof (row_nth_error _ _ Hv) as Hr. rewrite arc_at_row in H.
  unfold set_cap. rewrite Hr, H. unfold set.
  destruct (Nat.ltb_spec v (length g)) as [_|]; [|lia].
  eexists. split; [reflexivity|]. split; [apply upd_length|]. split; [|split].
  - intros w. unfold row. destruct (Nat.eq_dec v w) as [<-|N].
    + rewrite nth_upd_eq by auto. apply upd_length.
    + now rewrite nth_upd_neq.
  - intros w j. rewrite !arc_at_row. unfold row in *.
    destruct (Nat.eqb_spec v w) as [<-|N]; simpl.
    + rewrite nth_upd_eq by auto. rewrite nth_error_upd.
      destruct (Nat.eqb_spec i j); simpl; auto. destruct (Nat.ltb_spec i (length (nth v g []))); auto; lia.
    + now rewrite nth_upd_neq.
  - intros h. unfold wsum. rewrite (wsum_upd _ _ _ _ _ _ Hr), (rsum_upd _ _ _ _ _ H). simpl. ring.
Qed.

Lemma set_cap_None g v i c : arc_at g v i = None -> set_cap g v i c = None.
Proof. unfold arc_at, set_cap. destruct (nth_error g v); auto. now intros ->. Qed.

(** ** Well-formed networks *)
Definition wfnet (g : network) : Prop :=
  forall v i a, arc_at g v i = Some a ->
    dist a < length g /\ dist a <> v /\
    exists b, arc_at g (dist a) (rev a) = Some b /\ dist b = v /\ rev b = i.

(** Flow [x] moved along the arc [i] of [v]. *)
Definition moved (g : network) (v i : nat) (a b : arc) (x : Z) (g' : network) : Prop :=
  length g' = length g /\
  (forall w, length (row g' w) = length (row g w)) /\
  (forall w j, arc_at g' w j =
     if (v =? w) && (i =? j) then Some (Arc (dist a) (rev a) (cap a - x)%Z) else
     if (dist a =? w) && (rev a =? j) then Some (Arc (dist b) (rev b) (cap b + x)%Z)
     else arc_at g w j) /\
  (forall h, wsum h g' = (wsum h g + x * (h (dist a) v - h v (dist a)))%Z).

Lemma move_spec g v i a b x : arc_at g v i = Some a -> arc_at g (dist a) (rev a) = Some b ->
  dist b = v -> dist a <> v ->
  exists g1 g2, set_cap g v i (cap a - x)%Z = Some g1 /\ add_cap g1 (dist a) (rev a) x = Some g2 /\
    moved g v i a b x g2.
Proof.
  intros Ha Hb Hd Hn.
  destruct (set_cap_spec g v i a (cap a - x)%Z Ha) as (g1 & E1 & L1 & R1 & A1 & W1).
  assert (Hb1 : arc_at g1 (dist a) (rev a) = Some b).
  { rewrite A1. destruct (Nat.eqb_spec v (dist a)); [congruence|]. auto. }
  destruct (set_cap_spec g1 _ _ b (cap b + x)%Z Hb1) as (g2 & E2 & L2 & R2 & A2 & W2).
  exists g1, g2. split; [auto|]. split; [unfold add_cap; now rewrite Hb1|].
  split; [congruence|]. split; [intros; now rewrite R2, R1|]. split.
  - intros w j. rewrite A2, A1.
    destruct (Nat.eqb_spec (dist a) w) as [<-|N]; simpl; [|reflexivity].
    destruct (Nat.eqb_spec v (dist a)); [congruence|]. simpl. reflexivity.
  - intros h. rewrite W2, W1, Hd. ring.
Qed.

(** The same in the order used by [init]. *)
Lemma move_spec' g v i a b : arc_at g v i = Some a -> arc_at g (dist a) (rev a) = Some b ->
  dist b = v -> dist a <> v ->
  exists g1 g2, add_cap g (dist a) (rev a) (cap a) = Some g1 /\ set_cap g1 v i 0%Z = Some g2 /\
    moved g v i a b (cap a) g2.
Proof.
  intros Ha Hb Hd Hn.
  destruct (set_cap_spec g _ _ b (cap b + cap a)%Z Hb) as (g1 & E1 & L1 & R1 & A1 & W1).
  assert (Ha1 : arc_at g1 v i = Some a).
  { rewrite A1. destruct (Nat.eqb_spec (dist a) v); [congruence|]. auto. }
  destruct (set_cap_spec g1 _ _ a 0%Z Ha1) as (g2 & E2 & L2 & R2 & A2 & W2).
  exists g1, g2. split; [unfold add_cap; now rewrite Hb|]. split; [auto|].
  split; [congruence|]. split; [intros; now rewrite R2, R1|]. split.
  - intros w j. rewrite A2, A1, Z.sub_diag. reflexivity.
  - intros h. rewrite W2, W1, Hd. ring.
Qed.

(** ** Sums over the excess vector *)
Fixpoint esum_from (k : nat) (h : nat -> Z) (ex : list Z) : Z :=
  match ex with [] => 0 | e :: ex' => h k * e + esum_from (S k) h ex' end%Z.
Definition esum := esum_from 0.

Lemma esum_upd h ex : forall k v e, v < length ex ->
  esum_from k h (upd ex v e) = (esum_from k h ex + h (k + v)%nat * (e - nth v ex 0))%Z.
Proof.
  induction ex as [|x ex IH]; intros k [|v] e H; simpl in *; try lia.
  - rewrite Nat.add_0_r. ring.
  - rewrite (IH (S k)) by lia. replace (S k + v) with (k + S v) by lia. ring.
Qed.

Lemma esum_ge h ex : forall k v, v < length ex ->
  (forall x, x < length ex -> (0 <= h (k + x)%nat * nth x ex 0)%Z) ->
  (h (k + v)%nat * nth v ex 0 <= esum_from k h ex)%Z.
Proof.
  induction ex as [|x ex IH]; intros k [|v] H P; simpl in *; try lia.
  - rewrite Nat.add_0_r. assert (0 <= esum_from (S k) h ex)%Z; [|lia].
    clear IH H. assert (P' : forall y, y < length ex -> (0 <= h (S k + y)%nat * nth y ex 0)%Z).
    { intros y Hy. specialize (P (S y)). simpl in P. replace (S k + y) with (k + S y) by lia. apply P. lia. }
    clear P. revert k P'. induction ex as [|z ex IH]; intros k P'; simpl; [lia|].
    pose proof (P' 0 ltac:(simpl; lia)) as P0. simpl in P0. replace (k + 0) with k in P0 by lia.
    assert (0 <= esum_from (S (S k)) h ex)%Z; [|lia].
    apply IH. intros y Hy. specialize (P' (S y)). simpl in P'.
    replace (S (S k) + y) with (S (k + S y)) by lia. apply P'. lia.
  - pose proof (P 0 ltac:(lia)) as P0. simpl in P0. rewrite Nat.add_0_r in P0.
    assert (h (k + S v)%nat * nth v ex 0 <= esum_from (S k) h ex)%Z; [|lia].
    replace (k + S v) with (S k + v) by lia. apply IH; [lia|].
    intros y Hy. specialize (P (S y)). simpl in P. replace (S k + y) with (k + S y) by lia. apply P. lia.
Qed.

Lemma esum_single h ex : forall k v, v < length ex ->
  (forall x, x < length ex -> x <> v -> (h (k + x)%nat * nth x ex 0 = 0)%Z) ->
  esum_from k h ex = (h (k + v)%nat * nth v ex 0)%Z.
Proof.
  assert (Z0 : forall ex k, (forall x, x < length ex -> (h (k + x)%nat * nth x ex 0 = 0)%Z) -> esum_from k h ex = 0%Z).
  { clear. induction ex as [|x ex IH]; intros k P; simpl; auto.
    pose proof (P 0 ltac:(simpl; lia)) as P0. simpl in P0. rewrite Nat.add_0_r in P0.
    rewrite IH; [lia|]. intros y Hy. specialize (P (S y)). simpl in P.
    replace (S k + y) with (k + S y) by lia. apply P. lia. }
  induction ex as [|x ex IH]; intros k [|v] H P; simpl in *; try lia.
  - rewrite Nat.add_0_r, Z0; [lia|]. intros y Hy. specialize (P (S y)). simpl in P.
    replace (S k + y) with (k + S y) by lia. apply P; lia.
  - pose proof (P 0 ltac:(lia) ltac:(lia)) as P0. simpl in P0. rewrite Nat.add_0_r in P0.
    rewrite (IH (S k) v); [|lia|].
    + replace (S k + v) with (k + S v) by lia. lia.
    + intros y Hy Hne. specialize (P (S y)). simpl in P.
      replace (S k + y) with (k + S y) by lia. apply P; lia.
Qed.

(** ** The flow invariant, relative to the original network [g0] *)
Record Core (g0 g : network) (ex : list Z) : Prop := {
  co_len : length g = length g0;
  co_elen : length ex = length g0;
  co_rows : forall v, length (row g v) = length (row g0 v);
  co_shape : forall v i a, arc_at g v i = Some a ->
    exists a0, arc_at g0 v i = Some a0 /\ dist a0 = dist a /\ rev a0 = rev a;
  co_wf : wfnet g;
  co_cap : forall v i a, arc_at g v i = Some a -> (0 <= cap a)%Z;
  co_pair : forall v i a b a0 b0, arc_at g v i = Some a -> arc_at g (dist a) (rev a) = Some b ->
    arc_at g0 v i = Some a0 -> arc_at g0 (dist a) (rev a) = Some b0 ->
    (cap a + cap b = cap a0 + cap b0)%Z;
  co_ex : forall v, (0 <= nth v ex 0)%Z;
  co_bal : forall h, h 0 = 0%Z -> esum h ex = (wsum (fun v _ => h v) g - wsum (fun v _ => h v) g0)%Z;
  co_sym : forall h, (forall v w, h v w = h w v) -> wsum h g = wsum h g0 }.

Lemma moved_arc g v i a b x g' : moved g v i a b x g' ->
  forall w j c', arc_at g' w j = Some c' ->
  exists c, arc_at g w j = Some c /\ dist c = dist c' /\ rev c = rev c' \/
            ((w, j) = (v, i) /\ c' = Arc (dist a) (rev a) (cap a - x)%Z) \/
            ((w, j) = (dist a, rev a) /\ c' = Arc (dist b) (rev b) (cap b + x)%Z).
Proof.
  intros (_ & _ & A & _) w j c' H. rewrite A in H.
  destruct (Nat.eqb_spec v w) as [->|]; destruct (Nat.eqb_spec i j) as [->|]; simpl in H;
  try (inversion H; subst; eexists; right; left; auto; fail);
  destruct (Nat.eqb_spec (dist a) w) as [<-|]; destruct (Nat.eqb_spec (rev a) j) as [<-|]; simpl in H;
  try (inversion H; subst; eexists; right; right; auto; fail); exists c'; left; auto.
  Unshelve. all: exact a.
Qed.

Lemma moved_wf g v i a b x g' : wfnet g -> arc_at g v i = Some a -> arc_at g (dist a) (rev a) = Some b ->
  moved g v i a b x g' -> wfnet g'.
Proof.
  intros W Ha Hb M w j c' H.
  assert (Sh : forall w j c, arc_at g w j = Some c -> exists c', arc_at g' w j = Some c' /\ dist c' = dist c /\ rev c' = rev c).
  { intros w0 j0 c Hc. destruct M as (_ & _ & A & _). rewrite A.
    destruct (Nat.eqb_spec v w0) as [->|]; destruct (Nat.eqb_spec i j0) as [->|]; simpl;
    try (rewrite Ha in Hc; inversion Hc; subst; eexists; split; [reflexivity|]; auto; fail);
    destruct (Nat.eqb_spec (dist a) w0) as [<-|]; destruct (Nat.eqb_spec (rev a) j0) as [<-|]; simpl;
    try (rewrite Hb in Hc; inversion Hc; subst; eexists; split; [reflexivity|]; auto; fail); eauto. }
  assert (Q : exists c, arc_at g w j = Some c /\ dist c = dist c' /\ rev c = rev c').
  { destruct (moved_arc _ _ _ _ _ _ _ M _ _ _ H) as (c & [Q|[[E ->]|[E ->]]]); eauto.
    - inversion E; subst. eauto.
    - inversion E; subst. eauto. }
  destruct Q as (c & Hc & E1 & E2).
  destruct (W _ _ _ Hc) as (P1 & P2 & d & Hd & P3 & P4).
  destruct M as (L & _). rewrite L, <- E1, <- E2. repeat split; auto.
  destruct (Sh _ _ _ Hd) as (d' & Hd' & Q1 & Q2). exists d'. rewrite Q1, Q2. auto.
Qed.

Lemma core_move g0 g ex v i a b x g' ex' :
  Core g0 g ex -> arc_at g v i = Some a -> arc_at g (dist a) (rev a) = Some b ->
  (0 <= x <= cap a)%Z -> moved g v i a b x g' ->
  length ex' = length ex -> (forall u, (0 <= nth u ex' 0)%Z) ->
  (forall h, h 0 = 0%Z -> esum h ex' = (esum h ex + x * (h (dist a) - h v))%Z) ->
  Core g0 g' ex'.
Proof.
  intros C Ha Hb Hx M Le Hnn He.
  pose proof (co_wf _ _ _ C) as W.
  destruct (W _ _ _ Ha) as (Hd1 & Hd2 & b1 & Hb1 & Hd3 & Hd4).
  rewrite Hb in Hb1. inversion Hb1; subst b1; clear Hb1.
  pose proof (moved_wf _ _ _ _ _ _ _ W Ha Hb M) as W'.
  pose proof M as (ML & MR & MA & MW).
  assert (Cs : forall w j c', arc_at g' w j = Some c' ->
     (w = v /\ j = i /\ c' = Arc (dist a) (rev a) (cap a - x)%Z) \/
     (w = dist a /\ j = rev a /\ c' = Arc (dist b) (rev b) (cap b + x)%Z) \/
     (arc_at g w j = Some c' /\ (w, j) <> (v, i) /\ (w, j) <> (dist a, rev a))).
  { intros w j c' H. rewrite MA in H.
    destruct (Nat.eqb_spec v w) as [->|]; destruct (Nat.eqb_spec i j) as [->|]; simpl in H;
    try (inversion H; subst; left; auto; fail);
    destruct (Nat.eqb_spec (dist a) w) as [<-|]; destruct (Nat.eqb_spec (rev a) j) as [<-|]; simpl in H;
    try (inversion H; subst; right; left; auto; fail); right; right;
    (repeat split; [auto|congruence|congruence]). }
  constructor.
  - rewrite ML. apply (co_len _ _ _ C).
  - rewrite Le. apply (co_elen _ _ _ C).
  - intros w. rewrite MR. apply (co_rows _ _ _ C).
  - intros w j c' H. destruct (Cs _ _ _ H) as [(-> & -> & ->)|[(-> & -> & ->)|(H1 & _ & _)]]; simpl.
    + apply (co_shape _ _ _ C _ _ _ Ha).
    + apply (co_shape _ _ _ C _ _ _ Hb).
    + apply (co_shape _ _ _ C _ _ _ H1).
  - exact W'.
  - intros w j c' H. pose proof (co_cap _ _ _ C) as CC.
    destruct (Cs _ _ _ H) as [(-> & -> & ->)|[(-> & -> & ->)|(H1 & _ & _)]]; simpl.
    + lia.
    + pose proof (CC _ _ _ Hb). lia.
    + eauto.
  - intros w j c' d' c0 d0 H Hd H0 Hd0.
    pose proof (co_pair _ _ _ C) as CP.
    destruct (Cs _ _ _ H) as [(-> & -> & ->)|[(-> & -> & ->)|(H1 & N1 & N2)]]; simpl in *.
    + rewrite MA in Hd. destruct (Nat.eqb_spec v (dist a)); [congruence|]. simpl in Hd.
      rewrite !Nat.eqb_refl in Hd. simpl in Hd. inversion Hd; subst; simpl.
      pose proof (CP _ _ _ _ _ _ Ha Hb H0 Hd0). lia.
    + rewrite Hd3, Hd4 in *. rewrite MA in Hd. rewrite !Nat.eqb_refl in Hd. simpl in Hd.
      inversion Hd; subst; simpl.
      pose proof (CP _ _ _ _ _ _ Ha Hb Hd0 H0). lia.
    + destruct (W _ _ _ H1) as (_ & _ & d1 & Hdd & E1 & E2).
      assert (Hd' : arc_at g (dist c') (rev c') = Some d').
      { destruct (Cs _ _ _ Hd) as [(P1 & P2 & _)|[(P1 & P2 & _)|(P1 & _ & _)]]; auto; exfalso.
        - rewrite P1, P2, Ha in Hdd. inversion Hdd; subst d1. apply N2. now rewrite E1, E2.
        - rewrite P1, P2, Hb in Hdd. inversion Hdd; subst d1. apply N1. congruence. }
      eapply CP; eauto.
  - exact Hnn.
  - intros h H0. rewrite He, (co_bal _ _ _ C h H0), MW by auto. ring.
  - intros h Hs. rewrite MW, (co_sym _ _ _ C h Hs), (Hs v (dist a)). ring.
Qed.

(** ** Labels *)
Record Lab (g : network) (lab : list nat) : Prop := {
  la_len : length lab = length g;
  la_le : forall v, v < length g -> nth v lab 0 <= length g;
  la_src : nth 0 lab 0 = length g;
  la_sink : nth (length g - 1) lab 0 = 0;
  la_pos : forall v, v < length g -> v <> length g - 1 -> 1 <= nth v lab 0;
  la_valid : forall v i a, arc_at g v i = Some a -> (0 < cap a)%Z ->
    nth v lab 0 <= nth (dist a) lab 0 + 1 }.

(** Nodes that still have to be discharged, except those in [cur]. *)
Definition active (n : nat) (lab : list nat) (ex : list Z) (v : nat) : Prop :=
  v < n /\ v <> n - 1 /\ (0 < nth v ex 0)%Z /\ nth v lab 0 < n.
Record Que (n : nat) (lab : list nat) (ex : list Z) (q : list nat) (cur : nat -> Prop) : Prop := {
  qu_nodup : NoDup q;
  qu_in : forall v, In v q <-> active n lab ex v /\ ~ cur v }.

Definition src0 (g : network) : Prop := forall i a, arc_at g 0 i = Some a -> cap a = 0%Z.

Record Inv (g0 : network) (s : pr) (cur : nat -> Prop) : Prop := {
  in_core : Core g0 (net s) (excess s);
  in_n : 2 <= nn s;
  in_src : src0 (net s);
  in_lab : Lab (net s) (label s);
  in_que : Que (nn s) (label s) (excess s) (queue s) cur }.

Definition nocur (_ : nat) : Prop := False.

(** Validity survives moving flow along an admissible arc. *)
Lemma lab_move g v i a b x g' lab : Lab g lab -> arc_at g v i = Some a -> arc_at g (dist a) (rev a) = Some b ->
  dist b = v -> moved g v i a b x g' -> (0 <= x)%Z ->
  nth v lab 0 = nth (dist a) lab 0 + 1 -> Lab g' lab.
Proof.
  intros L Ha Hb Hdb (ML & MR & MA & MW) Hx Hadm. destruct L as [L1 L2 L3 L4 L5 L6].
  constructor; rewrite ?ML; auto.
  intros w j c' H Hc. rewrite MA in H.
  destruct (Nat.eqb_spec v w) as [->|]; destruct (Nat.eqb_spec i j) as [->|]; simpl in H;
  try (inversion H; subst; simpl in *; lia);
  destruct (Nat.eqb_spec (dist a) w) as [<-|]; destruct (Nat.eqb_spec (rev a) j) as [<-|]; simpl in H;
  try (inversion H; subst; simpl in *; lia); eapply L6; eauto.
Qed.

(** ** push *)
Lemma nth_error_nthZ (l : list Z) v : v < length l -> nth_error l v = Some (nth v l 0%Z).
Proof. apply nth_error_nth'. Qed.
Lemma nth_error_nthn (l : list nat) v : v < length l -> nth_error l v = Some (nth v l 0).
Proof. apply nth_error_nth'. Qed.

Lemma set_eq {A} (l : list A) i x : i < length l -> set l i x = Some (upd l i x).
Proof. intros. unfold set. destruct (Nat.ltb_spec i (length l)); auto; lia. Qed.

Lemma push_loop_spec g0 v t : forall is s,
  Inv g0 s (fun x => x = v) -> v < nn s -> v <> sink s ->
  nth v (label s) 0 = S t -> S t < nn s -> (0 < nth v (excess s) 0)%Z ->
  NoDup is -> (forall i, In i is -> i < length (row (net s) v)) ->
  exists s' done, push_loop is v t s = Some (s', done) /\
    Inv g0 s' (fun x => x = v) /\ nn s' = nn s /\ label s' = label s /\
    progress s' = progress s /\ threshold s' = threshold s /\
    (forall i, ~ In i is -> arc_at (net s') v i = arc_at (net s) v i) /\
    length (row (net s') v) = length (row (net s) v) /\
    (exists new, queue s' = queue s ++ new /\ forall x, In x new -> nth x (label s) 0 = t) /\
    (if done then nth v (excess s') 0%Z = 0%Z
     else (0 < nth v (excess s') 0)%Z /\
          forall i a, In i is -> arc_at (net s') v i = Some a -> (0 < cap a)%Z -> nth (dist a) (label s) 0 <> t).
Proof.
  induction is as [|i is IH]; intros s I Hv Hvs Hlab Hlt Hex Hnd Hr.
  { exists s, false. simpl. split; [reflexivity|]. split; [exact I|]. do 4 (split; [reflexivity|]).
    split; [reflexivity|]. split; [reflexivity|]. split.
    - exists []. rewrite app_nil_r. split; [auto|intros ? []].
    - split; [exact Hex|intros ? ? []]. }
  inversion Hnd as [|? ? Hni Hnd']; subst.
  destruct (nth_error_ex (row (net s) v) i (Hr _ (or_introl eq_refl))) as [a Ha].
  rewrite <- arc_at_row in Ha.
  pose proof (in_core _ _ _ I) as C. pose proof (in_lab _ _ _ I) as L.
  destruct (co_wf _ _ _ C _ _ _ Ha) as (Hd1 & Hd2 & b & Hb & Hd3 & Hd4).
  pose proof (la_len _ _ L) as LL. pose proof (co_elen _ _ _ C) as LE. pose proof (co_len _ _ _ C) as LG.
  unfold nn in *.
  simpl push_loop. rewrite Ha, (nth_error_nthn (label s)) by lia.
  destruct ((0 <? cap a)%Z && (nth (dist a) (label s) 0 =? t)) eqn:Adm.
  2:{ destruct (IH s I Hv Hvs Hlab Hlt Hex Hnd') as (s' & done & E & I' & R1 & R2 & R3 & R4 & R5 & R6 & R7 & R8).
      { intros; apply Hr; now right. }
      exists s', done. rewrite E. split; [reflexivity|]. split; [exact I'|]. do 4 (split; [assumption|]).
      split; [|split; [assumption|split; [assumption|]]].
      - intros j Hj. apply R5. intros Hj'. apply Hj. now right.
      - destruct done; auto. destruct R8 as [R8 R9]. split; auto.
        intros j c [->|Hj] Hc Hcap; eauto.
        rewrite R5 in Hc by auto. rewrite Ha in Hc. inversion Hc; subst c.
        apply andb_false_iff in Adm. destruct Adm as [Adm|Adm].
        + apply Z.ltb_ge in Adm. lia.
        + now apply Nat.eqb_neq in Adm. }
  apply andb_true_iff in Adm. destruct Adm as [Hcap Hlw]. apply Z.ltb_lt in Hcap. apply Nat.eqb_eq in Hlw.
  rewrite (nth_error_nthZ (excess s) v), (nth_error_nthZ (excess s) (dist a)) by lia.
  set (ev := nth v (excess s) 0%Z) in *. set (ew := nth (dist a) (excess s) 0%Z).
  set (delta := if (cap a <? ev)%Z then cap a else ev).
  assert (Hdel : (0 < delta /\ delta <= cap a /\ delta <= ev)%Z).
  { unfold delta. destruct (Z.ltb_spec (cap a) ev); lia. }
  rewrite (set_eq (excess s)) by lia.
  rewrite (nth_error_nthZ _ (dist a)) by (rewrite upd_length; lia).
  rewrite (nth_upd_neq _ v (dist a)) by auto. fold ew.
  rewrite set_eq by (rewrite upd_length; lia).
  destruct (move_spec (net s) v i a b delta Ha Hb Hd3 Hd2) as (g1 & g2 & E1 & E2 & M).
  rewrite E1, E2.
  set (ex2 := upd (upd (excess s) v (ev - delta)%Z) (dist a) (ew + delta)%Z).
  assert (Lex2 : length ex2 = length (excess s)) by (unfold ex2; rewrite !upd_length; auto).
  assert (Nv : nth v ex2 0%Z = (ev - delta)%Z).
  { unfold ex2. rewrite nth_upd_neq, nth_upd_eq; auto; lia. }
  assert (Nw : nth (dist a) ex2 0%Z = (ew + delta)%Z).
  { unfold ex2. rewrite nth_upd_eq; auto. rewrite upd_length; lia. }
  assert (No : forall u, u <> v -> u <> dist a -> nth u ex2 0%Z = nth u (excess s) 0%Z).
  { intros. unfold ex2. rewrite !nth_upd_neq; auto. }
  rewrite (nth_error_nthZ ex2 v) by lia. rewrite Nv.
  pose proof (co_ex _ _ _ C) as Cex.
  assert (Hew : (0 <= ew)%Z) by apply Cex.
  set (q' := if (ew =? 0)%Z && negb (dist a =? sink s) then queue s ++ [dist a] else queue s).
  set (s1 := PR g2 (label s) ex2 q' (progress s) (threshold s)).
  assert (Dw0 : dist a <> 0).
  { intros Z0. pose proof (la_src _ _ L) as Ls. rewrite <- Z0 in Ls at 1. rewrite Hlw in Ls. lia. }
  assert (Hv0 : v <> 0).
  { intros ->. rewrite (in_src _ _ _ I _ _ Ha) in Hcap. lia. }
  assert (C1 : Core g0 g2 ex2).
  { apply (core_move g0 (net s) (excess s) v i a b delta g2 ex2 C Ha Hb); [lia|exact M|exact Lex2| |].
    - intros u. destruct (Nat.eq_dec u v) as [->|]; [rewrite Nv; lia|].
      destruct (Nat.eq_dec u (dist a)) as [->|]; [rewrite Nw; lia|]. rewrite No; auto.
    - intros h H0. unfold ex2, esum. rewrite esum_upd, esum_upd by (rewrite ?upd_length; lia).
      rewrite nth_upd_neq by auto. fold ev ew. simpl. ring. }
  destruct M as (ML & MR & MA & MW).
  assert (M : moved (net s) v i a b delta g2) by (repeat split; auto).
  assert (L1 : Lab g2 (label s)).
  { apply (lab_move (net s) v i a b delta g2 (label s) L Ha Hb Hd3 M); lia. }
  assert (S1 : src0 g2).
  { intros j c Hc. rewrite MA in Hc.
    destruct (Nat.eqb_spec v 0); [congruence|]. destruct (Nat.eqb_spec (dist a) 0); [congruence|].
    simpl in Hc. apply (in_src _ _ _ I _ _ Hc). }
  assert (Inv1 : Inv g0 s1 (fun x => x = v)).
  { constructor; unfold nn; simpl; auto.
    - rewrite ML. apply (in_n _ _ _ I).
    - destruct (in_que _ _ _ I) as [Q1 Q2]. unfold nn in Q2. rewrite ML.
      assert (Hact : forall u, u <> v -> u <> dist a ->
         (active (length (net s)) (label s) ex2 u <-> active (length (net s)) (label s) (excess s) u)).
      { intros u N1 N2. unfold active. rewrite No; tauto. }
      assert (Hin : dist a <> length (net s) - 1 -> (In (dist a) (queue s) <-> ew <> 0%Z)).
      { intros Ns. rewrite Q2. unfold active. fold ew. split; [intros; lia|].
        intros; repeat split; auto; lia. }
      unfold q', sink, nn. constructor.
      + destruct (Z.eqb_spec ew 0); destruct (Nat.eqb_spec (dist a) (length (net s) - 1)); simpl; auto.
        assert (Hn : ~ In (dist a) (queue s)) by (rewrite Hin; auto).
        clear -Q1 Hn. induction (queue s) as [|x q IH]; simpl; [constructor; auto; constructor|].
        inversion Q1; subst. constructor.
        * rewrite in_app_iff. simpl. intros [?|[?|[]]]; auto. apply Hn. subst. now left.
        * apply IH; auto. intros ?; apply Hn; now right.
      + intros u.
        assert (Iq : In u (if (ew =? 0)%Z && negb (dist a =? length (net s) - 1) then queue s ++ [dist a] else queue s)
           <-> In u (queue s) \/ (u = dist a /\ ew = 0%Z /\ dist a <> length (net s) - 1)).
        { destruct (Z.eqb_spec ew 0); destruct (Nat.eqb_spec (dist a) (length (net s) - 1)); simpl;
          rewrite ?in_app_iff; simpl; intuition. }
        rewrite Iq.
        destruct (Nat.eq_dec u (dist a)) as [->|N1].
        * destruct (Nat.eq_dec (dist a) (length (net s) - 1)) as [E|Ns].
          -- rewrite Q2. unfold active. split; [intros [?|?]; exfalso; intuition|intros [(A1 & A2 & _) _]; contradiction].
          -- rewrite (Hin Ns). unfold active. rewrite Nw. split.
             ++ intros _. repeat split; auto; lia.
             ++ intros _. destruct (Z.eq_dec ew 0); auto.
        * destruct (Nat.eq_dec u v) as [->|N2].
          -- rewrite Q2. split; [intros [[_ ?]|[? _]]; [tauto|congruence]|tauto].
          -- rewrite Q2, Hact by auto. split; [intros [?|[? _]]; [tauto|congruence]|tauto]. }
  assert (New1 : exists new, q' = queue s ++ new /\ forall x, In x new -> nth x (label s) 0 = t).
  { unfold q'. destruct ((ew =? 0)%Z && negb (dist a =? sink s)).
    - exists [dist a]. split; auto. intros x [<-|[]]; auto.
    - exists []. rewrite app_nil_r. split; [auto|intros ? []]. }
  destruct (Z.eqb_spec (ev - delta) 0) as [Z0|NZ].
  { exists s1, true. simpl. split; [reflexivity|]. split; [exact Inv1|].
    split; [exact ML|]. do 3 (split; [reflexivity|]).
    split; [|split; [apply MR|split; [exact New1|lia]]].
    intros j Hj. rewrite MA. rewrite Nat.eqb_refl.
    destruct (Nat.eqb_spec i j) as [->|]; [exfalso; apply Hj; now left|]. simpl.
    destruct (Nat.eqb_spec (dist a) v); [congruence|]. reflexivity. }
  destruct (IH s1) as (s' & done & E & I' & R1 & R2 & R3 & R4 & R5 & R6 & R7 & R8); auto.
  - unfold nn, s1; simpl. lia.
  - unfold sink, nn, s1 in *; simpl. rewrite ML. auto.
  - unfold nn, s1; simpl. lia.
  - unfold s1; simpl. lia.
  - unfold s1; simpl. intros j Hj. rewrite MR. apply Hr. now right.
  - exists s', done. fold s1. rewrite E. unfold s1 in R1, R2, R3, R4, R5, R6, R7, R8; simpl in *.
    split; [reflexivity|]. split; [exact I'|]. split; [unfold nn in *; simpl in *; lia|]. do 3 (split; [assumption|]).
    split; [|split; [|split]].
    + intros j Hj. rewrite R5 by tauto. rewrite MA, Nat.eqb_refl.
      destruct (Nat.eqb_spec i j) as [->|]; [exfalso; apply Hj; now left|]. simpl.
      destruct (Nat.eqb_spec (dist a) v); [congruence|]. reflexivity.
    + rewrite R6. apply MR.
    + destruct R7 as (n1 & Q1 & Q2), New1 as (n2 & Q3 & Q4).
      exists (n2 ++ n1). rewrite Q1, Q3, app_assoc. split; auto.
      intros x Hx. apply in_app_iff in Hx. destruct Hx; auto.
    + destruct done; auto. destruct R8 as [R8 R9]. split; auto.
      intros j c [->|Hj] Hc Hcp; eauto.
      rewrite R5 in Hc by auto. rewrite MA in Hc. rewrite !Nat.eqb_refl in Hc. simpl in Hc.
      inversion Hc; subst c. simpl in *. unfold delta in *.
      destruct (Z.ltb_spec (cap a) ev); lia.
Qed.

(** ** relabel *)
Lemma min_label_spec lab : forall arcs m,
  (forall a, In a arcs -> dist a < length lab) ->
  exists r, min_label arcs lab m = Some r /\ r <= m /\
    (forall a, In a arcs -> (0 < cap a)%Z -> r <= nth (dist a) lab 0) /\
    (r = m \/ exists a, In a arcs /\ (0 < cap a)%Z /\ r = nth (dist a) lab 0).
Proof.
  induction arcs as [|a arcs IH]; intros m H; simpl.
  { exists m. repeat split; auto. intros ? []. }
  assert (H' : forall a0, In a0 arcs -> dist a0 < length lab) by (intros; apply H; now right).
  destruct (Z.ltb_spec 0 (cap a)) as [Hc|Hc].
  - rewrite (nth_error_nthn lab) by (apply H; now left).
    destruct (IH (Nat.min m (nth (dist a) lab 0)) H') as (r & E & R1 & R2 & R3).
    exists r. split; auto. split; [lia|]. split.
    + intros c [<-|Hin] Hcc; auto. lia.
    + destruct R3 as [->|(c & Hin & Hcc & ->)]; [|right; eauto].
      destruct (Nat.min_spec m (nth (dist a) lab 0)) as [[_ ->]|[_ ->]]; [now left|].
      right. exists a. auto.
  - destruct (IH m H') as (r & E & R1 & R2 & R3).
    exists r. split; auto. split; [lia|]. split.
    + intros c [<-|Hin] Hcc; auto. lia.
    + destruct R3 as [->|(c & Hin & Hcc & ->)]; [now left|right; eauto].
Qed.

Fixpoint lsum (l : list nat) : nat := match l with [] => 0 | x :: l' => x + lsum l' end.

Lemma lsum_upd : forall l i x, i < length l -> lsum (upd l i x) + nth i l 0 = lsum l + x.
Proof. induction l as [|y l IH]; intros [|i] x H; simpl in *; try lia. specialize (IH i x). lia. Qed.

Lemma lsum_le : forall l l', length l = length l' -> (forall i, i < length l -> nth i l 0 <= nth i l' 0) ->
  lsum l <= lsum l' /\ (lsum l = lsum l' -> l = l').
Proof.
  induction l as [|x l IH]; intros [|y l'] H P; simpl in *; try lia; auto.
  destruct (IH l') as [I1 I2]; [lia|intros i Hi; apply (P (S i)); lia|].
  pose proof (P 0 ltac:(lia)) as P0. simpl in P0. split; [lia|].
  intros E. f_equal; [lia|apply I2; lia].
Qed.

Lemma lsum_bound : forall l n, (forall i, i < length l -> nth i l 0 <= n) -> lsum l <= length l * n.
Proof.
  induction l as [|x l IH]; intros n P; simpl in *; [lia|].
  pose proof (P 0 ltac:(lia)) as P0. simpl in P0.
  assert (lsum l <= length l * n) by (apply IH; intros i Hi; apply (P (S i)); lia). lia.
Qed.

Lemma relabel_spec g0 s v :
  Inv g0 s (fun x => x = v) -> v < nn s -> v <> sink s -> v <> 0 ->
  nth v (label s) 0 < nn s ->
  (forall i a, arc_at (net s) v i = Some a -> (0 < cap a)%Z -> nth v (label s) 0 <= nth (dist a) (label s) 0) ->
  exists l s', relabel s v = Some (s', l) /\
    s' = PR (net s) (upd (label s) v l) (excess s) (queue s) (progress s + BETA) (threshold s) /\
    nth v (label s) 0 < l <= nn s /\
    Inv g0 s' (fun x => x = v).
Proof.
  intros I Hv Hvs Hv0 Hlt Hge.
  pose proof (in_core _ _ _ I) as C. pose proof (in_lab _ _ _ I) as L. pose proof (in_n _ _ _ I) as N2.
  pose proof (la_len _ _ L) as LL. unfold nn in *.
  unfold relabel, calc_new_label, nn.
  destruct (length (net s)) as [|m0] eqn:En; [lia|].
  rewrite row_nth_error by lia.
  destruct (min_label_spec (label s) (row (net s) v) m0) as (r & E & R1 & R2 & R3).
  { intros a Ha. apply In_nth_error in Ha. destruct Ha as [i Hi]. rewrite <- arc_at_row in Hi.
    destruct (co_wf _ _ _ C _ _ _ Hi) as (? & _). lia. }
  rewrite E, set_eq by lia. exists (r + 1). eexists. split; [reflexivity|]. split; [reflexivity|].
  assert (Hr : nth v (label s) 0 <= r).
  { destruct R3 as [->|(a & Ha & Hc & ->)]; [lia|].
    apply In_nth_error in Ha. destruct Ha as [i Hi]. rewrite <- arc_at_row in Hi. eauto. }
  split; [lia|].
  constructor; unfold nn; simpl; auto; rewrite ?En; auto.
  - apply (in_src _ _ _ I).
  - destruct L as [L1 L2 L3 L4 L5 L6]. constructor; rewrite ?upd_length; auto.
    + intros w Hw. destruct (Nat.eq_dec v w) as [<-|]; [rewrite nth_upd_eq; lia|rewrite nth_upd_neq; auto].
    + rewrite nth_upd_neq; auto.
    + rewrite nth_upd_neq; [auto|unfold sink, nn in Hvs; lia].
    + intros w Hw Hs. destruct (Nat.eq_dec v w) as [<-|]; [rewrite nth_upd_eq; lia|rewrite nth_upd_neq; auto].
    + intros w i a Ha Hc. destruct (co_wf _ _ _ C _ _ _ Ha) as (D1 & D2 & _).
      assert (Old := L6 _ _ _ Ha Hc).
      destruct (Nat.eq_dec v w) as [<-|].
      * rewrite nth_upd_eq by lia. rewrite nth_upd_neq by auto.
        assert (r <= nth (dist a) (label s) 0); [|lia]. apply R2; auto.
        rewrite arc_at_row in Ha. eapply nth_error_In; eauto.
      * rewrite (nth_upd_neq _ v w) by auto.
        destruct (Nat.eq_dec v (dist a)) as [Ev|];
        [rewrite <- Ev in *; rewrite nth_upd_eq by lia; lia|rewrite nth_upd_neq by auto; lia].
  - destruct (in_que _ _ _ I) as [Q1 Q2]. unfold nn in Q2. rewrite En in Q2. constructor; auto.
    intros w. rewrite Q2. unfold active.
    destruct (Nat.eq_dec v w) as [<-|]; [tauto|rewrite nth_upd_neq by auto; tauto].
Qed.

(** ** discharge *)
Definition grew (s s' : pr) (v : nat) (q : list nat) : Prop :=
  (label s' = label s /\ exists new, queue s' = q ++ new /\ forall x, In x new -> nth x (label s) 0 + 1 = nth v (label s) 0) \/
  lsum (label s) < lsum (label s').

Lemma seq_row_spec (r : list arc) i : In i (seq 0 (length r)) <-> i < length r.
Proof. rewrite in_seq. lia. Qed.

Lemma inv_cur g0 s (c1 c2 : nat -> Prop) :
  Inv g0 s c1 -> (forall v, active (nn s) (label s) (excess s) v -> (c1 v <-> c2 v)) -> Inv g0 s c2.
Proof.
  intros [I1 I2 I3 I4 [Q1 Q2]] H. constructor; auto. constructor; auto.
  intros v. rewrite Q2. split; intros [A B]; split; auto; specialize (H v A); tauto.
Qed.

Lemma discharge_loop_spec g0 v : forall fuel s,
  Inv g0 s (fun x => x = v) -> v < nn s -> v <> sink s -> v <> 0 ->
  (0 < nth v (excess s) 0)%Z -> nn s - nth v (label s) 0 < fuel ->
  exists s', discharge_loop fuel s v (nth v (label s) 0) = Some s' /\
    Inv g0 s' nocur /\ nn s' = nn s /\ threshold s' = threshold s /\
    (forall x, x < nn s -> nth x (label s) 0 <= nth x (label s') 0) /\
    length (label s') = length (label s) /\
    (nth v (label s) 0 < nn s -> grew s s' v (queue s)).
Proof.
  induction fuel as [|fuel IH]; intros s I Hv Hvs Hv0 Hex Hf; [lia|].
  simpl discharge_loop.
  pose proof (in_lab _ _ _ I) as L. pose proof (la_len _ _ L) as LL.
  pose proof (in_core _ _ _ I) as C.
  destruct (Nat.ltb_spec (nth v (label s) 0) (nn s)) as [Hlt|Hge].
  2:{ exists s. split; [reflexivity|]. split.
      - apply (inv_cur g0 s (fun x => x = v)); auto.
        intros w (_ & _ & _ & Hw). unfold nocur. split; [intros ->; lia|tauto].
      - repeat split; auto. intros; lia. }
  assert (Hlp : 1 <= nth v (label s) 0) by (apply (la_pos _ _ L); auto; unfold nn, sink, nn in *; lia).
  destruct (nth v (label s) 0) as [|t] eqn:Et; [lia|].
  unfold push. rewrite row_nth_error by (unfold nn in *; lia).
  destruct (push_loop_spec g0 v t (seq 0 (length (row (net s) v))) s) as
    (s1 & done & E & I1 & R1 & R2 & R3 & R4 & R5 & R6 & (new & R7 & R7') & R8); auto.
  { apply seq_NoDup. }
  { intros i Hi. now apply seq_row_spec. }
  rewrite E. destruct done.
  { exists s1. split; [reflexivity|]. split; [|split; [auto|split; [auto|split; [|split]]]].
    - apply (inv_cur g0 s1 (fun x => x = v)); auto.
      intros w (_ & _ & Hw & _). unfold nocur. split; [intros ->; lia|tauto].
    - intros. now rewrite R2.
    - now rewrite R2.
    - intros _. left. split; auto. exists new. split; auto. intros x Hx. rewrite Et, R7' by auto. lia. }
  destruct R8 as [R8 R9].
  assert (Hsink : sink s1 = sink s) by (unfold sink; congruence).
  destruct (relabel_spec g0 s1 v I1) as (l & s2 & E2 & Es2 & Hl & I2); auto.
  - lia.
  - congruence.
  - rewrite R2, Et. lia.
  - intros i a Ha Hc. rewrite R2.
    assert (Hi : i < length (row (net s) v)).
    { rewrite <- R6. apply (arc_at_lt _ _ _ _ Ha). }
    pose proof (R9 i a (proj2 (seq_row_spec _ _) Hi) Ha Hc) as Hne.
    pose proof (la_valid _ _ (in_lab _ _ _ I1) _ _ _ Ha Hc) as Hval. rewrite R2 in Hval. lia.
  - rewrite E2. cbv iota beta.
    assert (N2 : nn s2 = nn s) by (rewrite Es2; unfold nn in *; simpl; auto).
    assert (Lv2 : nth v (label s2) 0 = l) by (rewrite Es2; simpl; rewrite nth_upd_eq; auto; unfold nn in *; congruence).
    assert (Lo2 : forall x, x <> v -> nth x (label s2) 0 = nth x (label s) 0)
      by (intros; rewrite Es2; simpl; rewrite nth_upd_neq, R2; auto).
    rewrite R2, Et in Hl.
    destruct (IH s2 I2) as (s' & E' & I' & P1 & P2 & P3 & P4 & P5).
    + lia.
    + unfold sink in *. congruence.
    + auto.
    + rewrite Es2. simpl. auto.
    + rewrite Lv2. lia.
    + rewrite Lv2 in *. exists s'. split; [auto|]. split; [auto|]. split; [congruence|].
      assert (Le2 : length (label s2) = length (label s)) by (rewrite Es2; simpl; rewrite upd_length; congruence).
      split; [rewrite P2, Es2; simpl; auto|]. split; [|split; [congruence|]].
      * intros x Hx. specialize (P3 x ltac:(lia)).
        destruct (Nat.eq_dec x v) as [->|]; [lia|]. rewrite Lo2 in P3; auto.
      * intros _. right.
        assert (lsum (label s2) <= lsum (label s')).
        { apply lsum_le; [congruence|]. intros i Hi. apply P3. unfold nn in *. lia. }
        assert (lsum (label s) < lsum (label s2)); [|lia].
        pose proof (lsum_upd (label s) v l ltac:(unfold nn in *; lia)) as U.
        rewrite Es2. simpl. rewrite R2. lia.
Qed.

Lemma discharge_spec g0 s v q :
  Inv g0 s nocur -> queue s = v :: q ->
  exists s', discharge (PR (net s) (label s) (excess s) q (progress s) (threshold s)) v = Some s' /\
    Inv g0 s' nocur /\ nn s' = nn s /\
    (forall x, x < nn s -> nth x (label s) 0 <= nth x (label s') 0) /\
    length (label s') = length (label s) /\ grew s s' v q.
Proof.
  intros I Eq.
  pose proof (in_que _ _ _ I) as [Q1 Q2].
  assert (A : active (nn s) (label s) (excess s) v) by (apply Q2; rewrite Eq; now left).
  destruct A as (A1 & A2 & A3 & A4).
  pose proof (in_lab _ _ _ I) as L. pose proof (la_len _ _ L) as LL.
  set (s0 := PR (net s) (label s) (excess s) q (progress s) (threshold s)).
  assert (I0 : Inv g0 s0 (fun x => x = v)).
  { destruct I as [I1 I2 I3 I4 _]. constructor; auto. rewrite Eq in Q1, Q2. inversion Q1; subst.
    constructor; auto. intros w. simpl. change (nn s0) with (nn s). specialize (Q2 w). unfold nocur in Q2.
    split.
    - intros Hw. split; [apply Q2; now right|]. intros ->. contradiction.
    - intros [Hw Hne]. destruct (proj2 Q2 (conj Hw (fun x => x))) as [->|]; auto. contradiction. }
  unfold discharge. rewrite (nth_error_nthn (label s0)) by (unfold s0, nn in *; simpl; lia).
  destruct (discharge_loop_spec g0 v (S (nn s0)) s0 I0) as (s' & E & P1 & P2 & P3 & P4 & P5 & P6); auto.
  - intros ->. pose proof (la_src _ _ L). unfold nn in *. lia.
  - lia.
  - exists s'. rewrite E. split; [reflexivity|]. split; [exact P1|]. split; [exact P2|].
    split; [exact P4|]. split; [exact P5|]. exact (P6 A4).
Qed.

(** ** global_relabel *)

(** Number of entries different from [n]: the nodes reached so far. *)
Definition cnt (n : nat) (lab : list nat) : nat := length (filter (fun l => negb (l =? n)) lab).

Lemma filter_length_le {A} (f : A -> bool) (l : list A) : length (filter f l) <= length l.
Proof. induction l; simpl; auto. destruct (f a); simpl; lia. Qed.

Lemma cnt_le n lab : cnt n lab <= length lab.
Proof. unfold cnt. apply filter_length_le. Qed.

Lemma cnt_upd n : forall lab i x, nth i lab 0 = n -> i < length lab -> x <> n -> cnt n (upd lab i x) = S (cnt n lab).
Proof.
  unfold cnt. induction lab as [|y lab IH]; intros [|i] x H Hi Hx; simpl in *; try lia.
  - subst y. rewrite Nat.eqb_refl. destruct (Nat.eqb_spec x n); [contradiction|]. reflexivity.
  - destruct (Nat.eqb_spec y n); simpl; rewrite IH; auto; lia.
Qed.

Lemma cnt_full n : forall l, cnt n l = length l -> forall y, In y l -> y <> n.
Proof.
  unfold cnt. induction l as [|z l IHl]; simpl; intros Hl y Hy Hyn; [contradiction|].
  pose proof (filter_length_le (fun y => negb (y =? n)) l) as F.
  destruct (Nat.eqb_spec z n); simpl in Hl; [lia|].
  destruct Hy as [->|Hy]; [contradiction|]. apply (IHl ltac:(lia) y); auto.
Qed.

(** The state of the search while node level [d] is being scanned. *)
Record BI (g : network) (ex : list Z) (old : list nat) (lab : list nat)
    (dq : list (nat * nat)) (q : list nat) (d : nat) : Prop := {
  bi_len : length lab = length g;
  bi_le : forall x, x < length g -> nth x lab 0 <> length g ->
    nth x lab 0 <= d + 1 /\ nth x lab 0 < cnt (length g) lab /\ nth x lab 0 < length g;
  bi_all : forall x, x < length g -> nth x lab 0 <= length g;
  bi_dq : forall x e, In (x, e) dq -> x < length g /\ nth x lab 0 = e /\ e <> length g /\ d <= e;
  bi_sorted : StronglySorted le (map snd dq);
  bi_old : forall x, x < length g -> nth x old 0 <= nth x lab 0;
  bi_src : nth 0 lab 0 = length g;
  bi_sink : nth (length g - 1) lab 0 = 0;
  bi_pos : forall x, x < length g -> x <> length g - 1 -> 1 <= nth x lab 0;
  bi_qn : NoDup q;
  bi_q : forall x, In x q <-> active (length g) lab ex x }.

(** Old labels the search is compared with: valid, zero at the sink. *)
Definition old_ok (g : network) (old : list nat) : Prop :=
  nth (length g - 1) old 0 = 0 /\
  (forall x, x < length g -> nth x old 0 <= length g) /\
  forall v i a, arc_at g v i = Some a -> (0 < cap a)%Z -> nth v old 0 <= nth (dist a) old 0 + 1.

Definition closed_arc (g : network) (lab : list nat) (d : nat) (a : arc) : Prop :=
  forall b, arc_at g (dist a) (rev a) = Some b -> (0 < cap b)%Z ->
  nth (dist a) lab 0 <> length g /\ nth (dist a) lab 0 <= d + 1.

Definition keeps (n : nat) (lab lab' : list nat) : Prop :=
  forall x, x < n -> nth x lab 0 <> n -> nth x lab' 0 = nth x lab 0.

Lemma sorted_snoc l x : StronglySorted le l -> (forall y, In y l -> y <= x) -> StronglySorted le (l ++ [x]).
Proof.
  induction 1 as [|y l S IH F]; intros H; simpl.
  - constructor; constructor.
  - constructor; [apply IH; intros; apply H; now right|].
    rewrite Forall_app. split; auto. constructor; auto. apply H. now left.
Qed.

Lemma bfs_scan_spec g ex old v d : wfnet g -> src0 g -> old_ok g old ->
  length ex = length g -> v < length g -> 2 <= length g ->
  forall arcs, (forall a, In a arcs -> exists i, arc_at g v i = Some a) ->
  forall lab dq q, BI g ex old lab dq q d -> nth v lab 0 = d -> d <> length g ->
  exists lab' dq' q', bfs_scan g ex arcs d lab dq q = Some (lab', dq', q') /\
    BI g ex old lab' dq' q' d /\ keeps (length g) lab lab' /\
    length dq' + cnt (length g) lab = length dq + cnt (length g) lab' /\
    (forall x, x < length g -> nth x lab' 0 <> length g -> nth x lab 0 = length g -> In x (map fst dq')) /\
    (forall p, In p dq -> In p dq') /\
    (forall a, In a arcs -> closed_arc g lab' d a).
Proof.
  intros W S0 Hold Le Hv Hn2. induction arcs as [|a arcs IH]; intros Harcs lab dq q B Hvd Hdn.
  { exists lab, dq, q. simpl. split; [reflexivity|]. split; [exact B|]. split; [intros ? ? ?; reflexivity|].
    split; [reflexivity|]. split; [intros x Hx H1 H2; contradiction|]. split; [auto|intros ? []]. }
  destruct (Harcs a (or_introl eq_refl)) as [i Ha].
  destruct (W _ _ _ Ha) as (D1 & D2 & b & Hb & D3 & D4).
  pose proof (bi_len _ _ _ _ _ _ _ B) as Ll.
  simpl bfs_scan. rewrite Hb, (nth_error_nthn lab) by lia.
  assert (Harcs' : forall a0, In a0 arcs -> exists i0, arc_at g v i0 = Some a0) by (intros; apply Harcs; now right).
  destruct ((0 <? cap b)%Z && (nth (dist a) lab 0 =? length g)) eqn:Cd.
  2:{ destruct (IH Harcs' lab dq q B Hvd Hdn) as (lab' & dq' & q' & E & B' & K & Cn & New & Inc & Cl).
      exists lab', dq', q'. split; [exact E|]. split; [exact B'|]. split; [exact K|]. split; [exact Cn|].
      split; [exact New|]. split; [exact Inc|].
      intros c [<-|Hc]; [|auto]. intros b' Hb' Hcap. rewrite Hb in Hb'. inversion Hb'; subst b'.
      apply andb_false_iff in Cd. destruct Cd as [Cd|Cd]; [apply Z.ltb_ge in Cd; lia|].
      apply Nat.eqb_neq in Cd.
      destruct (bi_le _ _ _ _ _ _ _ B _ D1 Cd). rewrite (K _ D1 Cd). auto. }
  apply andb_true_iff in Cd. destruct Cd as [Hcap Hun]. apply Z.ltb_lt in Hcap. apply Nat.eqb_eq in Hun.
  rewrite set_eq by lia. rewrite (nth_error_nthZ ex) by lia.
  set (w := dist a) in *.
  set (lab1 := upd lab w (d + 1)). set (q1 := if (0 <? nth w ex 0)%Z then q ++ [w] else q).
  assert (Nw : nth w lab1 0 = d + 1) by (unfold lab1; rewrite nth_upd_eq; auto; lia).
  assert (No : forall x, x <> w -> nth x lab1 0 = nth x lab 0) by (intros; unfold lab1; rewrite nth_upd_neq; auto).
  assert (Lv : d < cnt (length g) lab /\ d < length g).
  { destruct (bi_le _ _ _ _ _ _ _ B v Hv) as (? & ? & ?); [congruence|]. lia. }
  assert (Hd1 : d + 1 <> length g).
  { (* one more node than labels *)
    pose proof (cnt_le (length g) lab) as Cl. rewrite Ll in Cl.
    assert (cnt (length g) lab < length g); [|lia].
    assert (Hc : cnt (length g) lab <> length g).
    { intros Ec.
      apply (cnt_full (length g) lab ltac:(lia) (nth w lab 0)); auto. apply nth_In. lia. }
    lia. }
  assert (Cn1 : cnt (length g) lab1 = S (cnt (length g) lab)) by (unfold lab1; apply cnt_upd; auto; lia).
  assert (Hw0 : w <> 0).
  { intros Ew. rewrite Ew in Hb. rewrite (S0 _ _ Hb) in Hcap. lia. }
  assert (Hws : w <> length g - 1).
  { intros Ew. rewrite Ew in Hun. rewrite (bi_sink _ _ _ _ _ _ _ B) in Hun. lia. }
  assert (B1 : BI g ex old lab1 (dq ++ [(w, d + 1)]) q1 d).
  { destruct B as [B1 B2 B3 B4 B5 B6 B7 B8 B9 B10 B11]. constructor.
    - unfold lab1. now rewrite upd_length.
    - intros x Hx Hlx. destruct (Nat.eq_dec x w) as [->|Nx].
      + rewrite Nw, Cn1. lia.
      + rewrite No in * by auto. rewrite Cn1. destruct (B2 x Hx Hlx) as (? & ? & ?). lia.
    - intros x Hx. destruct (Nat.eq_dec x w) as [->|Nx]; [rewrite Nw; lia|rewrite No; auto].
    - intros x e Hin. apply in_app_iff in Hin. destruct Hin as [Hin|[Eq|[]]].
      + destruct (B4 _ _ Hin) as (P1 & P2 & P3 & P4). split; auto. split; auto.
        rewrite No; auto. intros ->. congruence.
      + inversion Eq; subst. split; auto. split; auto. lia.
    - rewrite map_app. simpl. apply sorted_snoc; auto.
      intros y Hy. apply in_map_iff in Hy. destruct Hy as ((x & e) & <- & Hin). simpl.
      destruct (B4 _ _ Hin) as (P1 & P2 & P3 & P4). destruct (B2 x P1) as (P5 & _); [congruence|]. lia.
    - intros x Hx. destruct (Nat.eq_dec x w) as [->|Nx]; [|rewrite No; auto].
      rewrite Nw. destruct Hold as (_ & _ & Hval). pose proof (Hval _ _ _ Hb Hcap) as Hv1.
      rewrite D3 in Hv1. pose proof (B6 v Hv). lia.
    - rewrite No; auto.
    - rewrite No; auto.
    - intros x Hx Hs. destruct (Nat.eq_dec x w) as [->|Nx]; [lia|rewrite No; auto].
    - unfold q1. destruct (0 <? nth w ex 0)%Z eqn:Ee; auto.
      assert (Hnq : ~ In w q).
      { rewrite B11. intros (_ & _ & _ & Hlt). lia. }
      clear -B10 Hnq. induction q as [|x q IHq]; simpl; [constructor; auto; constructor|].
      inversion B10; subst. constructor.
      + rewrite in_app_iff. simpl. intros [?|[?|[]]]; auto. apply Hnq. subst. now left.
      + apply IHq; auto. intros ?; apply Hnq; now right.
    - intros x. unfold q1.
      assert (Iq : In x (if (0 <? nth w ex 0)%Z then q ++ [w] else q) <-> In x q \/ (x = w /\ (0 < nth w ex 0)%Z)).
      { destruct (Z.ltb_spec 0 (nth w ex 0%Z)); rewrite ?in_app_iff; simpl; intuition; lia. }
      rewrite Iq, B11. unfold active.
      destruct (Nat.eq_dec x w) as [->|Nx].
      + rewrite Nw. split; [intros [?|?]; [lia|repeat split; auto; [tauto|lia]]|tauto].
      + rewrite No by auto. tauto. }
  destruct (IH Harcs' lab1 (dq ++ [(w, d + 1)]) q1 B1) as (lab' & dq' & q' & E & B' & K & Cn & New & Inc & Cl); auto.
  { rewrite No; auto. }
  exists lab', dq', q'. split; [exact E|]. split; [exact B'|]. split; [|split; [|split; [|split]]].
  - intros x Hx Hlx. assert (x <> w) by congruence. rewrite K; rewrite ?No; auto.
  - rewrite app_length in Cn. simpl in Cn. lia.
  - intros x Hx Hlx Hl0. destruct (Nat.eq_dec x w) as [->|Nx].
    + apply in_map_iff. exists (w, d + 1). split; auto. apply Inc. apply in_app_iff. right. now left.
    + apply New; auto. rewrite No; auto.
  - intros p Hp. apply Inc. apply in_app_iff. now left.
  - intros c [<-|Hc]; [|auto]. intros b' Hb' Hcap'. fold w. fold w in Hb'.
    rewrite K; auto; rewrite Nw; lia.
Qed.

(** Every reached node that is not waiting in [dq] has been scanned. *)
Definition scanned (g : network) (lab : list nat) (dq : list (nat * nat)) : Prop :=
  forall w, w < length g -> nth w lab 0 <> length g -> ~ In w (map fst dq) ->
  forall i a, arc_at g w i = Some a -> closed_arc g lab (nth w lab 0) a.

Lemma bfs_spec g ex old : wfnet g -> src0 g -> old_ok g old ->
  length ex = length g -> 2 <= length g ->
  forall fuel lab dq q d, BI g ex old lab dq q d -> scanned g lab dq ->
  length dq + length g < fuel + cnt (length g) lab ->
  exists lab' q', bfs fuel g ex lab dq q = Some (lab', q') /\
    (exists d', BI g ex old lab' [] q' d') /\ scanned g lab' [].
Proof.
  intros W S0 Hold Le Hn2. induction fuel as [|fuel IH]; intros lab dq q d B Sc Hf.
  - exfalso. pose proof (cnt_le (length g) lab). rewrite (bi_len _ _ _ _ _ _ _ B) in H. lia.
  - destruct dq as [|[v e] dq].
    { exists lab, q. simpl. split; auto. split; eauto. }
    simpl bfs.
    destruct (bi_dq _ _ _ _ _ _ _ B v e (or_introl eq_refl)) as (Hv & Hve & He & Hde).
    rewrite row_nth_error by auto.
    assert (B0 : BI g ex old lab dq q e).
    { destruct B as [B1 B2 B3 B4 B5 B6 B7 B8 B9 B10 B11].
      assert (Hs : forall x f, In (x, f) dq -> e <= f).
      { simpl in B5. inversion B5 as [|? ? _ F]; subst. intros x f Hin.
        rewrite Forall_forall in F. apply F. apply in_map_iff. exists (x, f). auto. }
      constructor; auto.
      - intros x Hx Hlx. destruct (B2 x Hx Hlx) as (? & ? & ?). lia.
      - intros x f Hin. destruct (B4 x f (or_intror Hin)) as (P1 & P2 & P3 & P4). eauto.
      - simpl in B5. now inversion B5. }
    destruct (bfs_scan_spec g ex old v e W S0 Hold Le Hv Hn2 (row g v)) with (lab := lab) (dq := dq) (q := q)
      as (lab' & dq' & q' & E & B' & K & Cn & New & Inc & Cl); auto.
    { intros a Ha. apply In_nth_error in Ha. destruct Ha as [i Hi]. exists i. now rewrite arc_at_row. }
    rewrite E.
    assert (Mono : forall a f, closed_arc g lab f a -> dist a < length g -> closed_arc g lab' f a).
    { intros a f Hc Hd b Hb Hcap. destruct (Hc b Hb Hcap) as [P1 P2]. rewrite (K _ Hd P1). auto. }
    apply (IH lab' dq' q' e B').
    + intros w Hw Hlw Hnin i a Ha.
      destruct (Nat.eq_dec (nth w lab 0) (length g)) as [Eu|Nu].
      { exfalso. apply Hnin. apply New; auto. }
      rewrite (K w Hw Nu).
      destruct (Nat.eq_dec w v) as [->|Nwv].
      { rewrite Hve. apply Cl. rewrite arc_at_row in Ha. eapply nth_error_In; eauto. }
      apply Mono; [|apply (W _ _ _ Ha)].
      eapply Sc; eauto. simpl. intros [?|Hin]; [congruence|].
      apply Hnin. apply in_map_iff in Hin. destruct Hin as (p & Ep & Hp).
      apply in_map_iff. exists p. auto.
    + simpl in Hf. lia.
Qed.

Lemma nth_repeat n m i : i < m -> nth i (repeat n m) 0 = n.
Proof. revert i; induction m; intros [|i] H; simpl; try lia; auto. apply IHm. lia. Qed.

Lemma cnt_repeat n m : cnt n (repeat n m) = 0.
Proof. unfold cnt. induction m as [|m IH]; simpl; auto. now rewrite Nat.eqb_refl. Qed.

(** Nothing reached is left out: nodes labelled [n] have residual arcs to nodes
    labelled [n] only. *)
Definition exact_unreached (g : network) (lab : list nat) : Prop :=
  forall v i a, arc_at g v i = Some a -> (0 < cap a)%Z -> nth v lab 0 = length g -> nth (dist a) lab 0 = length g.

Lemma global_relabel_spec g0 s old :
  Core g0 (net s) (excess s) -> 2 <= nn s -> src0 (net s) -> length (label s) = nn s ->
  old_ok (net s) old ->
  exists s', global_relabel s = Some s' /\ net s' = net s /\ excess s' = excess s /\
    threshold s' = threshold s /\ progress s' = progress s /\
    Inv g0 s' nocur /\ exact_unreached (net s') (label s') /\
    (forall x, x < nn s -> nth x old 0 <= nth x (label s') 0).
Proof.
  intros C N2 S0 LL Hold. unfold nn in *.
  pose proof (co_wf _ _ _ C) as W.
  pose proof (co_elen _ _ _ C) as LE. pose proof (co_len _ _ _ C) as LG.
  unfold global_relabel, nn, sink, nn. rewrite LL.
  rewrite set_eq by (rewrite repeat_length; lia).
  set (g := net s) in *. set (n := length g) in *.
  set (lab0 := upd (repeat n n) (n - 1) 0).
  assert (L0s : nth (n - 1) lab0 0 = 0) by (unfold lab0; rewrite nth_upd_eq; auto; rewrite repeat_length; lia).
  assert (L0o : forall x, x < n -> x <> n - 1 -> nth x lab0 0 = n).
  { intros. unfold lab0. rewrite nth_upd_neq, nth_repeat; auto. }
  assert (C0 : cnt n lab0 = 1).
  { unfold lab0. rewrite cnt_upd; [|apply nth_repeat; lia|rewrite repeat_length; lia|lia].
    now rewrite cnt_repeat. }
  destruct (bfs_spec g (excess s) old W S0 Hold ltac:(lia) N2 (S n) lab0 [(n - 1, 0)] [] 0) as (lab' & q' & E & (d' & B) & Sc).
  - destruct Hold as (O1 & O2 & O3). fold n in O1, O2. constructor; fold n.
    + unfold lab0. now rewrite upd_length, repeat_length.
    + intros x Hx Hlx. destruct (Nat.eq_dec x (n - 1)) as [->|Nx]; [rewrite L0s, C0; lia|].
      rewrite L0o in Hlx; auto. lia.
    + intros x Hx. destruct (Nat.eq_dec x (n - 1)) as [->|Nx]; [lia|]. rewrite L0o; auto.
    + intros x e [Eq|[]]. inversion Eq; subst. repeat split; auto; lia.
    + simpl. constructor; constructor.
    + intros x Hx. destruct (Nat.eq_dec x (n - 1)) as [->|Nx]; [lia|]. rewrite L0o; auto.
    + apply L0o; lia.
    + auto.
    + intros x Hx Hs. rewrite L0o; auto. lia.
    + constructor.
    + intros x. split; [intros []|]. intros (A1 & A2 & A3 & A4). rewrite L0o in A4; auto. lia.
  - intros w Hw Hlw Hnin. exfalso. fold n in Hw, Hlw.
    destruct (Nat.eq_dec w (n - 1)) as [->|Nx]; [apply Hnin; now left|]. rewrite L0o in Hlw; auto.
  - fold n. rewrite C0. simpl. lia.
  - rewrite E.
    destruct B as [B1 B2 B3 B4 B5 B6 B7 B8 B9 B10 B11]. fold n in B1, B2, B3, B6, B7, B8, B9, B11.
    eexists. split; [reflexivity|]. simpl. do 4 (split; [reflexivity|]).
    assert (Cl : forall v i a, arc_at g v i = Some a -> (0 < cap a)%Z -> nth (dist a) lab' 0 <> n ->
        nth v lab' 0 <> n /\ nth v lab' 0 <= nth (dist a) lab' 0 + 1).
    { intros v i a Ha Hc Hl. destruct (W _ _ _ Ha) as (D1 & D2 & b & Hb & D3 & D4).
      pose proof (Sc (dist a) D1 Hl (fun x => x) _ _ Hb) as Q. unfold closed_arc in Q.
      rewrite D3, D4 in Q. apply (Q a); auto. }
    split; [|split].
    + constructor; unfold nn; simpl; auto.
      * constructor; fold n; auto.
        intros v i a Ha Hc. destruct (W _ _ _ Ha) as (D1 & D2 & _).
        destruct (Nat.eq_dec (nth (dist a) lab' 0) n) as [E1|N1].
        -- rewrite E1. pose proof (B3 v (proj1 (arc_at_lt _ _ _ _ Ha))). lia.
        -- apply (Cl v i a Ha Hc N1).
      * constructor; auto. intros v. fold n. unfold nocur. rewrite B11. tauto.
    + intros v i a Ha Hc Hv. fold n in Hv |- *.
      destruct (Nat.eq_dec (nth (dist a) lab' 0) n) as [E1|N1]; auto.
      destruct (Cl v i a Ha Hc N1). contradiction.
    + intros x Hx. auto.
Qed.

(** ** The main loop *)
From Coq Require Import Sorting.Permutation.

Lemma lab_old_ok g lab : Lab g lab -> old_ok g lab.
Proof. intros [L1 L2 L3 L4 L5 L6]. split; auto. Qed.

Definition same_queue (s s' : pr) : Prop := label s' = label s /\ Permutation (queue s') (queue s).

Lemma round_spec g0 s v q :
  Inv g0 s nocur -> queue s = v :: q ->
  exists s', round s v q = Some s' /\ Inv g0 s' nocur /\ nn s' = nn s /\
    (forall x, x < nn s -> nth x (label s) 0 <= nth x (label s') 0) /\
    length (label s') = length (label s) /\
    ((label s' = label s /\ exists new, Permutation (queue s') (q ++ new) /\
       forall x, In x new -> nth x (label s) 0 + 1 = nth v (label s) 0) \/
     lsum (label s) < lsum (label s')).
Proof.
  intros I Eq. destruct (discharge_spec g0 s v q I Eq) as (s1 & E1 & I1 & N1 & M1 & L1 & G1).
  unfold round. rewrite E1.
  destruct (threshold s1 * 2 <=? progress s1).
  2:{ exists s1. split; [reflexivity|]. split; [exact I1|]. split; [exact N1|]. split; [exact M1|].
      split; [exact L1|]. destruct G1 as [(G1 & new & G2 & G3)|G1]; [left|now right].
      split; auto. exists new. split; auto. rewrite G2. apply Permutation_refl. }
  set (s1' := PR (net s1) (label s1) (excess s1) (queue s1) 0 (threshold s1)).
  pose proof (in_lab _ _ _ I1) as La.
  destruct (global_relabel_spec g0 s1' (label s1)) as (s2 & E2 & P1 & P2 & P3 & P4 & I2 & _ & M2).
  - apply (in_core _ _ _ I1).
  - apply (in_n _ _ _ I1).
  - apply (in_src _ _ _ I1).
  - apply (la_len _ _ La).
  - apply lab_old_ok; exact La.
  - exists s2. split; [exact E2|]. split; [exact I2|].
    assert (N2 : nn s2 = nn s) by (unfold nn in *; rewrite P1; exact N1).
    assert (L2 : length (label s2) = length (label s1)).
    { rewrite (la_len _ _ (in_lab _ _ _ I2)), (la_len _ _ La). unfold nn in *. congruence. }
    change (nn s1') with (nn s1) in M2.
    split; [exact N2|]. split; [|split; [congruence|]].
    + intros x Hx. specialize (M1 x Hx). specialize (M2 x ltac:(lia)). lia.
    + assert (M2' : forall i, i < length (label s1) -> nth i (label s1) 0 <= nth i (label s2) 0).
      { intros i Hi. apply M2. rewrite (la_len _ _ La) in Hi. exact Hi. }
      destruct (lsum_le (label s1) (label s2) (eq_sym L2) M2') as [Q1 Q2].
      destruct G1 as [(G1 & new & G2 & G3)|G1]; [|right; lia].
      destruct (Nat.eq_dec (lsum (label s1)) (lsum (label s2))) as [Es|Ns]; [|right; rewrite <- G1; lia].
      left. specialize (Q2 Es). split; [congruence|]. exists new. split; auto. rewrite <- G2.
      destruct (in_que _ _ _ I1) as [U1 U2]. destruct (in_que _ _ _ I2) as [U3 U4].
      apply NoDup_Permutation; auto. intros x. rewrite U2, U4, N1, N2, <- Q2, P2. simpl. tauto.
Qed.

Fixpoint qweight (n : nat) (lab : list nat) (q : list nat) : nat :=
  match q with [] => 0 | x :: q' => n ^ nth x lab 0 + qweight n lab q' end.

Lemma qweight_app n lab q1 q2 : qweight n lab (q1 ++ q2) = qweight n lab q1 + qweight n lab q2.
Proof. induction q1; simpl; lia. Qed.

Lemma qweight_perm n lab q1 q2 : Permutation q1 q2 -> qweight n lab q1 = qweight n lab q2.
Proof. induction 1; simpl; lia. Qed.

Lemma qweight_const n lab q l : (forall x, In x q -> nth x lab 0 = l) -> qweight n lab q = length q * n ^ l.
Proof.
  induction q as [|y q IH]; simpl; intros H; [reflexivity|].
  rewrite IH by auto. now rewrite (H y (or_introl eq_refl)).
Qed.

(** States between two rounds of the main loop. *)
Inductive reach (s : pr) : pr -> Prop :=
| reach_start s0 : global_relabel s = Some s0 -> reach s s0
| reach_round s1 s2 v q : reach s s1 -> queue s1 = v :: q -> round s1 v q = Some s2 -> reach s s2.

Lemma main_loop_term g0 n : forall M W s,
  Inv g0 s nocur -> nn s = n -> n * n - lsum (label s) <= M -> qweight (S n) (label s) (queue s) <= W ->
  exists fuel0 s', (forall fuel, fuel0 <= fuel -> main_loop fuel s = Some s') /\
    Inv g0 s' nocur /\ queue s' = [] /\ (forall o, reach o s -> reach o s').
Proof.
  induction M as [M IHM] using lt_wf_ind. induction W as [W IHW] using lt_wf_ind.
  intros s I N HM HW.
  destruct (queue s) as [|v q] eqn:Eq.
  { exists 0, s. split; [|auto]. intros fuel _. destruct fuel; simpl; now rewrite Eq. }
  destruct (round_spec g0 s v q I Eq) as (s1 & E1 & I1 & N1 & M1 & L1 & G1).
  assert (Next : (exists fuel0 s', (forall fuel, fuel0 <= fuel -> main_loop fuel s1 = Some s') /\
    Inv g0 s' nocur /\ queue s' = [] /\ (forall o, reach o s1 -> reach o s')) ->
    exists fuel0 s', (forall fuel, fuel0 <= fuel -> main_loop fuel s = Some s') /\
    Inv g0 s' nocur /\ queue s' = [] /\ (forall o, reach o s -> reach o s')).
  { intros (f0 & s' & H1 & H2 & H3 & H4). exists (S f0), s'. split; [|split; [auto|split; [auto|]]].
    - intros [|fuel] Hf; [lia|]. simpl. rewrite Eq, E1. apply H1. lia.
    - intros o Ho. apply H4. eapply reach_round; eauto. }
  apply Next; clear Next.
  assert (B1 : lsum (label s1) <= n * n).
  { pose proof (in_lab _ _ _ I1) as La. pose proof (lsum_bound (label s1) n) as LB.
    rewrite (la_len _ _ La) in LB. unfold nn in *. rewrite N1, N in LB. apply LB.
    intros i Hi. rewrite <- N, <- N1. apply (la_le _ _ La). lia. }
  destruct G1 as [(G1 & new & G2 & G3)|G1].
  - apply (IHW (qweight (S n) (label s1) (queue s1))); auto; [|lia|rewrite G1; exact HM].
    rewrite (qweight_perm _ _ _ _ G2), qweight_app, G1.
    simpl in HW. set (l := nth v (label s) 0) in *.
    destruct (le_lt_dec 1 l) as [Hl|Hl].
    2:{ destruct new as [|x new]; [|exfalso; specialize (G3 x (or_introl eq_refl)); lia].
        simpl. assert (S n ^ l <> 0) by (apply Nat.pow_nonzero; lia). lia. }
    rewrite (qweight_const _ _ new (l - 1)) by (intros x Hx; specialize (G3 x Hx); lia).
    assert (Ln : length new <= n).
    { assert (ND : NoDup new).
      { assert (D : NoDup (q ++ new)) by (eapply Permutation_NoDup; [exact G2|apply (qu_nodup _ _ _ _ _ (in_que _ _ _ I1))]).
        revert D. clear. induction q as [|y q IH]; simpl; auto. intros H. inversion H; auto. }
      assert (In' : incl new (seq 0 n)).
      { intros x Hx. apply in_seq. assert (In x (queue s1)).
        { eapply Permutation_in; [apply Permutation_sym; exact G2|]. apply in_app_iff. now right. }
        apply (qu_in _ _ _ _ _ (in_que _ _ _ I1)) in H. destruct H as [(H & _) _]. lia. }
      pose proof (NoDup_incl_length ND In') as H. rewrite seq_length in H. auto. }
    assert (Ep : S n ^ l = S n * S n ^ (l - 1)).
    { destruct l as [|l]; [lia|]. replace (S l - 1) with l by lia. reflexivity. }
    assert (length new * S n ^ (l - 1) < S n ^ l).
    { rewrite Ep. apply Nat.mul_lt_mono_pos_r; [|lia].
      assert (S n ^ (l - 1) <> 0) by (apply Nat.pow_nonzero; lia). lia. }
    lia.
  - apply (IHM (n * n - lsum (label s1))) with (W := qweight (S n) (label s1) (queue s1)); auto; lia.
Qed.

(** What [find_max_flow] needs from its start state. *)
Definition ready (g0 : network) (s : pr) : Prop :=
  Core g0 (net s) (excess s) /\ 2 <= nn s /\ src0 (net s) /\ length (label s) = nn s /\
  old_ok (net s) (label s).

Lemma find_max_flow_spec g0 s : ready g0 s ->
  exists fuel0 s', (forall fuel, fuel0 <= fuel -> find_max_flow fuel s = Some s') /\
    Inv g0 s' nocur /\ queue s' = [] /\ reach s s' /\ nn s' = nn s.
Proof.
  intros (C & N & S0 & LL & O).
  destruct (global_relabel_spec g0 s (label s) C N S0 LL O) as (s0 & E & P1 & P2 & P3 & P4 & I & _ & M).
  destruct (main_loop_term g0 (nn s0) (nn s0 * nn s0) (qweight (S (nn s0)) (label s0) (queue s0)) s0 I eq_refl)
    as (f0 & s' & H1 & H2 & H3 & H4); [lia|auto|].
  exists f0, s'. split; [|split; [auto|split; [auto|split]]].
  - intros fuel Hf. unfold find_max_flow. rewrite E. auto.
  - apply H4. now constructor.
  - unfold nn. rewrite (co_len _ _ _ (in_core _ _ _ H2)). symmetry. apply (co_len _ _ _ C).
Qed.

Lemma reach_inv g0 s s' : ready g0 s -> reach s s' -> Inv g0 s' nocur.
Proof.
  intros (C & N & S0 & LL & O) R. induction R as [s0 E|s1 s2 v q R IH Eq E].
  - destruct (global_relabel_spec g0 s (label s) C N S0 LL O) as (s0' & E' & _ & _ & _ & _ & I & _).
    congruence.
  - destruct (round_spec g0 s1 v q IH Eq) as (s2' & E' & I & _). congruence.
Qed.

(** ** Cuts *)
Definition cutw (S : nat -> bool) (v w : nat) : Z := if S v && negb (S w) then 1 else 0.
Definition outw (S : nat -> bool) (v : nat) : Z := if S v then 0 else 1.

Lemma cut_excess g0 g ex S : Core g0 g ex -> S 0 = true ->
  esum (outw S) ex = (wsum (cutw S) g0 - wsum (cutw S) g)%Z.
Proof.
  intros C HS.
  assert (B : esum (outw S) ex = (wsum (fun v _ => outw S v) g - wsum (fun v _ => outw S v) g0)%Z).
  { apply (co_bal _ _ _ C). unfold outw. now rewrite HS. }
  assert (E : forall k, wsum k g = wsum k g0 -> True) by auto. clear E.
  set (cross := fun v w => if xorb (S v) (S w) then 1%Z else 0%Z).
  set (both := fun v w => if S v || S w then 0%Z else 1%Z).
  assert (X1 : wsum cross g = wsum cross g0).
  { apply (co_sym _ _ _ C). intros v w. unfold cross. now rewrite xorb_comm. }
  assert (X2 : wsum both g = wsum both g0).
  { apply (co_sym _ _ _ C). intros v w. unfold both. now rewrite orb_comm. }
  assert (Eq : forall k, (wsum (fun v _ => outw S v) k + wsum (cutw S) k = wsum cross k + wsum both k)%Z).
  { intros k. unfold wsum. rewrite <- !wsum_add. apply wsum_from_ext. intros v r _ a _.
    unfold outw, cutw, cross, both. destruct (S (0 + v)), (S (dist a)); reflexivity. }
  pose proof (Eq g). pose proof (Eq g0). lia.
Qed.

Lemma rescut_nonneg g0 g ex S : Core g0 g ex -> (0 <= wsum (cutw S) g)%Z.
Proof.
  intros C. apply wsum_nonneg. intros v r Hr a Ha.
  assert (0 <= cap a)%Z.
  { apply In_nth_error in Ha. destruct Ha as [i Hi]. apply (co_cap _ _ _ C v i a).
    unfold arc_at. now rewrite Hr. }
  unfold cutw. destruct (S (0 + v) && negb (S (dist a))); lia.
Qed.

Lemma rescut_zero g S : (forall v i a, arc_at g v i = Some a -> (0 < cap a)%Z -> S v = true -> S (dist a) = true) ->
  (forall v i a, arc_at g v i = Some a -> (0 <= cap a)%Z) -> wsum (cutw S) g = 0%Z.
Proof.
  intros H Hc.
  assert (R : forall g' k (f : nat -> nat -> Z), (forall v r, nth_error g' v = Some r -> forall a, In a r -> (f (k + v)%nat (dist a) * cap a = 0)%Z) ->
     wsum_from k f g' = 0%Z).
  { assert (R : forall (f : nat -> Z) r, (forall a, In a r -> f (dist a) * cap a = 0)%Z -> rsum f r = 0%Z).
    { induction r as [|x r IH]; simpl; intros P; auto. rewrite IH by auto. rewrite P; auto. }
    induction g' as [|r g' IH]; intros k f P; simpl; auto.
    rewrite R, IH; auto.
    - intros v r' Hv a Ha. specialize (P (Datatypes.S v) r' Hv a Ha).
      now replace (Datatypes.S k + v) with (k + Datatypes.S v) by lia.
    - intros a Ha. specialize (P 0 r eq_refl a Ha). now rewrite Nat.add_0_r in P. }
  apply R. intros v r Hr a Ha. simpl. apply In_nth_error in Ha. destruct Ha as [i Hi].
  assert (Ha : arc_at g v i = Some a) by (unfold arc_at; now rewrite Hr).
  unfold cutw. destruct (S v) eqn:Ev; simpl; [|lia].
  destruct (S (dist a)) eqn:Ed; simpl; [lia|].
  destruct (Z.eq_dec (cap a) 0) as [->|Nz]; [reflexivity|].
  specialize (Hc _ _ _ Ha). specialize (H _ _ _ Ha ltac:(lia) Ev). congruence.
Qed.

(** Any cut bounds the excess of the sink. *)
Lemma cut_upper g0 s S : Inv g0 s nocur -> S 0 = true -> S (sink s) = false ->
  (nth (sink s) (excess s) 0 <= wsum (cutw S) g0)%Z.
Proof.
  intros I H0 Hs. pose proof (in_core _ _ _ I) as C. pose proof (in_n _ _ _ I) as N.
  pose proof (cut_excess _ _ _ S C H0) as E. pose proof (rescut_nonneg _ _ _ S C) as P.
  assert (outw S (0 + sink s) * nth (sink s) (excess s) 0 <= esum (outw S) (excess s))%Z.
  { apply esum_ge.
    - rewrite (co_elen _ _ _ C), <- (co_len _ _ _ C). unfold sink, nn in *. lia.
    - intros x _. pose proof (co_ex _ _ _ C x). unfold outw. destruct (S (0 + x)); lia. }
  unfold outw in H at 1. simpl in H. rewrite Hs in H. lia.
Qed.

(** A cut without residual arcs and without excess outside is tight. *)
Lemma cut_tight g0 s S : Inv g0 s nocur -> S 0 = true -> S (sink s) = false ->
  (forall v i a, arc_at (net s) v i = Some a -> (0 < cap a)%Z -> S v = true -> S (dist a) = true) ->
  (forall v, v < nn s -> v <> sink s -> S v = false -> nth v (excess s) 0%Z = 0%Z) ->
  (nth (sink s) (excess s) 0 = wsum (cutw S) g0)%Z.
Proof.
  intros I H0 Hs Hr He. pose proof (in_core _ _ _ I) as C. pose proof (in_n _ _ _ I) as N.
  pose proof (cut_excess _ _ _ S C H0) as E.
  rewrite (rescut_zero (net s) S Hr (co_cap _ _ _ C)) in E.
  assert (Ln : length (excess s) = nn s) by (rewrite (co_elen _ _ _ C), <- (co_len _ _ _ C); reflexivity).
  unfold esum in E. rewrite (esum_single _ _ 0 (sink s)) in E.
  - unfold outw in E. simpl in E. rewrite Hs in E. lia.
  - rewrite Ln. unfold sink. lia.
  - intros x Hx Hne. unfold outw. simpl. destruct (S x) eqn:Ex; [lia|]. rewrite He; auto; lia.
Qed.

Lemma no_excess g0 s v : Inv g0 s nocur -> queue s = [] -> v < nn s -> v <> sink s ->
  nth v (label s) 0 < nn s -> nth v (excess s) 0%Z = 0%Z.
Proof.
  intros I Q Hv Hs Hl. pose proof (in_core _ _ _ I) as C.
  pose proof (co_ex _ _ _ C v). destruct (Z.eq_dec (nth v (excess s) 0%Z) 0); auto.
  exfalso. assert (In v (queue s)).
  { apply (qu_in _ _ _ _ _ (in_que _ _ _ I)). split; [|exact (fun x => x)].
    repeat split; auto. lia. }
  rewrite Q in H0. destruct H0.
Qed.

(** A label value below [n] that no node has gives a tight cut. *)
Definition above (s : pr) (k v : nat) : bool := k <? nth v (label s) 0.

Lemma gap_cut g0 s k : Inv g0 s nocur -> queue s = [] -> 1 <= k < nn s ->
  (forall v, v < nn s -> nth v (label s) 0 <> k) ->
  above s k 0 = true /\ above s k (sink s) = false /\
  nth (sink s) (excess s) 0%Z = wsum (cutw (above s k)) g0.
Proof.
  intros I Q Hk Hg. pose proof (in_lab _ _ _ I) as L. pose proof (in_core _ _ _ I) as C.
  assert (A0 : above s k 0 = true).
  { unfold above. rewrite (la_src _ _ L). apply Nat.ltb_lt. unfold nn in *. lia. }
  assert (As : above s k (sink s) = false).
  { unfold above, sink, nn. rewrite (la_sink _ _ L). apply Nat.ltb_ge. lia. }
  split; [auto|]. split; [auto|]. apply cut_tight; auto.
  - intros v i a Ha Hc Hv. unfold above in *. apply Nat.ltb_lt in Hv. apply Nat.ltb_lt.
    pose proof (la_valid _ _ L _ _ _ Ha Hc). destruct (co_wf _ _ _ C _ _ _ Ha) as (D & _).
    specialize (Hg (dist a) D). lia.
  - intros v Hv Hs Hf. unfold above in Hf. apply Nat.ltb_ge in Hf. apply (no_excess g0); auto. lia.
Qed.

Lemma gap_exists : forall s, Lab (net s) (label s) -> 2 <= nn s ->
  exists k, 1 <= k < nn s /\ forall v, v < nn s -> nth v (label s) 0 <> k.
Proof.
  intros s L N.
  (* the nodes 1 .. n-2 cannot cover the values 1 .. n-1 *)
  set (vals := map (fun v => nth v (label s) 0) (seq 1 (nn s - 2))).
  destruct (List.Exists_dec (fun k => ~ In k vals) (seq 1 (nn s - 1))) as [Ex|Nex].
  { intros k. destruct (in_dec Nat.eq_dec k vals); [right|left]; tauto. }
  - apply Exists_exists in Ex. destruct Ex as (k & Hk & Hn). apply in_seq in Hk.
    exists k. split; [lia|]. intros v Hv E.
    destruct (Nat.eq_dec v 0) as [->|V0]; [rewrite (la_src _ _ L) in E; unfold nn in *; lia|].
    destruct (Nat.eq_dec v (nn s - 1)) as [->|V1]; [unfold nn in *; rewrite (la_sink _ _ L) in E; lia|].
    apply Hn. apply in_map_iff. exists v. split; auto. apply in_seq. lia.
  - exfalso. assert (Inc : incl (seq 1 (nn s - 1)) vals).
    { intros k Hk. destruct (in_dec Nat.eq_dec k vals); auto. exfalso. apply Nex.
      apply Exists_exists. eauto. }
    pose proof (NoDup_incl_length (seq_NoDup _ _) Inc) as H. unfold vals in H.
    rewrite map_length, !seq_length in H. lia.
Qed.

(** ** init *)
Definition row_inj (g : network) (v : nat) : Prop :=
  forall i j a b, arc_at g v i = Some a -> arc_at g v j = Some b -> dist a = dist b -> i = j.

Lemma init_loop_spec g0 : forall is g ex,
  Core g0 g ex -> 2 <= length g -> row_inj g 0 -> NoDup is ->
  (forall i, In i is -> i < length (row g 0)) ->
  (forall i a, In i is -> arc_at g 0 i = Some a -> nth (dist a) ex 0%Z = 0%Z) ->
  (forall i a, ~ In i is -> arc_at g 0 i = Some a -> cap a = 0%Z) ->
  exists g' ex', init_loop is g ex = Some (g', ex') /\ Core g0 g' ex' /\ src0 g'.
Proof.
  induction is as [|i is IH]; intros g ex C N Inj ND Hi Hz Hc.
  { exists g, ex. split; [reflexivity|]. split; [auto|]. intros i a Ha. apply (Hc i a); auto. }
  simpl init_loop. inversion ND as [|? ? Nin ND']; subst.
  assert (Hlt : i < length (row g 0)) by (apply Hi; now left).
  destruct (arc_at g 0 i) as [a|] eqn:Ha.
  2:{ rewrite arc_at_row in Ha. apply nth_error_None in Ha. lia. }
  destruct (Z.ltb_spec 0 (cap a)) as [Hp|Hp].
  2:{ apply IH; auto.
      - intros j Hj. apply Hi. now right.
      - intros j b Hj Hb. apply (Hz j b); auto. now right.
      - intros j b Hj Hb. destruct (Nat.eq_dec j i) as [->|Nj].
        + rewrite Ha in Hb. inversion Hb; subst b. pose proof (co_cap _ _ _ C _ _ _ Ha). lia.
        + apply (Hc j b); auto. intros [E|E]; auto. }
  pose proof (co_wf _ _ _ C) as W. destruct (W _ _ _ Ha) as (D1 & D2 & b & Hb & D3 & D4).
  assert (Le : length ex = length g) by (rewrite (co_elen _ _ _ C), (co_len _ _ _ C); reflexivity).
  rewrite set_eq by lia.
  destruct (move_spec' g 0 i a b Ha Hb D3 D2) as (g1 & g2 & E1 & E2 & M).
  rewrite E1, E2. pose proof M as (ML & MR & MA & MW).
  assert (Z0 : nth (dist a) ex 0%Z = 0%Z) by (apply (Hz i a); auto; now left).
  assert (A0 : forall j c', arc_at g2 0 j = Some c' -> (j = i /\ cap c' = 0%Z) \/ (j <> i /\ arc_at g 0 j = Some c')).
  { intros j c' H. rewrite MA in H. destruct (Nat.eqb_spec i j) as [->|]; simpl in H.
    - inversion H; subst; simpl. left. split; auto. lia.
    - right. split; auto. destruct (Nat.eqb_spec (dist a) 0); [congruence|]. exact H. }
  apply IH; auto.
  - apply (core_move g0 g ex 0 i a b (cap a) g2); auto.
    + lia.
    + now rewrite upd_length.
    + intros u. destruct (Nat.eq_dec (dist a) u) as [<-|].
      * rewrite nth_upd_eq by lia. lia.
      * rewrite nth_upd_neq by auto. apply (co_ex _ _ _ C).
    + intros h H0. unfold esum. rewrite esum_upd by lia. rewrite Z0, H0. simpl. ring.
  - lia.
  - intros j k c d Hj Hk E.
    assert (S1 : forall j c, arc_at g2 0 j = Some c -> exists c0, arc_at g 0 j = Some c0 /\ dist c0 = dist c).
    { intros j0 c0 H. rewrite MA in H. destruct (Nat.eqb_spec i j0) as [->|]; simpl in H.
      - inversion H; subst; simpl. eauto.
      - destruct (Nat.eqb_spec (dist a) 0); [congruence|]. simpl in H. eauto. }
    destruct (S1 _ _ Hj) as (c0 & Hc0 & F1). destruct (S1 _ _ Hk) as (d0 & Hd0 & F2).
    apply (Inj j k c0 d0); auto. congruence.
  - intros j Hj. rewrite MR. apply Hi. now right.
  - intros j c Hj Hcj. destruct (A0 _ _ Hcj) as [(-> & _)|(Nj & H1)]; [contradiction|].
    rewrite nth_upd_neq.
    + apply (Hz j c); auto. now right.
    + intros E. apply Nj. symmetry. apply (Inj i j a c); auto.
  - intros j c Hj Hcj. destruct (A0 _ _ Hcj) as [(-> & H0)|(Nj & H1)]; auto.
    apply (Hc j c); auto. intros [E|E]; auto.
Qed.

Lemma nth_repeatZ n i : nth i (repeat 0%Z n) 0%Z = 0%Z.
Proof. revert i; induction n; intros [|i]; simpl; auto. Qed.

Lemma esum_repeat h n : forall k, esum_from k h (repeat 0%Z n) = 0%Z.
Proof. induction n; simpl; intros; auto. rewrite IHn. lia. Qed.

Lemma core_init g n : length g = n -> wfnet g -> (forall v i a, arc_at g v i = Some a -> (0 <= cap a)%Z) ->
  Core g g (repeat 0%Z n).
Proof.
  intros L W Hc. constructor; auto.
  - now rewrite repeat_length.
  - intros v i a H. eauto.
  - intros v i a b a0 b0 H1 H2 H3 H4. congruence.
  - intros v. rewrite nth_repeatZ. lia.
  - intros h _. unfold esum. rewrite esum_repeat. lia.
Qed.

Lemma nth_repeatn n i : nth i (repeat 0 n) 0 = 0.
Proof. revert i; induction n; intros [|i]; simpl; auto. Qed.

Lemma init_spec g n : length g = n -> 2 <= n -> wfnet g ->
  (forall v i a, arc_at g v i = Some a -> (0 <= cap a)%Z) -> row_inj g 0 ->
  exists s, init (PR g (repeat 0 n) (repeat 0%Z n) [] 0 0) = Some s /\ ready g s /\ nn s = n.
Proof.
  intros L N W Hc Inj. unfold init. simpl net. rewrite row_nth_error by lia.
  destruct (init_loop_spec g (seq 0 (length (row g 0))) g (repeat 0%Z n)) as (g' & ex' & E & C & S0).
  - now apply core_init.
  - lia.
  - auto.
  - apply seq_NoDup.
  - intros i Hi. now apply seq_row_spec.
  - intros. apply nth_repeatZ.
  - intros i a Hn Ha. exfalso. apply Hn. apply seq_row_spec. apply (arc_at_lt _ _ _ _ Ha).
  - simpl excess. rewrite E. eexists. split; [reflexivity|].
    assert (Ln : length g' = n) by (rewrite (co_len _ _ _ C); auto).
    split; [|unfold nn; simpl; auto]. unfold ready, nn; simpl. split; [auto|]. split; [lia|]. split; [auto|].
    split; [rewrite repeat_length; auto|]. split; [apply nth_repeatn|]. split.
    + intros. rewrite nth_repeatn. lia.
    + intros. rewrite !nth_repeatn. lia.
Qed.

(** ** merge_arcs and build_net *)
(** A merged edge: (t, f, c, c') has capacity c from f to t and c' back. *)
Notation edge := (nat * nat * Z * Z)%type.
Definition flat1 (e : edge) : list (nat * Z) := let '(t, f, c, c') := e in [(t, c); (f, c')].
Definition flat (ps : list edge) : list (nat * Z) := flat_map flat1 ps.

Lemma flat_length ps : length (flat ps) = 2 * length ps.
Proof. induction ps as [|[[[t f] c] c'] ps IH]; simpl in *; auto. unfold flat in *. rewrite IH. lia. Qed.

Lemma flat_nth0 : forall ps k t f c c', nth_error ps k = Some (t, f, c, c') -> nth_error (flat ps) (2 * k) = Some (t, c).
Proof.
  induction ps as [|[[[t0 f0] c0] c0'] ps IH]; intros [|k] t f c c' H; simpl in H; try discriminate.
  - inversion H; subst. reflexivity.
  - replace (2 * S k) with (S (S (2 * k))) by lia. simpl flat. simpl nth_error at 1. now apply (IH k t f c c').
Qed.

Lemma flat_nth1 : forall ps k t f c c', nth_error ps k = Some (t, f, c, c') -> nth_error (flat ps) (2 * k + 1) = Some (f, c').
Proof.
  induction ps as [|[[[t0 f0] c0] c0'] ps IH]; intros [|k] t f c c' H; simpl in H; try discriminate.
  - inversion H; subst. reflexivity.
  - replace (2 * S k + 1) with (S (S (2 * k + 1))) by lia. simpl flat. simpl nth_error at 1. now apply (IH k t f c c').
Qed.

Lemma flat_upd0 : forall ps k t f c c' x, nth_error ps k = Some (t, f, c, c') ->
  upd (flat ps) (2 * k) (t, x) = flat (upd ps k (t, f, x, c')).
Proof.
  induction ps as [|[[[t0 f0] c0] c0'] ps IH]; intros [|k] t f c c' x H; simpl in H; try discriminate.
  - inversion H; subst. reflexivity.
  - replace (2 * S k) with (S (S (2 * k))) by lia. simpl flat. simpl upd at 1. do 2 f_equal. now apply (IH k t f c c').
Qed.

Lemma flat_upd1 : forall ps k t f c c' x, nth_error ps k = Some (t, f, c, c') ->
  upd (flat ps) (2 * k + 1) (f, x) = flat (upd ps k (t, f, c, x)).
Proof.
  induction ps as [|[[[t0 f0] c0] c0'] ps IH]; intros [|k] t f c c' x H; simpl in H; try discriminate.
  - inversion H; subst. reflexivity.
  - replace (2 * S k + 1) with (S (S (2 * k + 1))) by lia. simpl flat. simpl upd at 1. do 2 f_equal. now apply (IH k t f c c').
Qed.

Fixpoint psum (h : nat -> nat -> Z) (ps : list edge) : Z :=
  match ps with [] => 0 | (t, f, c, c') :: ps' => h f t * c + h t f * c' + psum h ps' end%Z.
Fixpoint asum (h : nat -> nat -> Z) (arcs : list (nat * nat * Z)) : Z :=
  match arcs with [] => 0 | (f, t, c) :: arcs' => h f t * c + asum h arcs' end%Z.

Lemma psum_app h ps1 ps2 : psum h (ps1 ++ ps2) = (psum h ps1 + psum h ps2)%Z.
Proof. induction ps1 as [|[[[t f] c] c'] ps1 IH]; simpl; auto. rewrite IH. ring. Qed.

Lemma psum_upd h : forall ps k t f c c' x x', nth_error ps k = Some (t, f, c, c') ->
  psum h (upd ps k (t, f, x, x')) = (psum h ps + h f t * (x - c) + h t f * (x' - c'))%Z.
Proof.
  induction ps as [|[[[t0 f0] c0] c0'] ps IH]; intros [|k] t f c c' x x' H; simpl in H; try discriminate.
  - inversion H; subst. simpl. ring.
  - simpl. rewrite (IH k t f c c' x x' H). ring.
Qed.

Definition good_edge (n : nat) (e : edge) : Prop :=
  let '(t, f, c, c') := e in t < n /\ f < n /\ f <> t /\ (0 <= c)%Z /\ (0 <= c')%Z.

Record MI (n : nat) (ps : list edge) (em : emap) : Prop := {
  mi_len : length em = n;
  mi_good : forall e, In e ps -> good_edge n e;
  mi_map : forall f t id, f < n -> (assoc t (nth f em []) = Some id <->
    exists k c c', nth_error ps k = Some (t, f, c, c') /\ id = 2 * k);
  mi_one : forall k1 k2 t f c1 c1' c2 c2', nth_error ps k1 = Some (t, f, c1, c1') ->
    nth_error ps k2 = Some (t, f, c2, c2') -> k1 = k2;
  mi_opp : forall k1 k2 t f c1 c1' c2 c2', nth_error ps k1 = Some (t, f, c1, c1') ->
    nth_error ps k2 = Some (f, t, c2, c2') -> False }.

Definition good_arc (n : nat) (a : nat * nat * Z) : Prop :=
  let '(f, t, c) := a in f < n /\ t < n /\ f <> t /\ (0 <= c)%Z.

(** Replacing the capacities of one edge keeps [MI]. *)
Lemma MI_upd n ps em k t f c c' x x' : MI n ps em -> nth_error ps k = Some (t, f, c, c') ->
  (0 <= x)%Z -> (0 <= x')%Z -> MI n (upd ps k (t, f, x, x')) em.
Proof.
  intros [M1 M2 M3 M4 M5] Hk Hx Hx'.
  pose proof (nth_error_lt _ _ _ Hk) as Hlt.
  assert (P : forall j t0 f0, (exists c0 c0', nth_error (upd ps k (t, f, x, x')) j = Some (t0, f0, c0, c0')) <->
     (exists c0 c0', nth_error ps j = Some (t0, f0, c0, c0'))).
  { intros j t0 f0. rewrite nth_error_upd. destruct (Nat.eqb_spec k j) as [<-|]; simpl; [|tauto].
    destruct (Nat.ltb_spec k (length ps)); [|lia]. rewrite Hk.
    split; intros (c0 & c0' & E); inversion E; subst; eauto. }
  constructor; auto.
  - intros e He. apply In_nth_error in He. destruct He as [j Hj]. rewrite nth_error_upd in Hj.
    destruct ((k =? j) && (k <? length ps)).
    + inversion Hj; subst. pose proof (M2 _ (nth_error_In _ _ Hk)) as G. simpl in *. tauto.
    + apply M2. eapply nth_error_In; eauto.
  - intros f0 t0 id Hf. rewrite M3 by auto. split.
    + intros (j & c0 & c0' & H & E). destruct (proj2 (P j t0 f0)) as (d & d' & H'); eauto 10.
    + intros (j & c0 & c0' & H & E). destruct (proj1 (P j t0 f0)) as (d & d' & H'); eauto 10.
  - intros k1 k2 t0 f0 c1 c1' c2 c2' H1 H2.
    destruct (proj1 (P k1 t0 f0)) as (d & d' & H1'); eauto. destruct (proj1 (P k2 t0 f0)) as (e & e' & H2'); eauto.
  - intros k1 k2 t0 f0 c1 c1' c2 c2' H1 H2.
    destruct (proj1 (P k1 t0 f0)) as (d & d' & H1'); eauto. destruct (proj1 (P k2 f0 t0)) as (e & e' & H2'); eauto.
Qed.

Lemma MI_snoc n ps em t f c : MI n ps em -> good_arc n (f, t, c) ->
  assoc t (nth f em []) = None -> assoc f (nth t em []) = None ->
  MI n (ps ++ [(t, f, c, 0%Z)]) (upd em f ((t, 2 * length ps) :: nth f em [])).
Proof.
  intros [M1 M2 M3 M4 M5] (G1 & G2 & G3 & G4) N1 N2.
  assert (F1 : forall k c0 c0', nth_error ps k <> Some (t, f, c0, c0')).
  { intros k c0 c0' H. assert (assoc t (nth f em []) = Some (2 * k)) by (apply M3; eauto). congruence. }
  assert (F2 : forall k c0 c0', nth_error ps k <> Some (f, t, c0, c0')).
  { intros k c0 c0' H. assert (assoc f (nth t em []) = Some (2 * k)) by (apply M3; eauto). congruence. }
  assert (P : forall j e, nth_error (ps ++ [(t, f, c, 0%Z)]) j = Some e ->
     nth_error ps j = Some e \/ (j = length ps /\ e = (t, f, c, 0%Z))).
  { intros j e H. destruct (le_lt_dec (length ps) j) as [Hj|Hj].
    - rewrite nth_error_app2 in H by auto. destruct (j - length ps) as [|m] eqn:Em; simpl in H.
      + inversion H; subst. right. split; auto. lia.
      + destruct m; discriminate.
    - rewrite nth_error_app1 in H by auto. auto. }
  constructor.
  - now rewrite upd_length.
  - intros e He. apply in_app_iff in He. destruct He as [He|[<-|[]]]; auto. simpl. repeat split; auto. lia.
  - intros f0 t0 id Hf. destruct (Nat.eq_dec f f0) as [<-|Nf].
    + rewrite nth_upd_eq by lia. simpl. destruct (Nat.eqb_spec t0 t) as [->|Nt].
      * split.
        -- intros E. inversion E; subst. exists (length ps), c, 0%Z. split; [|lia].
           rewrite nth_error_app2, Nat.sub_diag by auto. reflexivity.
        -- intros (k & c0 & c0' & H & ->). destruct (P _ _ H) as [H'|[-> _]].
           ++ exfalso. eapply F1; eauto.
           ++ reflexivity.
      * rewrite M3 by auto. split; intros (k & c0 & c0' & H & E); exists k, c0, c0'; split; auto.
        -- rewrite nth_error_app1; auto. eapply nth_error_lt; eauto.
        -- destruct (P _ _ H) as [H'|[_ H']]; auto. congruence.
    + rewrite nth_upd_neq by auto. rewrite M3 by auto.
      split; intros (k & c0 & c0' & H & E); exists k, c0, c0'; split; auto.
      * rewrite nth_error_app1; auto. eapply nth_error_lt; eauto.
      * destruct (P _ _ H) as [H'|[_ H']]; auto. congruence.
  - intros k1 k2 t0 f0 c1 c1' c2 c2' H1 H2.
    destruct (P _ _ H1) as [H1'|[E1 H1']]; destruct (P _ _ H2) as [H2'|[E2 H2']].
    + eapply M4; eauto.
    + inversion H2'; subst. exfalso. eapply F1; eauto.
    + inversion H1'; subst. exfalso. eapply F1; eauto.
    + congruence.
  - intros k1 k2 t0 f0 c1 c1' c2 c2' H1 H2.
    destruct (P _ _ H1) as [H1'|[E1 H1']]; destruct (P _ _ H2) as [H2'|[E2 H2']].
    + eapply M5; eauto.
    + inversion H2'; subst. eapply F2; eauto.
    + inversion H1'; subst. eapply F2; eauto.
    + inversion H1'; inversion H2'; subst. congruence.
Qed.

Lemma add_edge_cap0 ps k t f c c' x : nth_error ps k = Some (t, f, c, c') ->
  add_edge_cap (flat ps) (2 * k) x = Some (flat (upd ps k (t, f, (c + x)%Z, c'))).
Proof.
  intros H. unfold add_edge_cap. rewrite (flat_nth0 _ _ _ _ _ _ H). rewrite set_eq.
  - now rewrite (flat_upd0 _ _ _ _ _ _ _ H).
  - rewrite flat_length. pose proof (nth_error_lt _ _ _ H). lia.
Qed.

Lemma add_edge_cap1 ps k t f c c' x : nth_error ps k = Some (t, f, c, c') ->
  add_edge_cap (flat ps) (2 * k + 1) x = Some (flat (upd ps k (t, f, c, (c' + x)%Z))).
Proof.
  intros H. unfold add_edge_cap. rewrite (flat_nth1 _ _ _ _ _ _ H). rewrite set_eq.
  - now rewrite (flat_upd1 _ _ _ _ _ _ _ H).
  - rewrite flat_length. pose proof (nth_error_lt _ _ _ H). lia.
Qed.

Lemma merge_arcs_spec n : forall arcs ps em,
  (forall a, In a arcs -> good_arc n a) -> MI n ps em ->
  exists ps' em', merge_arcs arcs (flat ps) em = Some (flat ps', em') /\ MI n ps' em' /\
    forall h, psum h ps' = (psum h ps + asum h arcs)%Z.
Proof.
  induction arcs as [|[[f t] c] arcs IH]; intros ps em G M.
  { exists ps, em. split; [reflexivity|]. split; auto. intros; simpl; ring. }
  pose proof (G _ (or_introl eq_refl)) as (G1 & G2 & G3 & G4).
  assert (G' : forall a, In a arcs -> good_arc n a) by (intros; apply G; now right).
  pose proof (mi_len _ _ _ M) as Le.
  simpl merge_arcs. rewrite (nth_error_nth' em []) by lia.
  destruct (assoc t (nth f em [])) as [id|] eqn:E1.
  - apply (mi_map _ _ _ M) in E1; auto. destruct E1 as (k & c0 & c0' & Hk & ->).
    rewrite (add_edge_cap0 _ _ _ _ _ _ c Hk).
    pose proof (mi_good _ _ _ M _ (nth_error_In _ _ Hk)) as (_ & _ & _ & X1 & X2).
    destruct (IH (upd ps k (t, f, (c0 + c)%Z, c0')) em G') as (ps' & em' & E & M' & S').
    { eapply MI_upd; eauto. lia. }
    exists ps', em'. split; auto. split; auto. intros h. rewrite S', (psum_upd h _ _ _ _ _ _ _ _ Hk). simpl. ring.
  - rewrite (nth_error_nth' em []) by lia.
    destruct (assoc f (nth t em [])) as [id|] eqn:E2.
    + apply (mi_map _ _ _ M) in E2; auto. destruct E2 as (k & c0 & c0' & Hk & ->).
      rewrite (add_edge_cap1 _ _ _ _ _ _ c Hk).
      pose proof (mi_good _ _ _ M _ (nth_error_In _ _ Hk)) as (_ & _ & _ & X1 & X2).
      destruct (IH (upd ps k (f, t, c0, (c0' + c)%Z)) em G') as (ps' & em' & E & M' & S').
      { eapply MI_upd; eauto. lia. }
      exists ps', em'. split; auto. split; auto. intros h. rewrite S', (psum_upd h _ _ _ _ _ _ _ _ Hk). simpl. ring.
    + rewrite set_eq by lia. rewrite flat_length.
      replace (flat ps ++ [(t, c); (f, 0%Z)]) with (flat (ps ++ [(t, f, c, 0%Z)])).
      2:{ unfold flat. rewrite flat_map_app. reflexivity. }
      destruct (IH (ps ++ [(t, f, c, 0%Z)]) (upd em f ((t, 2 * length ps) :: nth f em [])) G') as (ps' & em' & E & M' & S').
      { apply MI_snoc; auto. simpl; auto. }
      exists ps', em'. split; auto. split; auto. intros h. rewrite S', psum_app. simpl. ring.
Qed.

Lemma rsum_app h r1 r2 : rsum h (r1 ++ r2) = (rsum h r1 + rsum h r2)%Z.
Proof. induction r1; simpl; auto. rewrite IHr1. ring. Qed.

Lemma row_upd g v r w : v < length g -> row (upd g v r) w = if v =? w then r else row g w.
Proof.
  intros H. unfold row. destruct (Nat.eqb_spec v w) as [<-|]; [now apply nth_upd_eq|now apply nth_upd_neq].
Qed.

Lemma nth_error_snoc {A} (l : list A) x i y : nth_error (l ++ [x]) i = Some y <->
  nth_error l i = Some y \/ (i = length l /\ y = x).
Proof.
  destruct (lt_eq_lt_dec i (length l)) as [[H|H]|H].
  - rewrite nth_error_app1 by auto. split; auto. intros [?|[? ?]]; auto. lia.
  - subst. rewrite nth_error_app2, Nat.sub_diag by auto. simpl. split.
    + intros E. inversion E; auto.
    + intros [E|[_ ->]]; auto. apply nth_error_lt in E. lia.
  - rewrite nth_error_app2 by lia. destruct (i - length l) as [|m] eqn:Em; [lia|]. simpl.
    split; [destruct m; discriminate|]. intros [E|[? _]]; [apply nth_error_lt in E|]; lia.
Qed.

(** Neighbours appear once per row, and the edges still to be added are new. *)
Definition fresh (g : network) (ps : list edge) : Prop :=
  forall v i a, arc_at g v i = Some a -> forall t f c c', In (t, f, c, c') ps ->
  ~ (v = t /\ dist a = f) /\ ~ (v = f /\ dist a = t).

Inductive distinct : list edge -> Prop :=
| di_nil : distinct []
| di_cons t f c c' ps : distinct ps ->
    (forall c1 c1', ~ In (t, f, c1, c1') ps /\ ~ In (f, t, c1, c1') ps) -> distinct ((t, f, c, c') :: ps).

Lemma build_net_spec n : forall ps g,
  length g = n -> wfnet g -> (forall v, row_inj g v) ->
  (forall v i a, arc_at g v i = Some a -> (0 <= cap a)%Z) ->
  (forall e, In e ps -> good_edge n e) -> distinct ps -> fresh g ps ->
  exists g', build_net (flat ps) g = Some g' /\ length g' = n /\ wfnet g' /\ (forall v, row_inj g' v) /\
    (forall v i a, arc_at g' v i = Some a -> (0 <= cap a)%Z) /\
    (forall h, wsum h g' = (wsum h g + psum h ps)%Z).
Proof.
  induction ps as [|[[[t f] c] c'] ps IH]; intros g Lg W Inj Hc G D F.
  { exists g. split; [reflexivity|]. split; auto. split; auto. split; auto. split; auto. intros; simpl; ring. }
  pose proof (G _ (or_introl eq_refl)) as (G1 & G2 & G3 & G4 & G5).
  inversion D as [|? ? ? ? ? D' Dn]; subst.
  change (flat ((t, f, c, c') :: ps)) with ((t, c) :: (f, c') :: flat ps).
  simpl build_net. rewrite !row_nth_error by lia. rewrite set_eq by lia.
  set (ra := row g f). set (rb := row g t).
  set (A := Arc t (length rb) c). set (B := Arc f (length ra) c').
  set (g1 := upd g f (ra ++ [A])).
  assert (L1 : length g1 = length g) by (unfold g1; apply upd_length).
  rewrite row_nth_error by lia.
  assert (R1 : row g1 t = rb).
  { unfold g1. rewrite row_upd by lia. destruct (Nat.eqb_spec f t); [contradiction|]. reflexivity. }
  rewrite R1. rewrite set_eq by lia.
  set (g2 := upd g1 t (rb ++ [B])).
  assert (L2 : length g2 = length g) by (unfold g2; rewrite upd_length; auto).
  assert (Ar : forall v i a, arc_at g2 v i = Some a <->
     arc_at g v i = Some a \/ (v = f /\ i = length ra /\ a = A) \/ (v = t /\ i = length rb /\ a = B)).
  { intros v i a. rewrite !arc_at_row. unfold g2. rewrite row_upd by lia.
    destruct (Nat.eqb_spec t v) as [<-|Nt].
    - rewrite nth_error_snoc. fold rb. split; [intros [?|[? ?]]; auto|].
      intros [?|[(? & _)|(_ & ? & ?)]]; auto. congruence.
    - unfold g1. rewrite row_upd by lia. destruct (Nat.eqb_spec f v) as [<-|Nf].
      + rewrite nth_error_snoc. fold ra. split; [intros [?|[? ?]]; auto|].
        intros [?|[(_ & ? & ?)|(? & _)]]; auto. congruence.
      + split; auto. intros [?|[(? & _)|(? & _)]]; auto; congruence. }
  assert (Old : forall v i a, arc_at g v i = Some a -> ~ (v = t /\ dist a = f) /\ ~ (v = f /\ dist a = t)).
  { intros v i a Ha. apply (F v i a Ha t f c c'). now left. }
  destruct (IH g2) as (g' & E & P1 & P2 & P3 & P4 & P5).
  - exact L2.
  - intros v i a Ha. rewrite L2. apply Ar in Ha. destruct Ha as [Ha|[(-> & -> & ->)|(-> & -> & ->)]].
    + destruct (W _ _ _ Ha) as (Q1 & Q2 & b & Hb & Q3 & Q4). split; auto. split; auto.
      exists b. split; auto. apply Ar. auto.
    + simpl. split; [lia|]. split; [congruence|]. exists B. split; [|auto]. apply Ar. auto.
    + simpl. split; [lia|]. split; [congruence|]. exists A. split; [|auto]. apply Ar. auto.
  - intros v i j a b Ha Hb Ed. apply Ar in Ha. apply Ar in Hb.
    destruct Ha as [Ha|[(-> & -> & ->)|(-> & -> & ->)]]; destruct Hb as [Hb|[(E1 & -> & ->)|(E1 & -> & ->)]]; auto; simpl in Ed.
    + eapply Inj; eauto.
    + subst v. exfalso. apply (proj2 (Old _ _ _ Ha)). auto.
    + subst v. exfalso. apply (proj1 (Old _ _ _ Ha)). auto.
    + exfalso. apply (proj2 (Old _ _ _ Hb)). auto.
    + congruence.
    + exfalso. apply (proj1 (Old _ _ _ Hb)). auto.
    + congruence.
  - intros v i a Ha. apply Ar in Ha. destruct Ha as [Ha|[(-> & -> & ->)|(-> & -> & ->)]]; simpl; eauto.
  - intros e He. apply G. now right.
  - exact D'.
  - intros v i a Ha t0 f0 c0 c0' Hin. apply Ar in Ha. destruct (Dn c0 c0') as [Dn1 Dn2].
    destruct Ha as [Ha|[(-> & -> & ->)|(-> & -> & ->)]]; simpl.
    + apply (F v i a Ha t0 f0 c0 c0'). now right.
    + split; intros [-> <-]; contradiction.
    + split; intros [-> <-]; contradiction.
  - exists g'. split; auto. split; auto. split; auto. split; auto. split; auto.
    intros h. rewrite P5. unfold g2, g1, wsum.
    rewrite (wsum_upd h _ 0 t rb) by (rewrite row_nth_error by (rewrite upd_length; lia); f_equal; exact R1).
    rewrite (wsum_upd h _ 0 f ra) by (rewrite row_nth_error by lia; reflexivity).
    rewrite !rsum_app. simpl. ring.
Qed.

Lemma MI_distinct n em : forall ps, MI n ps em -> distinct ps.
Proof.
  intros ps M. pose proof (mi_one _ _ _ M) as O. pose proof (mi_opp _ _ _ M) as P. clear M.
  induction ps as [|[[[t f] c] c'] ps IH]; [constructor|]. constructor.
  - apply IH.
    + intros k1 k2 t0 f0 c1 c1' c2 c2' H1 H2. specialize (O (S k1) (S k2) _ _ _ _ _ _ H1 H2). lia.
    + intros k1 k2 t0 f0 c1 c1' c2 c2' H1 H2. apply (P (S k1) (S k2) _ _ _ _ _ _ H1 H2).
  - intros c1 c1'. split; intros H; apply In_nth_error in H; destruct H as [k Hk].
    + specialize (O 0 (S k) _ _ _ _ _ _ eq_refl Hk). lia.
    + apply (P 0 (S k) _ _ _ _ _ _ eq_refl Hk).
Qed.

Lemma from_spec arcs n : 2 <= n -> (forall a, In a arcs -> good_arc n a) ->
  exists g0 s, from arcs n = Some s /\ ready g0 s /\ nn s = n /\ forall h, wsum h g0 = asum h arcs.
Proof.
  intros N G. unfold from.
  destruct (merge_arcs_spec n arcs [] (repeat [] n) G) as (ps & em & E & M & S).
  { constructor.
    - apply repeat_length.
    - intros e [].
    - intros f t id Hf. split.
      + assert (R : nth f (repeat (@nil (nat * nat)) n) [] = []).
        { clear. revert f. induction n; intros [|f]; simpl; auto. }
        rewrite R. discriminate.
      + intros (k & c & c' & H & _). destruct k; discriminate.
    - intros [|k1] k2 t f c1 c1' c2 c2' H1; discriminate.
    - intros [|k1] k2 t f c1 c1' c2 c2' H1; discriminate. }
  change (flat []) with (@nil (nat * Z)) in E. rewrite E.
  assert (Emp : forall v i, arc_at (repeat [] n) v i = None).
  { intros v i. rewrite arc_at_row. unfold row.
    assert (R : nth v (repeat (@nil arc) n) [] = []) by (clear; revert v; induction n; intros [|v]; simpl; auto).
    rewrite R. destruct i; reflexivity. }
  destruct (build_net_spec n ps (repeat [] n)) as (g & E2 & P1 & P2 & P3 & P4 & P5).
  - apply repeat_length.
  - intros v i a H. rewrite Emp in H. discriminate.
  - intros v i j a b H. rewrite Emp in H. discriminate.
  - intros v i a H. rewrite Emp in H. discriminate.
  - apply (mi_good _ _ _ M).
  - eapply MI_distinct; eauto.
  - intros v i a H. rewrite Emp in H. discriminate.
  - rewrite E2. destruct n as [|m]; [lia|].
    destruct (init_spec g (Datatypes.S m) P1 N P2 P4 (P3 0)) as (s & E3 & R & Ns).
    exists g, s. split; [exact E3|]. split; [auto|]. split; [auto|].
    intros h. rewrite P5, S. simpl psum.
    assert (Z0 : forall m k, wsum_from k h (repeat [] m) = 0%Z).
    { clear. induction m; simpl; intros; auto. }
    unfold wsum. rewrite Z0. lia.
Qed.
