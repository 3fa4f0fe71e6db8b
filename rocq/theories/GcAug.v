(** GraphCut: augmenting along the path through the two trees. *)
From Coq Require Import ZArith List Bool Arith Lia.
From Verif Require Import Lib GraphCut GcBase GcTree.
Import ListNotations.

(** * The bottleneck *)
Lemma bottleneck_ok : forall g r p side i l e, chain g p i l e -> p e = PTerm -> forall fuel b, length l <= fuel ->
  exists b', bottleneck fuel side g r p i b = Some (e, b') /\ (b' <= b)%Z /\
    (forall v a, In v l -> p v = PArc a -> (b' <= side_cap side g r a)%Z) /\
    ((0 < b)%Z -> (forall v a, In v l -> p v = PArc a -> (0 < side_cap side g r a)%Z) -> (0 < b')%Z).
Proof.
  intros g r p side i l e C. induction C; intros Pe fuel b Lf; simpl in Lf; destruct fuel as [|fuel]; try lia; cbn [bottleneck].
  - rewrite Pe. exists b. split; auto. split; [lia|]. split; [intros v' a [<-|[]] E; congruence|auto].
  - rewrite H. set (b1 := if Z.ltb (side_cap side g r a) b then side_cap side g r a else b).
    assert (B1 : (b1 <= b)%Z /\ (b1 <= side_cap side g r a)%Z).
    { unfold b1. destruct (Z.ltb_spec (side_cap side g r a) b); lia. }
    destruct (IHC Pe fuel b1 ltac:(lia)) as (b' & E & L1 & L2 & L3). exists b'. split; auto. split; [lia|]. split.
    + intros u a' [<-|I] E'; [|eauto]. replace a' with a by congruence. lia.
    + intros P0 P1. apply L3; [|intros u a' I E'; apply (P1 u); auto; right; auto].
      pose proof (P1 v a ltac:(left; auto) H). unfold b1. destruct (Z.ltb_spec (side_cap side g r a) b); lia.
Qed.

(** * Orphans in a stack *)
Definition ostack (p : nat -> par) (o : orphans) (n : nat) : Prop :=
  exists ls, links (next_orphan o) (ofirst o) ls /\ NoDup ls /\ forall v, In v ls <-> v < n /\ p v = POrphan.
Lemma orphan_front_ok : forall p o n i, ostack p o n -> i < n -> p i <> POrphan ->
  ostack (fst (set_orphan_front p o i)) (snd (set_orphan_front p o i)) n.
Proof.
  intros p o n i (ls & L & N & H) Hi NP. assert (NI : ~ In i ls) by (rewrite H; tauto).
  exists (i :: ls). simpl. split; [|split].
  - constructor. rewrite fupd_eq. apply links_upd; auto.
  - constructor; auto.
  - intros v. fcase v i; [tauto|]. rewrite <- H. intuition congruence.
Qed.

Definition up_arc (g : graph) (side : bool) (a : nat) : nat := if side then sister g a else a.
Definition down_arc (g : graph) (side : bool) (a : nat) : nat := if side then a else sister g a.
Lemma side_cap_down : forall g r side a, side_cap side g r a = r (down_arc g side a).
Proof. intros. unfold side_cap, down_arc. destruct side; auto. Qed.
Lemma down_inj : forall g side a b, gwf g -> a < n_arcs g -> b < n_arcs g -> down_arc g side a = down_arc g side b -> a = b.
Proof.
  intros g side a b W Ha Hb. unfold down_arc. destruct side; auto. intros E.
  destruct (gw_sis g W a Ha) as (_ & X & _). destruct (gw_sis g W b Hb) as (_ & Y & _). congruence.
Qed.
Lemma chain_ext : forall g p p' v l e, chain g p v l e -> (forall u, In u l -> p' u = p u) -> chain g p' v l e.
Proof.
  intros g p p' v l e C. induction C; intros H'.
  - constructor. rewrite H' by (left; auto). auto.
  - econstructor; [rewrite H' by (left; auto); eauto|]. apply IHC. intros; apply H'; right; auto.
Qed.

Lemma push_path_ok : forall g side b, gwf g -> (0 < b)%Z -> forall l i e p fuel r o,
  chain g p i l e -> p e = PTerm -> NoDup l -> length l <= fuel ->
  (forall v, In v l -> v < n_nodes g) ->
  (forall v a, In v l -> p v = PArc a -> a < n_arcs g /\ tail g a = v) ->
  (forall v a, In v l -> p v = PArc a -> (b <= side_cap side g r a)%Z) ->
  (forall a, (0 <= r a)%Z) -> ostack p o (n_nodes g) ->
  exists r' p' o', push_path fuel side g b r p o i = Some (r', p', o', e) /\
    (forall a, (0 <= r' a)%Z) /\
    (forall c x, rescap g r' c x = (rescap g r c x - (if side then b else - b) * (bz (x i) - bz (x e)))%Z) /\
    (forall v, (p' v = p v /\ forall a, In v l -> p v = PArc a -> (0 < side_cap side g r' a)%Z) \/
               (p' v = POrphan /\ In v l /\ exists a, p v = PArc a)) /\
    (forall a, r a = 0%Z -> r' a <> 0%Z -> exists v a0, In v l /\ p v = PArc a0 /\ a = up_arc g side a0) /\
    (forall a, (forall v a0, In v l -> p v = PArc a0 -> a <> down_arc g side a0) -> (r a <= r' a)%Z) /\
    ostack p' o' (n_nodes g) /\ olast o' = olast o.
Proof.
  intros g side b W Bp. induction l as [|v l IH]; intros i e p fuel r o C Pe ND Lf Bn Ba Bc R0 OS; [inversion C|].
  simpl in Lf; destruct fuel as [|fuel]; try lia; cbn [push_path]. inversion C; subst.
  - rewrite Pe. exists r, p, o. split; auto. split; auto. split; [intros c x; lia|].
    split; [intros u; left; split; auto; intros a [<-|[]]; congruence|]. split; [intros; congruence|].
    split; [intros; lia|]. auto.
  - match goal with X : p _ = PArc _, Y : chain _ _ (head _ _) l e |- _ => rename X into H; rename Y into C' end. rewrite H. fold (up_arc g side a). fold (down_arc g side a).
    destruct (Ba v a (or_introl eq_refl) H) as [Ha Ta]. pose proof (Bc v a (or_introl eq_refl) H) as Bv. rewrite side_cap_down in Bv.
    destruct (gw_sis g W a Ha) as (S1 & S2 & S3).
    assert (UD : up_arc g side a <> down_arc g side a) by (unfold up_arc, down_arc; destruct side; auto).
    apply NoDup_cons_iff in ND. destruct ND as [NI ND'].
    rewrite (fupd_neq r) by auto.
    set (r1 := fupd (fupd r (up_arc g side a) (r (up_arc g side a) + b)%Z) (down_arc g side a) (r (down_arc g side a) - b)%Z).
    assert (R1 : forall a', (0 <= r1 a')%Z).
    { intros a'. unfold r1. fcase a' (down_arc g side a); [lia|]. fcase a' (up_arc g side a); auto.
      pose proof (R0 (up_arc g side a)). lia. }
    assert (K1 : forall a', a' <> down_arc g side a -> (r a' <= r1 a')%Z).
    { intros a' N. unfold r1. rewrite fupd_neq by auto. fcase a' (up_arc g side a); lia. }
    assert (RC1 : forall c x, rescap g r1 c x = (rescap g r c x - (if side then b else - b) * (bz (x v) - bz (x (head g a))))%Z).
    { intros c x. unfold r1, up_arc, down_arc. rewrite <- Ta. destruct side.
      - apply rescap_push; auto.
      - rewrite rescap_push' by auto. lia. }
    assert (DV : forall u a', In u l -> p u = PArc a' -> down_arc g side a' <> down_arc g side a).
    { intros u a' Iu Eu E. destruct (Ba u a' (or_intror Iu) Eu) as [Ha' Ta'].
      apply (down_inj g side a' a W Ha' Ha) in E. subst a'. apply NI. rewrite <- Ta, Ta'. auto. }
    assert (ED : r1 (down_arc g side a) = (r (down_arc g side a) - b)%Z) by (unfold r1; rewrite fupd_eq; auto).
    assert (HP : exists p1 o1, (if Z.eqb (r1 (down_arc g side a)) 0 then set_orphan_front p o v else (p, o)) = (p1, o1) /\
       (forall u, u <> v -> p1 u = p u) /\ ((p1 v = p v /\ (0 < r1 (down_arc g side a))%Z) \/ p1 v = POrphan) /\ ostack p1 o1 (n_nodes g) /\ olast o1 = olast o).
    { destruct (Z.eqb_spec (r1 (down_arc g side a)) 0) as [Z0|NZ].
      - exists (fupd p v POrphan), (Orphans (fupd (next_orphan o) v (ofirst o)) (Some v) (olast o)).
        split; auto. split; [intros; apply fupd_neq; auto|]. split; [right; apply fupd_eq|]. split; auto.
        apply (orphan_front_ok p o (n_nodes g) v OS); [apply Bn; left; auto|congruence].
      - exists p, o. split; auto. split; auto. split; auto. left. split; auto. pose proof (R1 (down_arc g side a)). lia. }
    destruct HP as (p1 & o1 & E1 & P1 & P2 & OS1 & OL1). fold r1 in E1. rewrite E1.
    assert (EX : forall u, In u l -> p1 u = p u) by (intros u Iu; apply P1; intros ->; auto).
    assert (Pe1 : p1 e = PTerm) by (rewrite EX; auto; apply (chain_in _ _ _ _ _ C')).
    destruct (IH (head g a) e p1 fuel r1 o1) as (r' & p' & o' & E & Q1 & Q2 & Q3 & Q4 & Q5 & Q6 & Q7); auto.
    + apply chain_ext with (1 := C'); auto.
    + lia.
    + intros u Iu. apply Bn. right; auto.
    + intros u a' Iu Eu. rewrite EX in Eu by auto. apply Ba; auto. right; auto.
    + intros u a' Iu Eu. rewrite EX in Eu by auto. pose proof (Bc u a' (or_intror Iu) Eu) as X. rewrite side_cap_down in *.
      pose proof (K1 _ (DV u a' Iu Eu)). lia.
    + exists r', p', o'. split; [exact E|]. split; auto. split; [intros c x; rewrite Q2, RC1; lia|].
      assert (KV : (r1 (down_arc g side a) <= r' (down_arc g side a))%Z).
      { apply Q5. intros u a0 Iu Eu. rewrite EX in Eu by auto. apply not_eq_sym. eapply DV; eauto. }
      split.
      { intros u. destruct (Nat.eq_dec u v) as [->|N].
        - destruct (Q3 v) as [[X1 X2]|(X1 & X2 & X3)]; [|tauto]. rewrite X1. destruct P2 as [[Y1 Y2]|Y].
          + left. split; auto. intros a' _ Ea'. replace a' with a by congruence. rewrite side_cap_down. lia.
          + right. split; auto. split; [left; auto|eauto].
        - destruct (Q3 u) as [[X1 X2]|(X1 & X2 & X3)].
          + left. rewrite X1. split; auto. intros a' [Eu|Iu] Eu'; [congruence|]. apply X2; auto. rewrite P1; auto.
          + right. split; auto. split; [right; auto|]. rewrite P1 in X3; auto. }
      split.
      { intros a' Z0 NZ. destruct (Z.eq_dec (r1 a') 0) as [Z1|Z1].
        - destruct (Q4 a' Z1 NZ) as (u & a0 & Iu & Eu & ->). rewrite EX in Eu by auto. exists u, a0. split; [right; auto|auto].
        - exists v, a. split; [left; auto|]. split; auto. unfold r1 in Z1.
          destruct (Nat.eq_dec a' (down_arc g side a)) as [->|N1]; [lia|]. rewrite fupd_neq in Z1 by auto.
          destruct (Nat.eq_dec a' (up_arc g side a)) as [->|N2]; auto. rewrite fupd_neq in Z1 by auto. tauto. }
      split; [|split; auto; congruence].
      intros a' Ha'. assert (r a' <= r1 a')%Z by (apply K1; apply (Ha' v a); auto; left; auto).
      assert (r1 a' <= r' a')%Z; [|lia]. apply Q5. intros u a0 Iu Eu. rewrite EX in Eu by auto. apply (Ha' u a0); auto. right; auto.
Qed.

(** * The whole augmentation *)
Lemma arc_ends : forall g r c t v a, gwf g -> shape g r c t -> v < n_nodes g -> parent t v = PArc a ->
  forall z, z = a \/ z = sister g a -> inT t (is_sink t v) (tail g z) /\ inT t (is_sink t v) (head g z).
Proof.
  intros g r c t v a W S Hv E z Hz. destruct (sh_arc _ _ _ _ S v a Hv E) as (Ha & Ta & _ & Nh & Sh & _).
  destruct (gw_sis g W a Ha) as (_ & S2 & _).
  assert (X1 : inT t (is_sink t v) v) by (split; congruence). assert (X2 : inT t (is_sink t v) (head g a)) by (split; auto).
  destruct Hz as [->| ->]; rewrite ?S2, ?Ta; auto.
Qed.
Lemma inT_fun : forall t s s' v, inT t s v -> inT t s' v -> s = s'.
Proof. intros t s s' v [_ A] [_ B]. congruence. Qed.
Lemma up_or : forall g s a, up_arc g s a = a \/ up_arc g s a = sister g a.
Proof. intros g [] a; auto. Qed.
Lemma down_or : forall g s a, down_arc g s a = a \/ down_arc g s a = sister g a.
Proof. intros g [] a; auto. Qed.
Lemma down_same : forall g r c t v v0 a a0, gwf g -> shape g r c t -> v < n_nodes g -> v0 < n_nodes g ->
  parent t v = PArc a -> parent t v0 = PArc a0 ->
  down_arc g (is_sink t v) a = down_arc g (is_sink t v0) a0 -> v = v0.
Proof.
  intros g r c t v v0 a a0 W S Hv Hv0 E E0 D.
  destruct (arc_ends g r c t v a W S Hv E _ (down_or g (is_sink t v) a)) as [X _].
  destruct (arc_ends g r c t v0 a0 W S Hv0 E0 _ (down_or g (is_sink t v0) a0)) as [X0 _].
  rewrite D in X. pose proof (inT_fun _ _ _ _ X X0) as Q. rewrite Q in D.
  destruct (sh_arc _ _ _ _ S v a Hv E) as (Ha & Ta & _). destruct (sh_arc _ _ _ _ S v0 a0 Hv0 E0) as (Ha0 & Ta0 & _).
  apply (down_inj g _ a a0 W Ha Ha0) in D. congruence.
Qed.

Lemma augment_ok : forall s m now av, let g := gr s in let t := tr s in
  gwf g -> (forall a, (0 <= r_cap s a)%Z) -> order g t now -> shape g (r_cap s) (tr_cap s) t ->
  (forall v, v < n_nodes g -> parent t v <> POrphan) -> passive g (r_cap s) t av -> ofirst (orp s) = None ->
  m < n_arcs g -> r_cap s m <> 0%Z -> inT t false (tail g m) -> inT t true (head g m) ->
  exists s' b, augment s m = Some s' /\ gr s' = g /\ act s' = act s /\ time s' = time s /\ (0 < b)%Z /\ flow s' = (flow s + b)%Z /\
    (forall a, (0 <= r_cap s' a)%Z) /\ (forall x, rescap g (r_cap s') (tr_cap s') x = (rescap g (r_cap s) (tr_cap s) x - b)%Z) /\
    shape g (r_cap s') (tr_cap s') (tr s') /\ order g (tr s') now /\ passive g (r_cap s') (tr s') av /\
    ts (tr s') = ts t /\ ostack (parent (tr s')) (orp s') (n_nodes g).
Proof.
  intros s m now av g t W R0 O Sh NO P OF Hm Rm Tm Hm'. destruct (gw_sis g W m Hm) as (M1 & M2 & M3).
  assert (Ht : tail g m < n_nodes g) by (apply gw_head; auto). assert (Hh : head g m < n_nodes g) by (apply gw_head; auto).
  set (r := r_cap s) in *. set (c := tr_cap s) in *. set (p := parent t).
  destruct (chain_ex g r c t now W O Sh (tail g m) Ht (proj1 Tm)) as (l1 & e1 & C1 & B1 & _ & N1).
  destruct (chain_ex g r c t now W O Sh (head g m) Hh (proj1 Hm')) as (l2 & e2 & C2 & B2 & _ & N2).
  rewrite (proj2 Tm) in B1. rewrite (proj2 Hm') in B2. fold p in C1, C2.
  assert (PT : forall i l e, chain g p i l e -> (forall u, In u l -> u < n_nodes g) -> p e = PTerm /\ In e l).
  { intros i l e C B. destruct (chain_in _ _ _ _ _ C) as (_ & Ie & [X|X]); auto. destruct (NO e (B e Ie) X). }
  assert (B1n : forall u, In u l1 -> u < n_nodes g) by (intros; apply B1; auto).
  assert (B2n : forall u, In u l2 -> u < n_nodes g) by (intros; apply B2; auto).
  destruct (PT _ _ _ C1 B1n) as [PE1 I1]. destruct (PT _ _ _ C2 B2n) as [PE2 I2].
  assert (SK1 : forall u, In u l1 -> is_sink t u = false) by (intros u Hu; apply B1; auto).
  assert (SK2 : forall u, In u l2 -> is_sink t u = true) by (intros u Hu; apply B2; auto).
  assert (DJ : forall u, In u l1 -> In u l2 -> False) by (intros u X Y; apply SK1 in X; apply SK2 in Y; congruence).
  pose proof (sh_term _ _ _ _ Sh e1 (B1n _ I1) PE1) as CE1. rewrite SK1 in CE1 by auto.
  pose proof (sh_term _ _ _ _ Sh e2 (B2n _ I2) PE2) as CE2. rewrite SK2 in CE2 by auto.
  assert (L1 : length l1 <= S (n_nodes g)) by (pose proof (nodup_lt_length l1 _ N1 B1n); lia).
  assert (L2 : length l2 <= S (n_nodes g)) by (pose proof (nodup_lt_length l2 _ N2 B2n); lia).
  assert (Rm0 : (0 < r m)%Z) by (pose proof (R0 m); lia).
  unfold augment. fold g t r c p.
  destruct (bottleneck_ok g r p false (tail g m) l1 e1 C1 PE1 (S (n_nodes g)) (r m) L1) as (b1 & E1 & X1 & X2 & X3).
  rewrite E1. set (b2 := if Z.ltb (c e1) b1 then c e1 else b1).
  assert (Y2 : (b2 <= b1)%Z /\ (b2 <= c e1)%Z) by (unfold b2; destruct (Z.ltb_spec (c e1) b1); lia).
  destruct (bottleneck_ok g r p true (head g m) l2 e2 C2 PE2 (S (n_nodes g)) b2 L2) as (b3 & E2 & Y3 & Y4 & Y5).
  rewrite E2. set (b := if Z.ltb (- c e2) b3 then (- c e2)%Z else b3).
  assert (Y6 : (b <= b3)%Z /\ (b <= - c e2)%Z) by (unfold b; destruct (Z.ltb_spec (- c e2) b3); lia).
  assert (ARC : forall u a, u < n_nodes g -> p u = PArc a -> a < n_arcs g /\ tail g a = u).
  { intros u a Hu E. destruct (sh_arc _ _ _ _ Sh u a Hu E) as (? & ? & _); auto. }
  assert (POS : forall u a, u < n_nodes g -> p u = PArc a -> (0 < side_cap (is_sink t u) g r a)%Z).
  { intros u a Hu E. apply (sh_arc _ _ _ _ Sh u a Hu E). }
  assert (Bp : (0 < b)%Z).
  { assert (0 < b1)%Z. { apply X3; auto. intros u a Iu E. rewrite <- (SK1 u Iu). apply POS; auto. }
    assert (0 < b2)%Z by (unfold b2; destruct (Z.ltb_spec (c e1) b1); lia).
    assert (0 < b3)%Z. { apply Y5; auto. intros u a Iu E. rewrite <- (SK2 u Iu). apply POS; auto. }
    unfold b; destruct (Z.ltb_spec (- c e2) b3); lia. }
  (* the joining arc *)
  rewrite (fupd_neq r) by auto.
  set (r1 := fupd (fupd r (sister g m) (r (sister g m) + b)%Z) m (r m - b)%Z).
  assert (R1 : forall a, (0 <= r1 a)%Z).
  { intros a. unfold r1. fcase a m; [lia|]. fcase a (sister g m); auto. pose proof (R0 (sister g m)). lia. }
  assert (K1 : forall a, a <> m -> (r a <= r1 a)%Z).
  { intros a N. unfold r1. rewrite fupd_neq by auto. fcase a (sister g m); lia. }
  assert (RC1 : forall x, rescap g r1 c x = (rescap g r c x - b * (bz (x (tail g m)) - bz (x (head g m))))%Z) by (intros x; apply rescap_push; auto).
  assert (NM : forall u a z, u < n_nodes g -> p u = PArc a -> z = a \/ z = sister g a -> z <> m).
  { intros u a z Hu E Hz ->. destruct (arc_ends g r c t u a W Sh Hu E m Hz) as [Z1 Z2].
    pose proof (inT_fun _ _ _ _ Z1 Tm). pose proof (inT_fun _ _ _ _ Z2 Hm'). congruence. }
  assert (DN : forall u u0 a a0, u < n_nodes g -> u0 < n_nodes g -> p u = PArc a -> p u0 = PArc a0 -> u <> u0 ->
     down_arc g (is_sink t u) a <> down_arc g (is_sink t u0) a0).
  { intros u u0 a a0 Hu Hu0 E E0 N X. apply N. eapply down_same; eauto. }
  (* the path in the source tree *)
  destruct (push_path_ok g false b W Bp l1 (tail g m) e1 p (S (n_nodes g)) r1 (orp s) C1 PE1 N1 L1 B1n)
    as (r2 & p2 & o2 & F1 & R2 & RC2 & PP2 & NR2 & K2 & OS2 & OL2); auto.
  { intros u a Iu E. rewrite side_cap_down. pose proof (X2 u a Iu E) as X. rewrite side_cap_down in X.
    pose proof (K1 _ (NM u a _ (B1n u Iu) E (down_or g false a))). lia. }
  { exists []. rewrite OF. split; [constructor|]. split; [constructor|]. intros v; split; [intros []|]. intros [Hv E]. destruct (NO v Hv E). }
  rewrite F1.
  assert (P2E1 : p2 e1 = PTerm). { destruct (PP2 e1) as [[Z1 _]|(_ & _ & a & Z1)]; congruence. }
  rewrite fupd_eq.
  set (c1 := fupd c e1 (c e1 - b)%Z).
  assert (HP3 : exists p3 o3, (if Z.eqb (c e1 - b) 0 then set_orphan_front p2 o2 e1 else (p2, o2)) = (p3, o3) /\
     (forall u, u <> e1 -> p3 u = p2 u) /\ ((p3 e1 = PTerm /\ (0 < c e1 - b)%Z) \/ (p3 e1 = POrphan /\ (c e1 - b)%Z = 0%Z)) /\ ostack p3 o3 (n_nodes g)).
  { destruct (Z.eqb_spec (c e1 - b) 0) as [Z0|NZ].
    - exists (fupd p2 e1 POrphan), (Orphans (fupd (next_orphan o2) e1 (ofirst o2)) (Some e1) (olast o2)).
      split; auto. split; [intros; apply fupd_neq; auto|]. split; [right; split; auto; apply fupd_eq|].
      apply (orphan_front_ok p2 o2 (n_nodes g) e1 OS2); [apply B1n; auto|congruence].
    - exists p2, o2. split; auto. split; auto. split; auto. left. split; auto. lia. }
  destruct HP3 as (p3 & o3 & E3 & P3 & P3e & OS3). rewrite E3.
  assert (P3L : forall u, In u l2 -> p3 u = p u).
  { intros u Iu. rewrite P3 by (intros ->; eapply DJ; eauto). destruct (PP2 u) as [[Z1 _]|(_ & Z1 & _)]; auto. exfalso; eapply DJ; eauto. }
  (* the path in the sink tree *)
  destruct (push_path_ok g true b W Bp l2 (head g m) e2 p3 (S (n_nodes g)) r2 o3)
    as (r3 & p4 & o4 & F2 & R3 & RC3 & PP3 & NR3 & K3 & OS4 & OL4); auto.
  { apply chain_ext with (1 := C2). auto. }
  { rewrite P3L; auto. }
  { intros u a Iu E. rewrite P3L in E by auto. apply ARC; auto. }
  { intros u a Iu E. rewrite P3L in E by auto. rewrite side_cap_down. pose proof (Y4 u a Iu E) as X. rewrite side_cap_down in X.
    pose proof (K1 _ (NM u a _ (B2n u Iu) E (down_or g true a))).
    assert (r1 (down_arc g true a) <= r2 (down_arc g true a))%Z; [|lia].
    apply K2. intros v a0 Iv Ev. rewrite <- (SK1 v Iv), <- (SK2 u Iu). apply DN; auto. intros ->. eapply DJ; eauto. }
  rewrite F2.
  assert (E12 : e2 <> e1) by (intros E; rewrite E in I2; eapply DJ; eauto).
  assert (C1E : c1 e2 = c e2) by (apply fupd_neq; auto).
  assert (P4E2 : p4 e2 = PTerm). { destruct (PP3 e2) as [[Z1 _]|(_ & _ & a & Z1)]; rewrite P3L in Z1 by auto; congruence. }
  rewrite fupd_eq. fold c1. set (c2 := fupd c1 e2 (c1 e2 + b)%Z).
  assert (HP5 : exists p5 o5, (if Z.eqb (c1 e2 + b) 0 then set_orphan_front p4 o4 e2 else (p4, o4)) = (p5, o5) /\
     (forall u, u <> e2 -> p5 u = p4 u) /\ ((p5 e2 = PTerm /\ (c e2 + b < 0)%Z) \/ (p5 e2 = POrphan /\ (c e2 + b)%Z = 0%Z)) /\ ostack p5 o5 (n_nodes g)).
  { rewrite C1E. destruct (Z.eqb_spec (c e2 + b) 0) as [Z0|NZ].
    - exists (fupd p4 e2 POrphan), (Orphans (fupd (next_orphan o4) e2 (ofirst o4)) (Some e2) (olast o4)).
      split; auto. split; [intros; apply fupd_neq; auto|]. split; [right; split; auto; apply fupd_eq|].
      apply (orphan_front_ok p4 o4 (n_nodes g) e2 OS4); [apply B2n; auto|congruence].
    - exists p4, o4. split; auto. split; auto. split; auto. left. split; auto. lia. }
  destruct HP5 as (p5 & o5 & E5 & P5 & P5e & OS5). rewrite E5.
  assert (C2V : forall v, v <> e1 -> v <> e2 -> c2 v = c v) by (intros; unfold c2, c1; rewrite !fupd_neq; auto).
  assert (C2E1 : c2 e1 = (c e1 - b)%Z) by (unfold c2; rewrite fupd_neq by auto; unfold c1; apply fupd_eq).
  assert (C2E2 : c2 e2 = (c e2 + b)%Z) by (unfold c2; rewrite fupd_eq; lia).
  (* the parents afterwards *)
  assert (FIN : forall v, v < n_nodes g ->
     (p5 v = p v /\ (p v = PTerm -> if is_sink t v then (c2 v < 0)%Z else (0 < c2 v)%Z) /\
        (forall a, p v = PArc a -> (0 < side_cap (is_sink t v) g r3 a)%Z)) \/
     (p5 v = POrphan /\ p v <> PNone /\ c2 v = 0%Z)).
  { intros v Hv. destruct (Nat.eq_dec v e1) as [->|N1'].
    { rewrite P5 by auto. destruct (PP3 e1) as [[Z1 _]|(_ & Z1 & _)]; [rewrite Z1|exfalso; eapply DJ; eauto].
      destruct P3e as [[Z2 Z3]|[Z2 Z3]].
      - left. rewrite Z2. split; [congruence|]. split; [rewrite SK1 by auto; lia|]. intros a E. congruence.
      - right. split; auto. split; congruence. }
    destruct (Nat.eq_dec v e2) as [->|N2'].
    { destruct P5e as [[Z2 Z3]|[Z2 Z3]].
      - left. rewrite Z2. split; [congruence|]. split; [rewrite SK2 by auto; lia|]. intros a E. congruence.
      - right. split; auto. split; congruence. }
    rewrite P5 by auto. rewrite C2V by auto.
    assert (ONW : forall a, p v = PArc a -> ~ In v l2 -> (r2 (down_arc g (is_sink t v) a) <= r3 (down_arc g (is_sink t v) a))%Z).
    { intros a E NI. apply K3. intros u a0 Iu Eu. rewrite P3L in Eu by auto. rewrite <- (SK2 u Iu). apply DN; auto. intros ->; auto. }
    destruct (PP3 v) as [[Z1 Z1']|(Z1 & Z2 & a & Z3)].
    - rewrite Z1, P3 by auto. destruct (PP2 v) as [[Z2 Z2']|(Z2 & Z3 & a & Z4)].
      + left. rewrite Z2. split; auto. split; [intros E; apply (sh_term _ _ _ _ Sh v Hv E)|].
        intros a E. destruct (in_dec Nat.eq_dec v l2) as [I|NI].
        { rewrite (SK2 v I). apply Z1'; auto. rewrite P3L; auto. }
        rewrite side_cap_down. specialize (ONW a E NI).
        destruct (in_dec Nat.eq_dec v l1) as [I|NI1].
        { specialize (Z2' a I E). rewrite (SK1 v I) in *. rewrite side_cap_down in Z2'. lia. }
        pose proof (POS v a Hv E) as X. rewrite side_cap_down in X.
        pose proof (K1 _ (NM v a _ Hv E (down_or g (is_sink t v) a))).
        assert (r1 (down_arc g (is_sink t v) a) <= r2 (down_arc g (is_sink t v) a))%Z; [|lia].
        apply K2. intros u a0 Iu Eu. rewrite <- (SK1 u Iu). apply DN; auto. intros ->; auto.
      + right. split; auto. split; [congruence|]. apply (sh_arc _ _ _ _ Sh v a Hv Z4).
    - right. rewrite P3L in Z3 by auto. split; auto. split; [congruence|]. apply (sh_arc _ _ _ _ Sh v a Hv Z3). }
  assert (NN : forall v, v < n_nodes g -> (p5 v = PNone <-> p v = PNone)).
  { intros v Hv. destruct (FIN v Hv) as [(Z1 & _)|(Z1 & Z2 & _)]; [rewrite Z1; tauto|]. rewrite Z1. split; [discriminate|tauto]. }
  set (t' := Tree (is_sink t) p5 (ts t) (dist t)).
  assert (TT : forall sd v, v < n_nodes g -> (inT t' sd v <-> inT t sd v)).
  { intros sd v Hv. unfold inT, t'. simpl. rewrite NN by auto. tauto. }
  exists (GC g r3 c2 (flow s + b)%Z t' (act s) o5 (time s)), b. cbn [gr act time flow r_cap tr_cap tr orp].
  do 6 (split; auto). split; auto. split.
  { intros x. unfold c2. rewrite rescap_term by auto. unfold c1 at 1. rewrite rescap_term by auto. rewrite C1E.
    rewrite RC3, RC2, RC1. unfold term_cap. destruct (x e1), (x e2), (x (tail g m)), (x (head g m)); cbn [bz]; lia. }
  split.
  { constructor; unfold t'; cbn [parent is_sink].
    - intros v Hv E. apply NN in E; auto. rewrite C2V; [apply (sh_none _ _ _ _ Sh); auto| |]; intros ->; congruence.
    - intros v Hv E. destruct (FIN v Hv) as [(Z1 & _)|(Z1 & Z2 & Z3)]; auto. rewrite E in Z1. symmetry in Z1. destruct (NO v Hv Z1).
    - intros v Hv E. destruct (FIN v Hv) as [(Z1 & Z2 & _)|(Z1 & Z2 & Z3)]; [|congruence]. apply Z2. congruence.
    - intros v a Hv E. destruct (FIN v Hv) as [(Z1 & _ & Z2)|(Z1 & Z2 & Z3)]; [|congruence]. rewrite E in Z1. symmetry in Z1.
      destruct (sh_arc _ _ _ _ Sh v a Hv Z1) as (A1 & A2 & A3 & A4 & A5 & A6).
      do 2 (split; auto). split; [rewrite C2V; auto; intros ->; congruence|].
      split; [rewrite NN by (apply gw_head; auto); auto|]. split; auto. }
  split.
  { constructor; unfold t'; cbn [parent is_sink ts dist]; try apply O.
    - intros v Hv E. destruct (FIN v Hv) as [(Z1 & _)|(Z1 & _)]; [|congruence]. apply (od_term _ _ _ O v Hv). fold p. rewrite <- Z1. exact E.
    - intros v a Hv E. destruct (FIN v Hv) as [(Z1 & _)|(Z1 & _)]; [|congruence]. apply (od_arc _ _ _ O v a Hv). fold p. rewrite <- Z1. exact E. }
  split; [|auto].
  intros sd a Ha NZ In1 Ac. assert (Hta : tail g a < n_nodes g) by (apply gw_head; auto; apply gw_sis; auto).
  assert (Hha : head g a < n_nodes g) by (apply gw_head; auto). destruct (gw_sis g W a Ha) as (_ & Sa2 & _).
  apply TT in In1; auto. apply TT; auto. rewrite side_cap_down in NZ. set (z := down_arc g (negb sd) a) in *.
  destruct (Z.eq_dec (r z) 0) as [Z0|Z0]; [|apply (P sd a); auto; rewrite side_cap_down; auto].
  assert (ENDS : forall u a0 z', u < n_nodes g -> p u = PArc a0 -> z' = a0 \/ z' = sister g a0 -> z = z' -> inT t sd (head g a)).
  { intros u a0 z' Hu Eu Hz' Ez.
    assert (Za : a = a0 \/ a = sister g a0).
    { destruct (ARC u a0 Hu Eu) as [Ha0 _]. destruct (gw_sis g W a0 Ha0) as (_ & S2' & _). unfold z, down_arc in Ez.
      destruct sd; simpl in Ez; destruct Hz' as [->| ->]; auto; try (right; congruence); left; congruence. }
    destruct (arc_ends g r c t u a0 W Sh Hu Eu a Za) as [Q1 Q2]. pose proof (inT_fun _ _ _ _ In1 Q1). congruence. }
  destruct (Z.eq_dec (r2 z) 0) as [Z2|Z2].
  { destruct (NR3 z Z2 NZ) as (u & a0 & Iu & Eu & Ez). rewrite P3L in Eu by auto. apply (ENDS u a0 _ (B2n u Iu) Eu (up_or g true a0) Ez). }
  destruct (Z.eq_dec (r1 z) 0) as [Z1|Z1].
  { destruct (NR2 z Z1 Z2) as (u & a0 & Iu & Eu & Ez). apply (ENDS u a0 _ (B1n u Iu) Eu (up_or g false a0) Ez). }
  assert (Zm : z = sister g m).
  { unfold r1 in Z1. destruct (Nat.eq_dec z m) as [E|E]; [rewrite E in Z0; lia|]. rewrite fupd_neq in Z1 by auto.
    destruct (Nat.eq_dec z (sister g m)); auto. rewrite fupd_neq in Z1 by auto. tauto. }
  exfalso. unfold z, down_arc in Zm. destruct sd; simpl in Zm.
  - assert (a = m) by congruence. subst a. pose proof (inT_fun _ _ _ _ In1 Tm). discriminate.
  - subst a. rewrite M2 in In1. pose proof (inT_fun _ _ _ _ In1 Hm'). discriminate.
Qed.
