(** GraphCut: the adoption of orphans. *)
From Coq Require Import ZArith List Bool Arith Lia.
From Verif Require Import Lib GraphCut GcBase GcTree GcAug.
Import ListNotations.

Lemma shape_ext : forall g r c t t', is_sink t' = is_sink t -> parent t' = parent t -> shape g r c t -> shape g r c t'.
Proof. intros g r c t t' E1 E2 S. constructor; rewrite ?E1, ?E2; apply S. Qed.
Lemma inT_ext : forall t t' sd v, is_sink t' = is_sink t -> parent t' = parent t -> (inT t' sd v <-> inT t sd v).
Proof. intros t t' sd v E1 E2. unfold inT. rewrite E1, E2. tauto. Qed.

(** * Walking to a marked node *)
Inductive reach (g : graph) (t : tree) (now : nat) : nat -> list nat -> nat -> Prop :=
| rc_here : forall v, ts t v = now -> reach g t now v [] v
| rc_step : forall v a l m, ts t v <> now -> parent t v = PArc a -> reach g t now (head g a) l m -> reach g t now v (v :: l) m.
Lemma reach_end : forall g t now v l m, reach g t now v l m -> ts t m = now.
Proof. intros g t now v l m R. induction R; auto. Qed.
Lemma reach_chain : forall g t now v l m, reach g t now v l m -> forall lc e, chain g (parent t) v lc e -> exists rest, lc = l ++ m :: rest.
Proof.
  intros g t now v l m R. induction R; intros lc e C.
  - inversion C; subst; [exists []|eexists]; reflexivity.
  - inversion C as [|? a0 l0 ? Ea0 C0]; subst; [intuition congruence|]. assert (a0 = a) by congruence. subst a0.
    destruct (IHR _ _ C0) as [rest ->]. exists rest. auto.
Qed.

Definition set_node (t : tree) (j now d : nat) : tree := Tree (is_sink t) (parent t) (fupd (ts t) j now) (fupd (dist t) j d).
Lemma set_term_order : forall g t now e, gwf g -> order g t now -> e < n_nodes g -> parent t e = PTerm -> ts t e <> now -> order g (set_node t e now 1) now.
Proof.
  intros g t now e W O He Pe Te. constructor; unfold set_node; cbn [dist ts parent is_sink].
  - intros v Hv. fcase v e; [lia|apply (od_dist _ _ _ O); auto].
  - intros v Hv. fcase v e; [lia|apply (od_ts _ _ _ O); auto].
  - intros v Hv. fcase v e; auto. apply (od_term _ _ _ O); auto.
  - intros v a Hv E. pose proof (od_arc _ _ _ O v a Hv E) as A. pose proof (od_ts _ _ _ O e He). unfold above in *. cbn [dist ts].
    destruct (Nat.eq_dec v e) as [->|N]; [congruence|]. rewrite !(fupd_neq _ e _ v) by auto.
    destruct (Nat.eq_dec (head g a) e) as [E'|N']; [rewrite E' in *; rewrite !fupd_eq; lia|rewrite !fupd_neq by auto; auto].
Qed.

Lemma origin_ok : forall g t now j l e, chain g (parent t) j l e -> forall fuel d, length l <= fuel ->
  origin fuel g t now j d = Some (t, None) \/
  exists t' k m, origin fuel g t now j d = Some (t', Some (d + length k + dist t' m)) /\ reach g t' now j k m /\
    (t' = t \/ (In e l /\ parent t e = PTerm /\ ts t e <> now /\ t' = set_node t e now 1)).
Proof.
  intros g t now j l e C. induction C; intros fuel d Lf; simpl in Lf; destruct fuel as [|fuel]; try lia; cbn [origin].
  - destruct (Nat.eqb_spec (ts t v) now) as [E|N].
    + right. exists t, [], v. split; [simpl; rewrite Nat.add_0_r; auto|]. split; auto. constructor; auto.
    + destruct H as [H|H]; rewrite H; auto. right. exists (set_node t v now 1), [], v.
      split; [unfold set_node; simpl; rewrite fupd_eq; do 3 f_equal; lia|]. split; [constructor; simpl; apply fupd_eq|].
      right. split; [left; auto|auto].
  - destruct (Nat.eqb_spec (ts t v) now) as [E|N].
    + right. exists t, [], v. split; [simpl; rewrite Nat.add_0_r; auto|]. split; auto. constructor; auto.
    + rewrite H. destruct (IHC fuel (S d) ltac:(lia)) as [E|(t' & k & m & E & R & D)]; auto.
      right. exists t', (v :: k), m. split; [rewrite E; simpl; do 3 f_equal; lia|]. split.
      * econstructor; eauto.
        -- destruct D as [->|(_ & De & _ & ->)]; auto. simpl. rewrite fupd_neq by congruence. auto.
        -- destruct D as [->|(_ & De & _ & ->)]; auto.
      * destruct D as [->|(De0 & De & Dn & ->)]; auto. right. split; [right; auto|auto].
Qed.

(** Nodes get the time only with a marked parent one step nearer. *)
Definition marked (g : graph) (now : nat) (t t' : tree) : Prop :=
  is_sink t' = is_sink t /\ parent t' = parent t /\
  forall v, (ts t' v = ts t v /\ dist t' v = dist t v) \/
    (ts t v <> now /\ ts t' v = now /\ exists a, parent t v = PArc a /\ ts t' (head g a) = now /\ S (dist t' (head g a)) = dist t' v).
Lemma reach_upd : forall g t now v l m j d, reach g t now v l m -> ~ In j l -> j <> m -> reach g (set_node t j now d) now v l m.
Proof.
  intros g t now v l m j d R. induction R; intros NI NJ.
  - constructor. simpl. rewrite fupd_neq by auto. auto.
  - econstructor; eauto.
    + simpl. rewrite fupd_neq by (intros ->; apply NI; left; auto). auto.
    + apply IHR; auto. intros I. apply NI. right; auto.
Qed.
Lemma mark_ok : forall g now l t j m fuel, reach g t now j l m -> NoDup l -> length l < fuel ->
  exists t', mark fuel g t now j (length l + dist t m) = Some t' /\ marked g now t t' /\ ts t' j = now /\ dist t' j = length l + dist t m.
Proof.
  intros g now. induction l as [|v l IH]; intros t j m fuel R ND Lf; destruct fuel as [|fuel]; try (simpl in Lf; lia); cbn [mark].
  - inversion R; subst. rewrite Nat.eqb_refl. exists t. split; auto. split; [|auto]. split; auto.
  - inversion R as [|? a ? ? Hn Hp R']; subst. rewrite (proj2 (Nat.eqb_neq _ _) Hn). rewrite Hp. apply NoDup_cons_iff in ND. destruct ND as [NI ND].
    simpl in Lf. assert (Jm : v <> m) by (intros ->; apply reach_end in R; auto).
    fold (set_node t v now (length (v :: l) + dist t m)). set (t1 := set_node t v now (length (v :: l) + dist t m)).
    destruct (IH t1 (head g a) m fuel) as (t' & E & (M1 & M2 & M3) & T1 & D1); auto.
    + apply reach_upd; auto.
    + lia.
    + assert (Dm : dist t1 m = dist t m) by (unfold t1; simpl; apply fupd_neq; auto). rewrite Dm in E, D1.
      replace (length (v :: l) + dist t m - 1) with (length l + dist t m) by (simpl; lia).
      exists t'. split; auto.
      assert (Tv : ts t1 v = now) by (unfold t1; simpl; apply fupd_eq).
      assert (Dv : dist t1 v = length (v :: l) + dist t m) by (unfold t1; simpl; apply fupd_eq).
      assert (V : ts t' v = now /\ dist t' v = length (v :: l) + dist t m).
      { destruct (M3 v) as [[X1 X2]|(X1 & _)]; [split; congruence|tauto]. }
      split; [|tauto]. split; [rewrite M1; auto|]. split; [rewrite M2; auto|].
      intros u. destruct (Nat.eq_dec u v) as [->|N].
      * right. split; auto. split; [tauto|]. exists a. split; auto. split; auto. rewrite D1. destruct V as [_ V]. rewrite V. auto.
      * assert (Eu : ts t1 u = ts t u /\ dist t1 u = dist t u) by (unfold t1; simpl; rewrite !fupd_neq by auto; auto). destruct Eu as [Eu1 Eu2].
        destruct (M3 u) as [[X1 X2]|(X1 & X2 & a' & X3 & X4 & X5)].
        -- left. split; congruence.
        -- right. split; [congruence|]. split; auto. exists a'. auto.
Qed.
Lemma marked_order : forall g r c now t t', gwf g -> shape g r c t -> order g t now -> marked g now t t' -> order g t' now.
Proof.
  intros g r c now t t' W Sh O (M1 & M2 & M3). constructor.
  - intros v Hv. destruct (M3 v) as [[_ ->]|(_ & _ & a & _ & _ & <-)]; [apply (od_dist _ _ _ O); auto|lia].
  - intros v Hv. destruct (M3 v) as [[-> _]|(_ & -> & _)]; [apply (od_ts _ _ _ O); auto|lia].
  - intros v Hv. rewrite M2. intros E. destruct (M3 v) as [[_ ->]|(_ & _ & a & X & _)]; [apply (od_term _ _ _ O); auto|congruence].
  - intros v a Hv. rewrite M2. intros E. pose proof (od_arc _ _ _ O v a Hv E) as A.
    assert (Hh : head g a < n_nodes g) by (apply gw_head; auto; apply (sh_arc _ _ _ _ Sh v a Hv E)).
    pose proof (od_ts _ _ _ O v Hv). pose proof (od_ts _ _ _ O _ Hh). unfold above in *.
    destruct (M3 v) as [[X1 X2]|(X1 & X2 & a' & X3 & X4 & X5)].
    + destruct (M3 (head g a)) as [[Y1 Y2]|(Y1 & Y2 & _)]; [rewrite X1, X2, Y1, Y2; auto|]. rewrite X1, X2, Y2. lia.
    + assert (a' = a) by congruence. subst a'. rewrite X2, X4. right. lia.
Qed.

(** What the search of a parent may change. *)
Definition refreshed (now : nat) (t t' : tree) : Prop :=
  is_sink t' = is_sink t /\ parent t' = parent t /\
  forall v, (ts t' v = ts t v /\ dist t' v = dist t v) \/ (ts t v <> now /\ ts t' v = now /\ parent t v <> POrphan).
Lemma refreshed_trans : forall now a b c, refreshed now a b -> refreshed now b c -> refreshed now a c.
Proof.
  intros now a b c (A1 & A2 & A3) (B1 & B2 & B3). split; [congruence|]. split; [congruence|].
  intros v. destruct (A3 v) as [[X1 X2]|(X1 & X2 & X3)]; destruct (B3 v) as [[Y1 Y2]|(Y1 & Y2 & Y3)].
  - left. split; congruence.
  - right. split; [congruence|]. split; auto. congruence.
  - right. split; auto. split; [congruence|auto].
  - tauto.
Qed.
Lemma refreshed_refl : forall now a, refreshed now a a.
Proof. intros. split; auto. Qed.

Definition best_ok (g : graph) (r : nat -> Z) (t : tree) (now i : nat) (side : bool) (best : option (nat * nat)) : Prop :=
  match best with
  | None => True
  | Some (a, d) => a < n_arcs g /\ tail g a = i /\ side_cap side g r a <> 0%Z /\ inT t side (head g a) /\ ts t (head g a) = now /\ dist t (head g a) = d
  end.
Lemma best_ok_refreshed : forall g r t t' now i side best, refreshed now t t' -> best_ok g r t now i side best -> best_ok g r t' now i side best.
Proof.
  intros g r t t' now i side [[a d]|] (A & B & C); auto. intros (X1 & X2 & X3 & X4 & X5 & X6).
  do 3 (split; auto). split; [apply (inT_ext t t'); auto|]. destruct (C (head g a)) as [[Y1 Y2]|(Y1 & _)]; [|tauto]. split; congruence.
Qed.

Lemma find_parent_ok : forall g r c now i side, gwf g -> i < n_nodes g ->
  forall as_ t best, order g t now -> shape g r c t -> (forall a, In a as_ -> a < n_arcs g /\ tail g a = i) ->
  best_ok g r t now i side best ->
  exists t' best', find_parent side g r now as_ t best = Some (t', best') /\ refreshed now t t' /\ order g t' now /\ best_ok g r t' now i side best'.
Proof.
  intros g r c now i side W Hi. induction as_ as [|a as_ IH]; intros t best O Sh LA BO; cbn [find_parent].
  - exists t, best. split; auto. split; [apply refreshed_refl|auto].
  - destruct (LA a (or_introl eq_refl)) as [Ha Ta].
    assert (LA' : forall a, In a as_ -> a < n_arcs g /\ tail g a = i) by (intros; apply LA; right; auto).
    destruct (Z.eqb_spec (side_cap side g r a) 0) as [Z0|NZ]; [apply IH; auto|].
    destruct (negb (Bool.eqb (is_sink t (head g a)) side) || is_none (parent t (head g a))) eqn:SK; [apply IH; auto|].
    apply orb_false_iff in SK. destruct SK as [SK1 SK2]. apply negb_false_iff, eqb_prop in SK1. apply is_none_not in SK2.
    assert (Hj : head g a < n_nodes g) by (apply gw_head; auto). set (j := head g a) in *.
    destruct (chain_ex g r c t now W O Sh j Hj SK2) as (l & e & C & B & _ & ND).
    assert (Bn : forall u, In u l -> u < n_nodes g) by (intros; apply B; auto).
    pose proof (nodup_lt_length l _ ND Bn) as LL.
    destruct (origin_ok g t now j l e C (S (n_nodes g)) 0 ltac:(lia)) as [E|(t1 & k & m & E & R & D)]; rewrite E.
    + apply IH; auto.
    + assert (RF1 : refreshed now t t1 /\ order g t1 now /\ parent t1 = parent t /\ is_sink t1 = is_sink t).
      { destruct D as [->|(De0 & De1 & De2 & ->)].
        - split; [apply refreshed_refl|auto].
        - split; [|split; [apply set_term_order; auto|auto]]. split; auto. split; auto. intros v. simpl. fcase v e; auto.
          right. split; auto. split; auto. congruence. }
      destruct RF1 as (RF1 & O1 & EP & ES).
      assert (C1 : chain g (parent t1) j l e) by (rewrite EP; auto).
      destruct (reach_chain _ _ _ _ _ _ R _ _ C1) as [rest El].
      assert (NDk : NoDup k) by (rewrite El in ND; apply NoDup_app_l in ND; auto).
      assert (Lk : length k < S (n_nodes g)) by (rewrite El in LL; rewrite app_length in LL; simpl in LL; lia).
      destruct (mark_ok g now k t1 j m (S (n_nodes g)) R NDk Lk) as (t2 & E2 & M & T2 & D2).
      simpl "+" at 1. rewrite E2.
      assert (Sh1 : shape g r c t1) by (apply (shape_ext g r c t); auto).
      assert (O2 : order g t2 now) by (apply (marked_order g r c now t1); auto).
      assert (RF2 : refreshed now t1 t2).
      { destruct M as (M1 & M2 & M3). split; auto. split; auto. intros v. destruct (M3 v) as [X|(X1 & X2 & a' & X3 & _)]; auto.
        right. split; auto. split; auto. congruence. }
      pose proof (refreshed_trans _ _ _ _ RF1 RF2) as RF.
      assert (Sh2 : shape g r c t2) by (apply (shape_ext g r c t); auto; apply RF).
      destruct (IH t2 (match best with Some (_, d_min) => if Nat.ltb (0 + length k + dist t1 m) d_min then Some (a, 0 + length k + dist t1 m) else best | None => Some (a, 0 + length k + dist t1 m) end))
        as (t' & best' & E' & RF' & O' & B'); auto.
      * assert (NEW : best_ok g r t2 now i side (Some (a, 0 + length k + dist t1 m))).
        { do 3 (split; auto). split; [apply (inT_ext t t2); try apply RF; split; auto|]. split; auto. }
        destruct best as [[a1 d1]|]; auto. destruct (Nat.ltb (0 + length k + dist t1 m) d1); auto.
        apply (best_ok_refreshed g r t t2); auto.
      * exists t', best'. split; auto. split; auto. eapply refreshed_trans; eauto.
Qed.

(** * The lists of orphans during adoption *)
(** [lq] is the queue being worked on, [ls] the rest of the stack left by augment. *)
Definition olists (o : orphans) (nn : option nat) (p : nat -> par) (n : nat) (lq ls : list nat) : Prop :=
  links (next_orphan o) (ofirst o) lq /\ olast o = last_opt lq /\ links (next_orphan o) nn ls /\
  NoDup (lq ++ ls) /\ forall v, In v (lq ++ ls) <-> v < n /\ p v = POrphan.
Lemma orphan_rear_ok : forall o nn p n lq ls j, olists o nn p n lq ls -> j < n -> p j <> POrphan ->
  olists (snd (set_orphan_rear p o j)) nn (fst (set_orphan_rear p o j)) n (lq ++ [j]) ls.
Proof.
  intros o nn p n lq ls j (L1 & L2 & L3 & ND & H) Hj NP.
  assert (NI : ~ In j (lq ++ ls)) by (rewrite H; tauto). rewrite in_app_iff in NI.
  assert (C : NoDup ((lq ++ [j]) ++ ls) /\ forall v, In v ((lq ++ [j]) ++ ls) <-> v < n /\ fupd p j POrphan v = POrphan).
  { split.
    - rewrite <- app_assoc. apply NoDup_Add with (a := j) (l := lq ++ ls); [simpl; apply Add_app|split; auto]. rewrite in_app_iff. auto.
    - intros v. rewrite !in_app_iff. specialize (H v). rewrite in_app_iff in H. fcase v j; [simpl; tauto|]. simpl. intuition congruence. }
  destruct C as [C1 C2]. unfold set_orphan_rear. rewrite L2. unfold last_opt. destruct lq as [|b lq].
  - simpl. split; [|split; [auto|split; [|split]]]; simpl; auto.
    + constructor. rewrite fupd_eq. constructor.
    + apply links_upd; [tauto|auto].
  - remember (b :: lq) as l eqn:El. assert (Nl : l <> []) by (subst; discriminate).
    cbn [fst snd]. split; [|split; [|split; [|split]]]; cbn [next_orphan ofirst olast]; auto.
    + apply links_snoc; auto. apply NoDup_app_l in ND. auto.
    + rewrite last_opt_snoc. auto.
    + apply links_upd; [tauto|]. apply links_upd; auto. apply (NoDup_app_x _ _ _ ND). apply last_in. auto.
Qed.

(** * Freeing an orphan *)
Lemma release_ok : forall g r i side cur nn ls, gwf g -> i < n_nodes g ->
  forall as_ t q o lq, (forall a, In a as_ -> a < n_arcs g /\ tail g a = i) -> parent t i = PNone ->
  qok q cur (n_nodes g) -> olists o nn (parent t) (n_nodes g) lq ls ->
  exists t' q' o' lq', release side g r i as_ t q o = (t', q', o') /\
    is_sink t' = is_sink t /\ ts t' = ts t /\ dist t' = dist t /\
    (forall v, parent t' v = parent t v \/ (parent t' v = POrphan /\ exists a, parent t v = PArc a /\ head g a = i)) /\
    qok q' cur (n_nodes g) /\ (forall v, active q v = true -> active q' v = true) /\
    olists o' nn (parent t') (n_nodes g) lq' ls /\
    (forall a0, In a0 as_ -> inT t side (head g a0) ->
       (forall a, parent t' (head g a0) = PArc a -> head g a <> i) /\ (side_cap side g r a0 <> 0%Z -> active q' (head g a0) = true)).
Proof.
  intros g r i side cur nn ls W Hi. induction as_ as [|a0 as_ IH]; intros t q o lq LA Pi Q OL; cbn [release].
  - exists t, q, o, lq. do 8 (split; [solve [auto]|]). intros a0 [].
  - destruct (LA a0 (or_introl eq_refl)) as [Ha Ta].
    assert (LA' : forall a, In a as_ -> a < n_arcs g /\ tail g a = i) by (intros; apply LA; right; auto).
    assert (Hj : head g a0 < n_nodes g) by (apply gw_head; auto). set (j := head g a0) in *.
    destruct (Bool.eqb (is_sink t j) side && negb (is_none (parent t j))) eqn:CT.
    + apply andb_prop in CT. destruct CT as [CT1 CT2]. apply eqb_prop in CT1. apply negb_true_iff, is_none_not in CT2.
      set (q1 := if Z.eqb (side_cap side g r a0) 0 then q else set_active q j).
      assert (HQ : qok q1 cur (n_nodes g) /\ (forall v, active q v = true -> active q1 v = true) /\ (side_cap side g r a0 <> 0%Z -> active q1 j = true)).
      { unfold q1. destruct (Z.eqb_spec (side_cap side g r a0) 0); [split; auto; split; auto; tauto|].
        destruct (set_active_ok q cur (n_nodes g) j Q Hj) as [X Y]. split; auto. split; intros; rewrite Y.
        - rewrite H. auto.
        - rewrite Nat.eqb_refl. apply orb_true_r. }
      destruct HQ as (Q1 & M1 & A1).
      assert (GO : forall t1 o1 lq1, is_sink t1 = is_sink t -> ts t1 = ts t -> dist t1 = dist t ->
         (forall v, parent t1 v = parent t v \/ (parent t1 v = POrphan /\ exists a, parent t v = PArc a /\ head g a = i)) ->
         (forall a, parent t1 j = PArc a -> head g a <> i) -> olists o1 nn (parent t1) (n_nodes g) lq1 ls ->
         exists t' q' o' lq', release side g r i as_ t1 q1 o1 = (t', q', o') /\
            is_sink t' = is_sink t /\ ts t' = ts t /\ dist t' = dist t /\
            (forall v, parent t' v = parent t v \/ (parent t' v = POrphan /\ exists a, parent t v = PArc a /\ head g a = i)) /\
            qok q' cur (n_nodes g) /\ (forall v, active q v = true -> active q' v = true) /\
            olists o' nn (parent t') (n_nodes g) lq' ls /\
            (forall a0', In a0' (a0 :: as_) -> inT t side (head g a0') ->
               (forall a, parent t' (head g a0') = PArc a -> head g a <> i) /\ (side_cap side g r a0' <> 0%Z -> active q' (head g a0') = true))).
      { intros t1 o1 lq1 E1 E2 E3 PP NJ OL1.
        destruct (IH t1 q1 o1 lq1) as (t' & q' & o' & lq' & E & F1 & F2 & F3 & F4 & F5 & F6 & F7 & F8); auto.
        { destruct (PP i) as [X|(_ & a & X & _)]; congruence. }
        exists t', q', o', lq'. split; auto. do 3 (split; [congruence|]). split.
        { intros v. destruct (F4 v) as [X|(X & a & Y & Z)]; [rewrite X; auto|].
          destruct (PP v) as [X'|(X' & a' & Y' & Z')]; [|congruence]. right. split; auto. exists a. split; congruence. }
        do 3 (split; auto). intros a' [<-|I] T.
        - fold j. split; [|auto]. intros a Ea. destruct (F4 j) as [X|(X & _)]; [|congruence]. apply NJ. congruence.
        - apply F8; auto. destruct T as [T1 T2]. split; [|congruence]. destruct (PP (head g a')) as [X|(X & _)]; congruence. }
      assert (OLt : forall j', {| is_sink := is_sink t; parent := j'; ts := ts t; dist := dist t |} = Tree (is_sink t) j' (ts t) (dist t)) by auto.
      destruct (parent t j) as [| | |a] eqn:Ej; [tauto| | |].
      * apply (GO t o lq); auto. intros a Ea. congruence.
      * apply (GO t o lq); auto. intros a Ea. congruence.
      * destruct (Nat.eqb_spec (head g a) i) as [Eh|Nh].
        -- pose proof (orphan_rear_ok o nn (parent t) (n_nodes g) lq ls j OL Hj ltac:(congruence)) as OR.
           assert (FS : fst (set_orphan_rear (parent t) o j) = fupd (parent t) j POrphan) by (unfold set_orphan_rear; destruct (olast o); auto).
           destruct (set_orphan_rear (parent t) o j) as [p1 o1]. simpl in OR, FS. subst p1.
           apply (GO (Tree (is_sink t) (fupd (parent t) j POrphan) (ts t) (dist t)) o1 (lq ++ [j])); auto; cbn [parent].
           ++ intros v. fcase v j; auto. right. split; auto. exists a. auto.
           ++ rewrite fupd_eq. discriminate.
        -- apply (GO t o lq); auto. intros a' Ea'. congruence.
    + destruct (IH t q o lq LA' Pi Q OL) as (t' & q' & o' & lq' & E & F1 & F2 & F3 & F4 & F5 & F6 & F7 & F8).
      exists t', q', o', lq'. split; auto. do 7 (split; auto). intros a' [<-|I] T; auto.
      exfalso. destruct T as [T1 T2]. fold j in T1, T2. rewrite T2 in CT. apply is_none_not in T1. rewrite T1 in CT. destruct side; discriminate.
Qed.

(** * One orphan *)
Record ainv (s : gc) (cur : option nat) : Prop := {
  ai_w : gwf (gr s);
  ai_r : forall a, (0 <= r_cap s a)%Z;
  ai_o : order (gr s) (tr s) (time s);
  ai_s : shape (gr s) (r_cap s) (tr_cap s) (tr s);
  ai_u : forall v, v < n_nodes (gr s) -> parent (tr s) v = POrphan -> ts (tr s) v <> time s;
  ai_p : passive (gr s) (r_cap s) (tr s) (active (act s));
  ai_q : qok (act s) cur (n_nodes (gr s)) }.
Definition pending (s : gc) : nat -> bool := fun v => negb (is_none (parent (tr s) v)) && negb (Nat.eqb (ts (tr s) v) (time s)).
(** Adoption leaves the capacities and the flow alone. *)
Definition same_flow (s s' : gc) : Prop :=
  gr s' = gr s /\ r_cap s' = r_cap s /\ tr_cap s' = tr_cap s /\ flow s' = flow s /\ time s' = time s.

Lemma process_orphan_ok : forall s cur i nn lq ls, ainv s cur -> i < n_nodes (gr s) -> parent (tr s) i = POrphan ->
  links (next_orphan (orp s)) (ofirst (orp s)) lq -> olast (orp s) = last_opt lq -> links (next_orphan (orp s)) nn ls ->
  NoDup (i :: lq ++ ls) -> (forall v, In v (i :: lq ++ ls) <-> v < n_nodes (gr s) /\ parent (tr s) v = POrphan) ->
  exists s' lq', process_orphan (is_sink (tr s) i) s i = Some s' /\ ainv s' cur /\ same_flow s s' /\
    olists (orp s') nn (parent (tr s')) (n_nodes (gr s)) lq' ls /\
    cnt (pending s') (n_nodes (gr s)) < cnt (pending s) (n_nodes (gr s)).
Proof.
  intros s cur i nn lq ls [W R0 O Sh U P Q] Hi Pi L1 L2 L3 ND H.
  apply NoDup_cons_iff in ND. destruct ND as [NI ND].
  unfold process_orphan. set (g := gr s) in *. set (side := is_sink (tr s) i).
  assert (OUT : forall a, In a (out_arcs g i) -> a < n_arcs g /\ tail g a = i) by (intros a; apply gw_out; auto).
  destruct (find_parent_ok g (r_cap s) (tr_cap s) (time s) i side W Hi (out_arcs g i) (tr s) None O Sh OUT I) as (t & best & E & RF & O1 & B).
  rewrite E. destruct RF as (RF1 & RF2 & RF3).
  assert (Sh1 : shape g (r_cap s) (tr_cap s) t) by (apply (shape_ext g _ _ (tr s)); auto).
  assert (Ti : ts t i <> time s).
  { destruct (RF3 i) as [[-> _]|(_ & _ & X)]; [apply U; auto|congruence]. }
  assert (Ci : tr_cap s i = 0%Z) by (apply (sh_orph _ _ _ _ Sh i); auto).
  assert (PEN : forall v, negb (is_none (parent t v)) && negb (Nat.eqb (ts t v) (time s)) = true -> pending s v = true).
  { intros v. unfold pending. rewrite RF2. destruct (RF3 v) as [[-> _]|(_ & -> & _)]; auto. rewrite Nat.eqb_refl, andb_false_r. discriminate. }
  assert (PENi : pending s i = true).
  { unfold pending. rewrite Pi. simpl. apply negb_true_iff, Nat.eqb_neq. apply U; auto. }
  destruct best as [[a d]|].
  - destruct B as (B1 & B2 & B3 & B4 & B5 & B6).
    assert (Nhi : head g a <> i) by (intros X; rewrite X in B5; auto).
    set (t' := Tree (is_sink t) (fupd (parent t) i (PArc a)) (fupd (ts t) i (time s)) (fupd (dist t) i (S d))).
    exists (GC g (r_cap s) (tr_cap s) (flow s) t' (act s) (orp s) (time s)), lq.
    split; auto. split; [constructor; cbn [gr r_cap tr_cap tr time act]; auto|].
    + constructor; unfold t'; cbn [dist ts parent is_sink].
      * intros v Hv. fcase v i; [lia|apply (od_dist _ _ _ O1); auto].
      * intros v Hv. fcase v i; [lia|apply (od_ts _ _ _ O1); auto].
      * intros v Hv. fcase v i; [discriminate|]. apply (od_term _ _ _ O1); auto.
      * intros v b Hv. unfold above. cbn [dist ts]. fcase v i.
        -- intros X. injection X as <-. rewrite !fupd_neq by auto. right. lia.
        -- intros X. pose proof (od_arc _ _ _ O1 v b Hv X) as A. unfold above in A. pose proof (od_ts _ _ _ O1 i Hi).
           destruct (Nat.eq_dec (head g b) i) as [Eb|Eb]; [rewrite Eb in *; rewrite !fupd_eq; lia|rewrite !fupd_neq by auto; auto].
    + constructor; unfold t'; cbn [dist ts parent is_sink].
      * intros v Hv. fcase v i; [discriminate|]. apply (sh_none _ _ _ _ Sh1); auto.
      * intros v Hv. fcase v i; [discriminate|]. apply (sh_orph _ _ _ _ Sh1); auto.
      * intros v Hv. fcase v i; [discriminate|]. apply (sh_term _ _ _ _ Sh1); auto.
      * intros v b Hv. fcase v i.
        -- intros X. injection X as <-. rewrite !fupd_neq by auto. do 3 (split; auto). split; [apply B4|].
           assert (Es : is_sink t i = side) by (rewrite RF1; auto). rewrite Es. split; [apply B4|].
           pose proof (side_cap_pos g (r_cap s) side a R0). lia.
        -- intros X. destruct (sh_arc _ _ _ _ Sh1 v b Hv X) as (X1 & X2 & X3 & X4 & X5 & X6).
           do 3 (split; auto). split; auto. fcase (head g b) i; [discriminate|auto].
    + intros v Hv. unfold t'. cbn [parent ts]. fcase v i; [discriminate|]. rewrite RF2. intros X.
      destruct (RF3 v) as [[-> _]|(_ & _ & Y)]; [apply U; auto|congruence].
    + assert (EQT : forall sd u, inT t' sd u <-> inT (tr s) sd u).
      { intros sd u. unfold inT, t'. cbn [parent is_sink]. rewrite RF1, RF2. fcase u i; [|tauto]. rewrite Pi. split; intros [_ X]; split; auto; discriminate. }
      intros sd b Hb NZ In1 Ac. apply EQT. apply EQT in In1. apply (P sd b); auto.
    + split; [repeat split; auto|]. split.
      * split; auto. split; auto. split; auto. split; auto. intros v. unfold t'. cbn [tr parent]. specialize (H v).
        fcase v i; [split; [tauto|intros [_ X]; discriminate]|]. rewrite RF2. rewrite <- H. simpl. intuition congruence.
      * apply cnt_lt with (u := i); auto.
        -- intros v Hv. unfold pending at 1, t'. cbn [tr parent ts time]. fcase v i; [rewrite Nat.eqb_refl, andb_false_r; discriminate|]. apply PEN.
        -- unfold pending, t'. cbn [tr parent ts time]. rewrite !fupd_eq, Nat.eqb_refl, andb_false_r. auto.
  - set (t1 := Tree (is_sink t) (fupd (parent t) i PNone) (ts t) (dist t)).
    destruct (release_ok g (r_cap s) i side cur nn ls W Hi (out_arcs g i) t1 (act s) (orp s) lq OUT) as
      (t' & q' & o' & lq' & E' & F1 & F2 & F3 & F4 & F5 & F6 & F7 & F8); auto.
    { unfold t1. simpl. apply fupd_eq. }
    { split; auto. split; auto. split; auto. split; auto. intros v. unfold t1. cbn [parent]. specialize (H v).
      fcase v i; [split; [tauto|intros [_ X]; discriminate]|]. rewrite RF2. rewrite <- H. simpl. intuition congruence. }
    rewrite E'. exists (GC g (r_cap s) (tr_cap s) (flow s) t' q' o' (time s)), lq'. split; auto.
    assert (P1 : forall v, v <> i -> parent t1 v = parent (tr s) v) by (intros v N; unfold t1; simpl; rewrite fupd_neq by auto; rewrite RF2; auto).
    assert (P1i : parent t' i = PNone).
    { destruct (F4 i) as [X|(_ & a & X & _)]; unfold t1 in X; simpl in X; rewrite fupd_eq in X; [auto|discriminate]. }
    assert (SI : is_sink t' = is_sink (tr s)) by (rewrite F1; unfold t1; simpl; auto).
    assert (T1N : forall v, parent t' v = PNone <-> v = i \/ parent (tr s) v = PNone).
    { intros v. destruct (Nat.eq_dec v i) as [->|N]; [tauto|]. rewrite <- P1 by auto.
      destruct (F4 v) as [X|(X & a & X' & _)]; [rewrite X; tauto|]. rewrite X, X'. intuition discriminate. }
    assert (TT : forall sd v, inT t' sd v <-> v <> i /\ inT (tr s) sd v).
    { intros sd v. unfold inT. rewrite T1N, SI. tauto. }
    (* nobody hangs on i any more *)
    assert (NC : forall v a, v < n_nodes g -> parent t' v = PArc a -> head g a <> i /\ parent (tr s) v = PArc a).
    { intros v a Hv Ea. assert (Nv : v <> i) by (intros ->; congruence).
      assert (E0 : parent (tr s) v = PArc a). { rewrite <- P1 by auto. destruct (F4 v) as [X|(X & _)]; congruence. }
      split; auto. intros Eh. destruct (sh_arc _ _ _ _ Sh v a Hv E0) as (A1 & A2 & _ & A4 & A5 & _).
      destruct (gw_sis g W a A1) as (S1 & S2 & _).
      assert (IO : In (sister g a) (out_arcs g i)) by (apply gw_out; auto; rewrite S2; auto).
      destruct (F8 (sister g a) IO) as [X _].
      - rewrite A2. unfold inT, t1. simpl. rewrite fupd_neq by auto. rewrite RF2, RF1, E0. split; [discriminate|]. rewrite <- A5, Eh. auto.
      - apply (X a); auto. rewrite A2. auto. }
    assert (CH : forall v, v < n_nodes g -> parent t' v = POrphan -> tr_cap s v = 0%Z /\ ts t v <> time s).
    { intros v Hv Ev. assert (Nv : v <> i) by (intros ->; congruence).
      destruct (F4 v) as [X|(X & a & X1 & X2)].
      - rewrite P1 in X by auto. rewrite Ev in X. symmetry in X. split; [apply (sh_orph _ _ _ _ Sh v); auto|].
        destruct (RF3 v) as [[-> _]|(_ & _ & Y)]; [apply U; auto|congruence].
      - rewrite P1 in X1 by auto. split; [apply (sh_arc _ _ _ _ Sh v a Hv X1)|].
        rewrite <- RF2 in X1. pose proof (od_arc _ _ _ O1 v a Hv X1) as A. pose proof (od_ts _ _ _ O1 i Hi). unfold above in A. rewrite X2 in A. lia. }
    split; [constructor; cbn [gr r_cap tr_cap tr time act]; auto|].
    + constructor; rewrite ?F2, ?F3; unfold t1; cbn [ts dist]; try apply O1.
      * intros v Hv Ev. assert (Nv : v <> i) by (intros ->; congruence). apply (od_term _ _ _ O1 v Hv).
        destruct (F4 v) as [X|(X & _)]; [|congruence]. rewrite P1 in X by auto. rewrite RF2. congruence.
      * intros v a Hv Ev. unfold above. rewrite F2, F3. unfold t1. cbn [ts dist]. apply (od_arc _ _ _ O1 v a Hv). rewrite RF2. apply NC; auto.
    + constructor.
      * intros v Hv Ev. apply T1N in Ev. destruct Ev as [->|Ev]; auto. apply (sh_none _ _ _ _ Sh); auto.
      * intros v Hv Ev. apply CH; auto.
      * intros v Hv Ev. rewrite SI. assert (Nv : v <> i) by (intros ->; congruence).
        destruct (F4 v) as [X|(X & _)]; [|congruence]. rewrite P1 in X by auto. apply (sh_term _ _ _ _ Sh v Hv). congruence.
      * intros v a Hv Ev. destruct (NC v a Hv Ev) as [Nh E0]. rewrite SI.
        destruct (sh_arc _ _ _ _ Sh v a Hv E0) as (A1 & A2 & A3 & A4 & A5 & A6). do 3 (split; auto). split; auto.
        rewrite T1N. tauto.
    + intros v Hv Ev. rewrite F2. unfold t1. cbn [ts]. apply CH; auto.
    + intros sd b Hb NZ In1 Ac. apply TT in In1. destruct In1 as [Nt In1].
      assert (Ac0 : active (act s) (tail g b) = false).
      { destruct (active (act s) (tail g b)) eqn:X; auto. apply F6 in X. congruence. }
      pose proof (P sd b Hb NZ In1 Ac0) as In2. apply TT. split; auto. intros Eh.
      destruct (gw_sis g W b Hb) as (S1 & S2 & _).
      assert (sd = side) as -> by (destruct In2 as [_ X]; fold g in X; rewrite Eh in X; auto).
      assert (IO : In (sister g b) (out_arcs g i)) by (apply gw_out; auto; rewrite S2; auto).
      destruct (F8 (sister g b) IO) as [_ X].
      * unfold inT, t1. simpl. rewrite fupd_neq by auto. rewrite RF2, RF1. apply In1.
      * rewrite X in Ac; [discriminate|]. rewrite side_cap_sister by auto. auto.
    + split; [repeat split; auto|]. split; auto.
      apply cnt_lt with (u := i); auto.
      * intros v Hv. unfold pending at 1. cbn [tr time]. intros X. apply PEN. rewrite F2 in X. unfold t1 in X. cbn [ts] in X.
        apply andb_prop in X. destruct X as [X1 X2]. rewrite X2, andb_true_r. apply negb_true_iff. apply negb_true_iff in X1.
        apply is_none_not. apply is_none_not in X1. rewrite RF2. rewrite T1N in X1. tauto.
      * unfold pending. cbn [tr]. rewrite P1i. auto.
Qed.

(** * All orphans *)
Lemma same_flow_trans : forall a b c, same_flow a b -> same_flow b c -> same_flow a c.
Proof. intros a b c (A1 & A2 & A3 & A4 & A5) (B1 & B2 & B3 & B4 & B5). repeat split; congruence. Qed.
Definition with_orp (s : gc) (o : orphans) : gc := GC (gr s) (r_cap s) (tr_cap s) (flow s) (tr s) (act s) o (time s).
Lemma ainv_orp : forall s cur o, ainv s cur -> ainv (with_orp s o) cur.
Proof. intros s cur o [A B C D E F G]. constructor; auto. Qed.
Lemma last_opt_tl : forall a l, l <> [] -> last_opt (a :: l) = last_opt l.
Proof. intros a [|b l] N; [tauto|]. reflexivity. Qed.

Lemma adopt_inner_ok : forall fuel s cur nn lq ls, ainv s cur ->
  links (next_orphan (orp s)) (ofirst (orp s)) lq -> (tl lq <> [] -> olast (orp s) = last_opt lq) -> links (next_orphan (orp s)) nn ls ->
  NoDup (lq ++ ls) -> (forall v, In v (lq ++ ls) <-> v < n_nodes (gr s) /\ parent (tr s) v = POrphan) ->
  cnt (pending s) (n_nodes (gr s)) < fuel ->
  exists s', adopt_inner fuel s = Some s' /\ ainv s' cur /\ same_flow s s' /\ links (next_orphan (orp s')) nn ls /\ NoDup ls /\
    (forall v, In v ls <-> v < n_nodes (gr s) /\ parent (tr s') v = POrphan) /\ ofirst (orp s') = None /\
    cnt (pending s') (n_nodes (gr s)) <= cnt (pending s) (n_nodes (gr s)) /\
    (lq <> [] -> cnt (pending s') (n_nodes (gr s)) < cnt (pending s) (n_nodes (gr s))).
Proof.
  induction fuel; intros s cur nn lq ls A L1 L2 L3 ND H Lf; [lia|]. cbn [adopt_inner].
  apply links_inv in L1. destruct lq as [|i lq].
  - rewrite L1. exists s. split; auto. split; auto. split; [repeat split; auto|]. split; auto. simpl in ND, H. do 4 (split; auto). tauto.
  - destruct L1 as [OF L1]. rewrite OF. simpl in L2.
    set (o1 := Orphans (next_orphan (orp s)) (next_orphan (orp s) i) (match next_orphan (orp s) i with None => None | Some _ => olast (orp s) end)).
    fold (with_orp s o1). cbn [tr].
    assert (Hi : i < n_nodes (gr s) /\ parent (tr s) i = POrphan) by (apply H; left; auto). destruct Hi as [Hi Pi].
    assert (OL : olast o1 = last_opt lq).
    { unfold o1. simpl. apply links_inv in L1. destruct lq as [|b lq]; [rewrite L1; auto|]. destruct L1 as [-> _]. apply L2. discriminate. }
    destruct (process_orphan_ok (with_orp s o1) cur i nn lq ls) as (s1 & lq1 & E & A1 & F1 & (OL1 & OL2 & OL3 & OL4 & OL5) & C1); auto.
    { apply ainv_orp; auto. }
    simpl in C1, OL5. unfold process_sink_orphan, process_source_orphan.
    assert (E' : (if is_sink (tr s) i then process_orphan true (with_orp s o1) i else process_orphan false (with_orp s o1) i) = Some s1).
    { rewrite <- E. simpl. destruct (is_sink (tr s) i); auto. }
    cbn [with_orp tr]. fold (with_orp s o1). rewrite E'.
    assert (G1 : gr s1 = gr s) by apply F1.
    assert (C1' : cnt (pending s1) (n_nodes (gr s)) < cnt (pending s) (n_nodes (gr s))) by exact C1.
    destruct (IHfuel s1 cur nn lq1 ls) as (s' & K1 & K2 & K3 & K4 & K5 & K6 & K7 & K8 & _); auto.
    + rewrite G1. auto.
    + rewrite G1. lia.
    + rewrite G1 in *. exists s'. split; auto. split; auto. split; [apply same_flow_trans with (2 := K3); exact F1|]. do 4 (split; auto). split; lia.
Qed.

Lemma adopt_ok : forall fuel s cur, ainv s cur -> ostack (parent (tr s)) (orp s) (n_nodes (gr s)) ->
  cnt (pending s) (n_nodes (gr s)) < fuel ->
  exists s', adopt fuel s = Some s' /\ ainv s' cur /\ same_flow s s' /\ ofirst (orp s') = None /\
    (forall v, v < n_nodes (gr s) -> parent (tr s') v <> POrphan).
Proof.
  induction fuel; intros s cur A (ls & L & ND & H) Lf; [lia|]. cbn [adopt].
  apply links_inv in L. destruct ls as [|i ls].
  - rewrite L. exists s. split; auto. split; auto. split; [repeat split; auto|]. split; auto. intros v Hv X. apply (proj2 (H v)); auto.
  - destruct L as [OF L]. rewrite OF. apply NoDup_cons_iff in ND as ND'. destruct ND' as [NI ND'].
    set (o1 := Orphans (fupd (next_orphan (orp s)) i None) (Some i) (olast (orp s))). fold (with_orp s o1).
    assert (Hc : cnt (pending s) (n_nodes (gr s)) <= n_nodes (gr s)) by apply cnt_max.
    destruct (adopt_inner_ok (S (S (n_nodes (gr s)))) (with_orp s o1) cur (next_orphan (orp s) i) [i] ls) as (s1 & K1 & K2 & K3 & K4 & K5 & K6 & K7 & K8 & K9).
    + apply ainv_orp; auto.
    + simpl. constructor. rewrite fupd_eq. constructor.
    + simpl. tauto.
    + simpl. apply links_upd; auto.
    + exact ND.
    + exact H.
    + change (cnt (pending s) (n_nodes (gr s)) < S (S (n_nodes (gr s)))). lia.
    + cbn [gr with_orp] in *. fold (with_orp s o1) in *. rewrite K1.
      assert (G1 : gr s1 = gr s) by apply K3.
      assert (C9 : cnt (pending s1) (n_nodes (gr s)) < cnt (pending s) (n_nodes (gr s))) by (apply K9; discriminate).
      set (o2 := Orphans (next_orphan (orp s1)) (next_orphan (orp s) i) (olast (orp s1))). fold (with_orp s1 o2).
      destruct (IHfuel (with_orp s1 o2) cur) as (s' & M1 & M2 & M3 & M4 & M5).
      * apply ainv_orp; auto.
      * exists ls. simpl. rewrite G1. auto.
      * simpl. rewrite G1. change (pending (with_orp s1 o2)) with (pending s1). lia.
      * exists s'. split; auto. split; auto. split; [apply same_flow_trans with (2 := M3); exact K3|]. split; auto.
        simpl in M5. rewrite G1 in M5. auto.
Qed.
