(** Insertion of a point: the mesh after the insertion is right again. *)
From Coq Require Import List Arith Bool NArith ZArith Lia.
From Verif Require Import Lib Tet TetSpec TetProofs BwSpec BwBase BwGrow BwFill BwConnect.
Import ListNotations.

(** * Locating keeps to live tetrahedra *)
Section Locate.
  Variables (o3 : sign3) (m : tetmesh) (pid : nat).
  Hypothesis G : good m.
  Lemma by_table_lv tbl f g : Forall (fun x => x < 12) tbl -> lv m f -> by_table tbl f = Some g -> lv m g.
  Proof.
    intros T (t & E & Lt & V) H. unfold by_table in H. destruct (look tbl (ver f)) as [w|] eqn:Ew; [|discriminate]. inversion H; subst.
    exists t. cbn. split; auto. split; auto. rewrite Forall_forall in T. eapply T, nth_error_In, Ew.
  Qed.
  Ltac tbl := match goal with H : ?f ?x = Some ?y, Hx : lv m ?x |- lv m ?y =>
    eapply (by_table_lv _ x y); [|exact Hx|exact H]; vm_compute; repeat constructor end.
  Lemma moves_lv f g : lv m f -> (esym f = Some g \/ enext f = Some g \/ eprev f = Some g \/ enext_esym f = Some g \/ eprev_esym f = Some g) -> lv m g.
  Proof. intros Lf [H|[H|[H|[H|H]]]]; tbl. Qed.
  Lemma loop_lv fuel : forall s loc s', lv m s -> locate_loop o3 m pid s fuel = Some (loc, s') -> lv m s'.
  Proof.
    induction fuel as [|fuel IH]; intros s loc s' Ls H; [discriminate|]. cbn [locate_loop] in H.
    destruct (oppo m s) as [d|]; [|discriminate]. destruct (d =? pid).
    { destruct (esym s) as [s1|] eqn:E1; [|discriminate]. destruct (eprev s1) as [s2|] eqn:E2; [|discriminate]. inversion H; subst.
      eapply (moves_lv s1); [eapply (moves_lv s); eauto|auto]. }
    destruct (org m s) as [a|]; [|discriminate]. destruct (dest m s) as [b|]; [|discriminate]. destruct (apex m s) as [c|]; [|discriminate].
    cbv zeta in H.
    assert (Cross : forall s1, lv m s1 ->
      match nei_at m (tet s1) (Nat.land (ver s1) 3) with
      | Some nf => match is_hull_tet m (tet nf) with Some h => if h then Some (OUTSIDE, nf) else locate_loop o3 m pid nf fuel | None => None end
      | None => None end = Some (loc, s') -> lv m s').
    { clear H. intros s1 (t & E & Lt & V) H. rewrite E in H. destruct (nei_at m (Some t) _) as [nf|] eqn:En; [|discriminate].
      destruct (nei_ver_lt m G t _ nf Lt En) as (_ & Vn & u & Eu & Lu).
      assert (Ln : lv m nf) by (exists u; auto). destruct (is_hull_tet m (tet nf)) as [[|]|]; [|eauto|discriminate]. inversion H; subst. exact Ln. }
    repeat match type of H with
    | context [if (?x <? 0)%Z then _ else _] => destruct (x <? 0)%Z
    | context [if (?x =? 0)%Z then _ else _] => destruct (x =? 0)%Z
    end;
    repeat match type of H with
    | match ?f ?x with _ => _ end = _ => let E := fresh "E" in destruct (f x) eqn:E; [|discriminate H];
        match type of E with ?g ?y = Some ?z => assert (lv m z) by (apply (moves_lv y); auto) end
    end; try (eapply Cross; eauto; fail); try (inversion H; subst; auto; fail).
  Qed.
  Lemma first_negative_le t fuel : forall v w, first_negative o3 m t pid v fuel = Some w -> w <= v + fuel.
  Proof.
    induction fuel as [|fuel IH]; intros v w H; cbn [first_negative] in H; [inversion H; lia|].
    destruct (org _ _); [|discriminate]. destruct (dest _ _); [|discriminate]. destruct (apex _ _); [|discriminate].
    destruct (_ <? 0)%Z; [inversion H; lia|]. apply IH in H. lia.
  Qed.
  Lemma locate_lv t v fuel loc s : live m t -> locate_dt o3 m pid (TF (Some t) v) fuel = Some (loc, s) -> lv m s.
  Proof.
    intros Lt H. unfold locate_dt in H. cbn [tet] in H. destruct (is_hull_tet m (Some t)) as [h|]; [|discriminate].
    assert (Q : exists u, (if h then match nei_at m (Some t) 3 with Some nf => Some (tet nf) | None => None end else Some (Some t)) = Some (Some u) /\ live m u).
    { destruct h; [|eauto]. destruct (nei_ex m G t 3 Lt ltac:(lia)) as (g & u & En & Eg & Lu). rewrite En, Eg. eauto. }
    destruct Q as (u & Q & Lu). rewrite Q in H. destruct (first_negative o3 m (Some u) pid 0 4) as [w|] eqn:E; [|discriminate].
    apply first_negative_le in E. eapply loop_lv; [|exact H]. apply lv_intro; auto. lia.
  Qed.
End Locate.

(** * Deleting the cavity *)
Lemma kill_ok l : forall m, (forall t, In t l -> exists k, msk m t = Some k) -> exists m', kill_all m l = Some m' /\ skin m m' /\
  (forall t, In t l -> msk m' t = Some ones) /\ (forall t, ~ In t l -> msk m' t = msk m t).
Proof.
  induction l as [|a l IH]; intros m H; [exists m; split; [reflexivity|]; split; [apply skin_refl|]; split; [intros t []|auto]|].
  destruct (H a (or_introl eq_refl)) as (k & Ek). destruct (set_mask_view (fun _ => ones) m a k Ek) as (m1 & E1 & V1).
  cbn [kill_all]. rewrite E1. destruct (IH m1) as (m' & E' & S & A & B).
  { intros t Ht. destruct (Nat.eq_dec t a) as [->|Ne]; [exists ones; apply (om_eq _ _ _ _ V1)|]. rewrite (om_neq _ _ _ _ V1) by auto. apply H. right. auto. }
  exists m'. split; auto. split; [eapply skin_trans; eauto; eapply only_mask_skin; eauto|]. split.
  - intros t [<-|Ht]; auto. destruct (in_dec Nat.eq_dec a l); [auto|]. rewrite B by auto. apply (om_eq _ _ _ _ V1).
  - intros t Ht. rewrite B by (intros X; apply Ht; right; auto). apply (om_neq _ _ _ _ V1). intros ->. apply Ht. left. auto.
Qed.

Section Insert.
  Variables (m : tetmesh) (o3 : sign3) (isp : sign4) (pid : nat) (start : nat -> Prop).
  Variables (m0 : tetmesh) (cave : list nat) (bdry : list triface).
  Hypothesis G : good m.
  Hypothesis Cv : cavity m o3 isp pid start m0 cave bdry.
  Hypothesis Pid : pid < n_points m.
  Hypothesis Fresh : nth_error (p2t m) pid = Some None.
  Notation L := (length (tets m)).
  Notation R := (fun t => In t cave).
  Hypothesis Si : simple m R.
  Hypothesis Ex : exposed m R.
  Variable F : list face.
  Hypothesis EF : map bf F = bdry.
  Hypothesis AF : Forall (face_ok m cave) F.
  Variable m2 : tetmesh.
  Hypothesis Fi : finv m pid cave F [] m2.

  (** The last mesh, as its views. *)
  Record last (s : nat) (M : tetmesh) : Prop := Last {
    la_n : n_points M = n_points m; la_l : length (tets M) = L + length F;
    la_pl : length (p2t M) = length (p2t m);
    la_pid : nth_error (p2t M) pid = Some (Some (L + s));
    la_p : forall p, p <> pid -> nth_error (p2t M) p = nth_error (p2t m2) p;
    la_d : forall t, dat M t = dat m2 t; la_ln : forall t, nln M t = nln m2 t;
    la_in : forall t, In t cave -> msk M t = Some ones;
    la_out : forall t, ~ In t cave -> msk M t = msk m2 t;
    la_nei : forall t k, (forall j r, j < length F -> r < 3 -> (t, k) <> (L + j, sface r)) -> nei_at M (Some t) k = nei_at m2 (Some t) k;
    la_slot : forall j x r j' x' r', nth_error F j = Some x -> nth_error F j' = Some x' -> r < 3 -> r' < 3 ->
      sorg x' r' = sdest x r -> sdest x' r' = sorg x r -> lk m M j r j' r' /\ lk m M j' r' j r }.
  Variables (s : nat) (M : tetmesh).
  Hypothesis Ls : s < length F.
  Hypothesis La : last s M.

  Lemma cave_lt t : In t cave -> t < L.
  Proof. intros H. apply (live_lt m), (cv_live _ _ _ _ _ _ _ _ Cv t H). Qed.
  Lemma new_dat j x : nth_error F j = Some x -> dat M (L + j) = Some [f1 x; f0 x; pid; f2 x].
  Proof. intros H. rewrite (la_d _ _ La). apply (fi_new _ _ _ _ _ _ Fi _ _ H). Qed.
  Lemma old_dat t : t < L -> dat M t = dat m t.
  Proof. intros H. rewrite (la_d _ _ La). apply (fi_old _ _ _ _ _ _ Fi _ H). Qed.
  Lemma live_new j : j < length F -> live M (L + j).
  Proof.
    intros H. apply live_msk. rewrite (la_out _ _ La); [apply (fi_newm _ _ _ _ _ _ Fi _ H)|]. intros X. apply cave_lt in X. lia.
  Qed.
  Lemma live_old t : live m t -> ~ In t cave -> live M t.
  Proof.
    intros Lt Nt. apply live_msk. rewrite (la_out _ _ La) by auto. destruct (fi_out _ _ _ _ _ _ Fi t Lt Nt) as [H|(_ & x & [] & _)]. exact H.
  Qed.
  Lemma live_iff t : live M t <-> (live m t /\ ~ In t cave) \/ (L <= t < L + length F).
  Proof.
    split.
    - intros Lt. pose proof Lt as Lt'. apply live_msk in Lt'. destruct (in_dec Nat.eq_dec t cave) as [H|H].
      + exfalso. rewrite (la_in _ _ La _ H) in Lt'. discriminate.
      + pose proof (live_lt M t Lt) as B. rewrite (la_l _ _ La) in B. destruct (Nat.lt_ge_cases t L) as [Ho|Hn]; [|right; lia].
        left. split; auto. rewrite (la_out _ _ La) in Lt' by auto.
        assert (D : live m t \/ ~ live m t).
        { rewrite live_msk. destruct (msk m t) as [k|]; [|right; discriminate]. destruct (N.eq_dec k 0); [left; congruence|right; congruence]. }
        destruct D as [D|D]; auto. rewrite (fi_dead _ _ _ _ _ _ Fi t Ho D) in Lt'. now apply live_msk.
    - intros [(A & B)|H]; [apply live_old; auto|]. replace t with (L + (t - L)) by lia. apply live_new. lia.
  Qed.

  Lemma slot_not_old t k : t < L -> forall j r, j < length F -> r < 3 -> (t, k) <> (L + j, sface r).
  Proof. intros H j r _ _ X. inversion X. lia. Qed.
  Lemma nei_old t k : t < L -> (forall x, In x F -> (t, k) <> slot_of x) -> nei_at M (Some t) k = nei_at m (Some t) k.
  Proof. intros H N. rewrite (la_nei _ _ La) by (apply slot_not_old; auto). apply (fi_same _ _ _ _ _ _ Fi); auto. Qed.

  Lemma col2 w c : w < 12 -> look COL_V02_TBL w = Some c -> look2 FSYM_TBL w c = Some 2 /\ look2 FSYM_TBL 2 w = Some w.
  Proof.
    intros W E. assert (T : forallb (fun w => match look COL_V02_TBL w with Some c =>
      match look2 FSYM_TBL w c, look2 FSYM_TBL 2 w with Some a, Some b => (a =? 2) && (b =? w) | _, _ => false end | None => false end) (seq 0 12) = true)
      by (vm_compute; reflexivity).
    rewrite forallb_forall in T. specialize (T w ltac:(apply in_seq; lia)). cbv beta in T. rewrite E in T.
    destruct (look2 FSYM_TBL w c) as [a|]; [|discriminate]. destruct (look2 FSYM_TBL 2 w) as [b|]; [|discriminate].
    rewrite andb_true_iff, !Nat.eqb_eq in T. destruct T as (-> & ->). auto.
  Qed.
  Lemma new_matched j x : nth_error F j = Some x ->
    matched M (L + j) 2 (fu x) (fw x) (f0 x) (f1 x) (f2 x) pid (fe x).
  Proof.
    intros H. pose proof (F_ok m cave F AF _ _ H) as Ox. pose proof (fo_m _ _ _ Ox) as Mx. pose proof (mt_w _ _ _ _ _ _ _ _ _ _ Mx) as W.
    pose proof (live_lt m _ (fo_u _ _ _ Ox)) as Lu.
    destruct (fi_outer _ _ _ _ _ _ Fi _ _ H) as (c & Ec & En). destruct (col2 _ _ W Ec) as (T1 & T2).
    constructor; auto; try lia.
    - unfold fsym. cbn [tet ver]. change (Nat.land 2 3) with 2.
      rewrite (la_nei _ _ La) by (intros i r _ _ X; inversion X as [[X1 X2]]; symmetry in X2; now apply sface_ne2 in X2).
      rewrite (fi_back _ _ _ _ _ _ Fi _ _ H). cbn [tet ver]. now rewrite T2.
    - unfold fsym. cbn [tet ver]. rewrite (la_nei _ _ La) by (apply slot_not_old; auto). rewrite En. cbn [tet ver]. now rewrite T1.
    - apply corners_dat. exists [f1 x; f0 x; pid; f2 x]. rewrite (new_dat _ _ H). cbn. repeat split; auto. lia.
    - eapply corners_same; [|apply (mt_k _ _ _ _ _ _ _ _ _ _ Mx)]. apply old_dat, Lu.
  Qed.
  Lemma side_matched j x r : nth_error F j = Some x -> r < 3 -> exists j' x' r', nth_error F j' = Some x' /\ r' < 3 /\
    matched M (L + j) (sver r) (L + j') (sver r') (sorg x r) (sdest x r) pid (sthird x r) (sthird x' r').
  Proof.
    intros H Hr. destruct (partner_ex m o3 isp pid start m0 cave bdry G Cv F EF AF j x r H Hr) as (j' & x' & r' & H' & Hr' & Eo & Ed).
    exists j', x', r'. split; auto. split; auto. destruct (la_slot _ _ La _ _ _ _ _ _ H H' Hr Hr' Eo Ed) as ((z & N1 & T1) & (z' & N2 & T2)).
    constructor.
    - three r; cbn; lia.
    - three r'; cbn; lia.
    - unfold fsym. cbn [tet ver]. fold (sface r). rewrite N1. cbn [tet ver]. now rewrite T1.
    - unfold fsym. cbn [tet ver]. fold (sface r'). rewrite N2. cbn [tet ver]. now rewrite T2.
    - apply corners_dat. exists [f1 x; f0 x; pid; f2 x]. rewrite (new_dat _ _ H). three r; cbn; repeat split; lia.
    - rewrite <- Eo, <- Ed. apply corners_dat. exists [f1 x'; f0 x'; pid; f2 x']. rewrite (new_dat _ _ H'). three r'; cbn; repeat split; lia.
  Qed.

  Lemma new_nodup x : face_ok m cave x -> NoDup [f0 x; f1 x; f2 x; pid].
  Proof.
    intros Ox. pose proof (fo_nd _ _ _ Ox) as ND. pose proof (fo_m _ _ _ Ox) as Mx. pose proof (mt_k _ _ _ _ _ _ _ _ _ _ Mx) as K.
    apply corners_dat in K. destruct K as (l & El & _ & P0 & P1 & P2 & _). pose proof (pid_fresh m pid G Fresh _ _ El) as Np.
    apply nth_error_In in P0, P1, P2. assert (N0 : f0 x <> pid) by (intros X; rewrite X in *; auto). assert (N1 : f1 x <> pid) by (intros X; rewrite X in *; auto). assert (N2 : f2 x <> pid) by (intros X; rewrite X in *; auto).
    clear -ND N0 N1 N2. rewrite !NoDup_cons_iff in *. cbn in *. intuition.
  Qed.
  Lemma matched_glued t v u w a b c d e : live M u -> matched M t v u w a b c d e -> NoDup [a; b; c; d] ->
    forall v', v' < 12 -> Nat.land v' 3 = Nat.land v 3 ->
    exists a b c d u w e, corners M (TF (Some t) v') a b c d /\ NoDup [a; b; c; d] /\
      fsym M (TF (Some t) v') = Some (TF (Some u) w) /\ live M u /\ w < 12 /\
      fsym M (TF (Some u) w) = Some (TF (Some t) v') /\ corners M (TF (Some u) w) b a c e.
  Proof.
    intros Lu Mt ND v' V' E. destruct (matched_turn _ _ _ _ _ _ _ _ _ _ v' Mt V' E) as (w' & a' & b' & c' & [V W Ff B C K] & _ & Perm).
    exists a', b', c', d, u, w', e. split; [exact C|]. split; [|auto].
    clear -ND Perm. rewrite !NoDup_cons_iff in *. cbn in *. intuition (subst; auto).
  Qed.

  Lemma good_last : good M.
  Proof.
    assert (MG : forall t v, t < L -> live m t -> ~ In t cave -> v < 12 ->
      exists a b c d u w e, corners M (TF (Some t) v) a b c d /\ NoDup [a; b; c; d] /\
      fsym M (TF (Some t) v) = Some (TF (Some u) w) /\ live M u /\ w < 12 /\
      fsym M (TF (Some u) w) = Some (TF (Some t) v) /\ corners M (TF (Some u) w) b a c e).
    { intros t v Ht Lt Nt V.
      assert (Dec : (exists j x, nth_error F j = Some x /\ (t, Nat.land v 3) = slot_of x) \/ (forall x, In x F -> (t, Nat.land v 3) <> slot_of x)).
      { clear -F. induction F as [|y F' IH]; [right; intros x []|]. destruct IH as [(j & x & H & E)|H]; [left; exists (S j), x; auto|].
        destruct (Nat.eq_dec t (fu y)) as [Et|Et]; [destruct (Nat.eq_dec (Nat.land v 3) (Nat.land (fw y) 3)) as [Ev|Ev]|].
        - left. exists 0, y. split; auto. unfold slot_of. congruence.
        - right. intros x [<-|Hx]; auto. unfold slot_of. congruence.
        - right. intros x [<-|Hx]; auto. unfold slot_of. congruence. }
      destruct Dec as [(j & x & H & E)|Nd].
      - pose proof (new_matched j x H) as Mx. apply matched_sym in Mx. unfold slot_of in E. inversion E as [[E1 E2]].
        apply (matched_glued _ _ _ _ _ _ _ _ _ (live_new j ltac:(apply nth_error_Some; congruence)) Mx); auto; [].
        pose proof (F_ok m cave F AF _ _ H) as Ox.
        destruct (g_glued m G (fu x) (fw x) (fo_u _ _ _ Ox) (mt_w _ _ _ _ _ _ _ _ _ _ (fo_m _ _ _ Ox))) as (a & b & c & d & _ & _ & _ & C & ND & _).
        destruct (corners_fun _ _ _ _ _ _ _ _ _ _ (mt_k _ _ _ _ _ _ _ _ _ _ (fo_m _ _ _ Ox)) C) as (-> & -> & -> & ->). exact ND.
      - destruct (g_glued m G t v Lt V) as (a & b & c & d & u & w & e & C & ND & Ff & Lu & W & B & K).
        assert (Mt : matched m t v u w a b c d e) by (constructor; auto).
        destruct (matched_nei _ _ _ _ _ _ _ _ _ _ Mt) as (g & Ng & Tg & _). 
        destruct (matched_nei _ _ _ _ _ _ _ _ _ _ (matched_sym _ _ _ _ _ _ _ _ _ _ Mt)) as (g' & Ng' & Tg' & _ & Vg').
        assert (Nu : ~ In u cave).
        { intros Iu. assert (Hb : In (TF (Some u) (Nat.land w 3)) bdry).
          { apply (cv_b _ _ _ _ _ _ _ _ Cv). split; auto. split; [apply face_lt, W|]. exists t. split; auto. exists g'. auto. }
          rewrite <- EF in Hb. apply in_map_iff in Hb. destruct Hb as (x & Ex' & Hx). unfold bf in Ex'. inversion Ex' as [[Ec Ek]].
          apply (Nd x Hx). unfold slot_of. rewrite Forall_forall in AF. pose proof (AF x Hx) as Ox.
          destruct (matched_nei _ _ _ _ _ _ _ _ _ _ (fo_m _ _ _ Ox)) as (h & Nh & Th & _ & Vh). rewrite (fo_xk _ _ _ Ox) in Nh.
          rewrite Ec, Ek, Ng' in Nh. inversion Nh; subst h. rewrite <- Vh, Vg'. congruence. }
        assert (Lul : u < L) by (apply (live_lt m), Lu).
        exists a, b, c, d, u, w, e.
        assert (Nd' : forall x, In x F -> (u, Nat.land w 3) <> slot_of x).
        { intros x Hx E. unfold slot_of in E. inversion E as [[E1 E2]]. rewrite Forall_forall in AF. pose proof (AF x Hx) as Ox.
          destruct (matched_nei _ _ _ _ _ _ _ _ _ _ (matched_sym _ _ _ _ _ _ _ _ _ _ (fo_m _ _ _ Ox))) as (h & Nh & Th & _).
          rewrite <- E1, <- E2, Ng' in Nh. inversion Nh; subst h. rewrite Tg' in Th. inversion Th. apply Nt. subst t. apply (fo_c _ _ _ Ox). }
        split; [eapply corners_same; [apply old_dat, Ht|exact C]|]. split; auto.
        split; [rewrite <- Ff; apply fsym_same, nei_old; auto|]. split; [apply live_old; auto|]. split; auto.
        split; [rewrite <- B; apply fsym_same, nei_old; auto|]. eapply corners_same; [apply old_dat, Lul|exact K]. }
    assert (NG : forall j v, j < length F -> v < 12 ->
      exists a b c d u w e, corners M (TF (Some (L + j)) v) a b c d /\ NoDup [a; b; c; d] /\
      fsym M (TF (Some (L + j)) v) = Some (TF (Some u) w) /\ live M u /\ w < 12 /\
      fsym M (TF (Some u) w) = Some (TF (Some (L + j)) v) /\ corners M (TF (Some u) w) b a c e).
    { intros j v Hj V. destruct (nth_error_ex F j Hj) as (x & H). pose proof (F_ok m cave F AF _ _ H) as Ox. pose proof (new_nodup x Ox) as ND.
      destruct (Nat.eq_dec (Nat.land v 3) 2) as [E2|N2].
      - apply (matched_glued _ _ _ _ _ _ _ _ _ (live_old _ (fo_u _ _ _ Ox) (fo_nu _ _ _ Ox)) (new_matched j x H) ND); auto.
      - destruct (sface_all (Nat.land v 3) (face_lt v V) N2) as (r & Hr & Er).
        destruct (side_matched j x r H Hr) as (j' & x' & r' & H' & Hr' & Mt).
        apply (matched_glued _ _ _ _ _ _ _ _ _ (live_new j' ltac:(apply nth_error_Some; congruence)) Mt); auto.
        clear -ND Hr. three r; cbn; rewrite !NoDup_cons_iff in *; cbn in *; intuition. }
    assert (Known : forall p t l, p <> pid -> dat m t = Some l -> In p l -> exists t', nth_error (p2t M) p = Some (Some t')).
    { intros p t l Np D Hp. rewrite (la_p _ _ La) by auto. destruct (fi_p _ _ _ _ _ _ Fi p) as [E|(j & x & _ & _ & E)]; [|eauto].
      rewrite E. apply dat_inv in D. destruct D as (y & Ey & <-). eapply g_known; eauto. }
    constructor.
    - intros t x E. assert (Mk : msk M t = Some (mask x)) by (unfold msk; now rewrite E).
      assert (Lt : t < L + length F) by (rewrite <- (la_l _ _ La); apply nth_error_Some; congruence).
      destruct (Nat.lt_ge_cases t L) as [Ho|Hn].
      + destruct (in_dec Nat.eq_dec t cave) as [I|N]; [rewrite (la_in _ _ La _ I) in Mk; inversion Mk; auto|].
        destruct (nth_error_ex (tets m) t Ho) as (y & Ey). destruct (g_mask m G t y Ey) as [Z|Z].
        * assert (Lm : live m t) by (exists y; auto). apply (live_old t Lm) in N. apply live_msk in N. left. congruence.
        * assert (Nl : ~ live m t). { intros (y' & Ey' & Z'). rewrite Ey in Ey'. inversion Ey'; subst. rewrite Z in Z'. discriminate. }
          rewrite (la_out _ _ La), (fi_dead _ _ _ _ _ _ Fi) in Mk by auto. unfold msk in Mk. rewrite Ey in Mk. cbn in Mk. inversion Mk. right. congruence.
      + left. assert (Ln : live M t) by (apply live_iff; right; lia). apply live_msk in Ln. congruence.
    - intros t x E. assert (Lt : t < L + length F) by (rewrite <- (la_l _ _ La); apply nth_error_Some; congruence).
      assert (D : dat M t = Some (data x)) by now apply dat_some.
      assert (N : nln M t = Some (length (nei x))) by (unfold nln; now rewrite E).
      rewrite (la_ln _ _ La), (fi_nln _ _ _ _ _ _ Fi) in N by auto. inversion N as [N']. split; auto.
      destruct (Nat.lt_ge_cases t L) as [Ho|Hn]; [rewrite old_dat in D by auto; eapply good_dat; eauto|].
      destruct (nth_error_ex F (t - L) ltac:(lia)) as (y & Ey). replace t with (L + (t - L)) in D by lia. rewrite (new_dat _ _ Ey) in D.
      inversion D. reflexivity.
    - intros t v Lt V. apply live_iff in Lt. destruct Lt as [(A & B)|H]; [apply MG; auto; apply (live_lt m), A|].
      replace t with (L + (t - L)) by lia. apply NG; auto. lia.
    - intros t x i p E Hp. rewrite (la_n _ _ La). assert (D : dat M t = Some (data x)) by now apply dat_some.
      destruct (Nat.lt_ge_cases t L) as [Ho|Hn]; [rewrite old_dat in D by auto; eapply vert_lt; eauto|].
      assert (Lt : t < L + length F) by (rewrite <- (la_l _ _ La); apply nth_error_Some; congruence).
      destruct (nth_error_ex F (t - L) ltac:(lia)) as (y & Ey). replace t with (L + (t - L)) in D by lia. rewrite (new_dat _ _ Ey) in D.
      inversion D as [D']. rewrite <- D' in Hp. pose proof (F_ok m cave F AF _ _ Ey) as Oy. destruct (fo_g _ _ _ Oy) as (g0 & g1).
      pose proof (mt_k _ _ _ _ _ _ _ _ _ _ (fo_m _ _ _ Oy)) as K. apply corners_dat in K. destruct K as (l & El & _ & P1 & P0 & P2 & _).
      destruct (vert_lt m G _ _ _ _ El P0) as (b0 & _). destruct (vert_lt m G _ _ _ _ El P1) as (b1 & _). destruct (vert_lt m G _ _ _ _ El P2) as (b2 & _).
      destruct i as [|[|[|[|i]]]]; cbn in Hp; inversion Hp; subst; try (split; [lia|]; intros; (reflexivity || lia || contradiction)). destruct i; discriminate.
    - rewrite (la_pl _ _ La), (la_n _ _ La). apply (g_p2t m G).
    - intros p t Hp. destruct (Nat.eq_dec p pid) as [->|Np].
      + rewrite (la_pid _ _ La) in Hp. inversion Hp; subst t. split; [apply live_new, Ls|]. destruct (nth_error_ex F s Ls) as (x & Hx).
        pose proof (new_dat _ _ Hx) as D. apply dat_inv in D. destruct D as (y & Ey & Dy). exists y. split; auto. rewrite Dy. cbn. auto.
      + rewrite (la_p _ _ La) in Hp by auto. destruct (fi_p _ _ _ _ _ _ Fi p) as [E|(j & x & Hj & Hx & E)].
        * rewrite E in Hp. destruct (g_stored m G p t Hp) as (Lt & y & Ey & Hy).
          assert (Nt : ~ In t cave).
          { intros I. destruct (Ex t y p I Ey Hy) as (t' & v & b & c & d & (It & u & w & Fu & Nu) & C).
            pose proof (cv_live _ _ _ _ _ _ _ _ Cv _ It) as Lt'. pose proof (corners_ver _ _ _ _ _ _ C) as V. cbn in V.
            assert (Hb : In (TF (Some t') (Nat.land v 3)) bdry).
            { apply (cv_b _ _ _ _ _ _ _ _ Cv). split; auto. split; [apply face_lt, V|]. exists u. split; auto.
              unfold fsym in Fu. cbn [tet ver] in Fu. destruct (nei_at m (Some t') (Nat.land v 3)) as [h|] eqn:En; [|discriminate].
              exists h. split; auto. destruct (look2 FSYM_TBL v (ver h)); [|discriminate]. inversion Fu. auto. }
            rewrite <- EF in Hb. apply in_map_iff in Hb. destruct Hb as (x & Ex' & Hx). unfold bf in Ex'. inversion Ex' as [[Ec Ek]].
            rewrite Forall_forall in AF. pose proof (AF x Hx) as Ox. pose proof (fo_m _ _ _ Ox) as Mx. rewrite Ec in Mx.
            rewrite <- (fo_xk _ _ _ Ox) in Ek. destruct (matched_turn _ _ _ _ _ _ _ _ _ _ v Mx V (eq_sym Ek)) as (w' & a' & b' & c' & M' & _ & Perm).
            destruct (corners_fun _ _ _ _ _ _ _ _ _ _ C (mt_c _ _ _ _ _ _ _ _ _ _ M')) as (Ea & _).
            assert (Ip : In p [f0 x; f1 x; f2 x]).
            { clear -Ea Perm. cbn. destruct Perm as [(A & _)|[(A & _)|(A & _)]]; [left|right; left|right; right; left]; congruence. }
            destruct (fi_pn _ _ _ _ _ _ Fi x p Hx Ip) as (j & _ & Ej). rewrite E, Hp in Ej. inversion Ej. apply (live_lt m) in Lt. lia. }
          split; [apply live_old; auto|]. pose proof (live_lt m t Lt) as B. pose proof (dat_some m t y Ey) as D. rewrite <- old_dat in D by auto.
          apply dat_inv in D. destruct D as (z & Ez & Dz). exists z. split; auto. now rewrite Dz.
        * rewrite E in Hp. inversion Hp; subst t. assert (Hl : j < length F) by (apply nth_error_Some; congruence). split; [apply live_new, Hl|].
          pose proof (new_dat _ _ Hj) as D. apply dat_inv in D. destruct D as (y & Ey & Dy). exists y. split; auto. rewrite Dy. cbn in Hx |- *. intuition.
    - intros t x p E Hp. assert (D : dat M t = Some (data x)) by now apply dat_some.
      destruct (Nat.eq_dec p pid) as [->|Np]; [rewrite (la_pid _ _ La); eauto|].
      destruct (Nat.lt_ge_cases t L) as [Ho|Hn]; [rewrite old_dat in D by auto; eapply Known; eauto|].
      assert (Lt : t < L + length F) by (rewrite <- (la_l _ _ La); apply nth_error_Some; congruence).
      destruct (nth_error_ex F (t - L) ltac:(lia)) as (y & Ey). replace t with (L + (t - L)) in D by lia. rewrite (new_dat _ _ Ey) in D.
      inversion D as [D']. rewrite <- D' in Hp. rewrite (la_p _ _ La) by auto.
      assert (Ip : In p [f0 y; f1 y; f2 y]) by (cbn in Hp |- *; intuition). apply nth_error_In in Ey.
      destruct (fi_pn _ _ _ _ _ _ Fi y p Ey Ip) as (j & _ & Ej). eauto.
  Qed.
  Lemma none_last p : p <> pid -> nth_error (p2t m) p = Some None -> nth_error (p2t M) p = Some None.
  Proof.
    intros Np E. rewrite (la_p _ _ La) by auto. destruct (fi_p _ _ _ _ _ _ Fi p) as [E'|(j & x & Hj & Hp & _)]; [congruence|]. exfalso.
    pose proof (F_ok m cave F AF _ _ Hj) as Ox. pose proof (mt_k _ _ _ _ _ _ _ _ _ _ (fo_m _ _ _ Ox)) as K.
    apply corners_dat in K. destruct K as (l & El & _ & P1 & P0 & P2 & _). apply nth_error_In in P0, P1, P2.
    apply dat_inv in El. destruct El as (y & Ey & Dy). rewrite <- Dy in *.
    assert (Ip : In p (data y)) by (destruct Hp as [<-|[<-|[<-|[]]]]; auto). destruct (g_known m G _ _ _ Ey Ip) as (t' & Et). congruence.
  Qed.
End Insert.

(** * The cavity of the specification *)
Lemma enclosed_iff o3 isp a b c d p : enclosed o3 isp a b c d p <->
  match insphere_s o3 isp a b c d p with Some s => Some (s <? 0)%Z | None => None end = Some true.
Proof.
  unfold enclosed. destruct (insphere_s o3 isp a b c d p) as [s|].
  - split; [intros (s' & E & H); inversion E; subst; f_equal; now apply Z.ltb_lt|]. intros H. inversion H as [H']. exists s. split; auto. now apply Z.ltb_lt.
  - split; [intros (s' & E & _); discriminate|discriminate].
Qed.
Lemma conflicts_iff o3 isp m p u : conflicts o3 isp m p u <-> conflict m o3 isp p u.
Proof.
  unfold conflict. rewrite enqueue_view. unfold enq_view, conflicts, dat. destruct (nth_error (tets m) u) as [x|]; cbn [option_map].
  2: { split; [intros (x & a & b & c & d & E & _); discriminate|discriminate]. }
  split.
  - intros (x' & a & b & c & d & E & Ed & H). inversion E; subst x'. rewrite Ed. destruct (Nat.eqb_spec d (n_points m)) as [Eg|Ng]; cbn [negb].
    + destruct H as [(X & _)|(_ & [H|(H & g & v & y & a' & b' & c' & d' & En & Eg' & Ey & Edy & He)])]; [contradiction| |].
      * apply Z.ltb_lt in H. cbv zeta. now rewrite H.
      * cbv zeta. rewrite H. cbn. rewrite En, Eg', Ey. cbn. rewrite Edy. now apply enclosed_iff.
    + destruct H as [(_ & H)|(X & _)]; [now apply enclosed_iff|contradiction].
  - intros H. destruct (data x) as [|a [|b [|c [|d [|]]]]] eqn:Ed; try discriminate H. exists x, a, b, c, d. split; auto. split; auto.
    destruct (Nat.eqb_spec d (n_points m)) as [Eg|Ng]; cbn [negb] in H.
    + right. split; auto. cbv zeta in H. destruct (Z.ltb_spec (o3 a b c p) 0); [auto|]. right. destruct (Z.eqb_spec (o3 a b c p) 0); [|discriminate].
      split; auto. destruct (nei_at m (Some u) 3) as [g|] eqn:En; [|discriminate]. destruct (tet g) as [v|] eqn:Tg; [|discriminate].
      destruct (nth_error (tets m) v) as [y|] eqn:Ey; [|discriminate]. cbn in H. destruct (data y) as [|a' [|b' [|c' [|d' [|]]]]] eqn:Edy; try discriminate H.
      exists g, v, y, a', b', c', d'. do 4 (split; [solve [auto]|]). now apply enclosed_iff.
    + left. split; auto. now apply enclosed_iff.
Qed.
Lemma region_ext m S S' C C' t : (forall t, S t <-> S' t) -> (forall t, C t <-> C' t) -> region m S C t -> region m S' C' t.
Proof. intros HS HC. induction 1; [apply region_start, HS; auto|eapply region_next; eauto; now apply HC]. Qed.
Lemma border_ext m R R' t v : (forall t, R t <-> R' t) -> border m R t v -> border m R' t v.
Proof. intros H (A & u & w & E & N). split; [now apply H|]. exists u, w. split; auto. intros X. apply N. now apply H. Qed.

Lemma nodup_pairs F : NoDup (map bf F) -> NoDup (map (fun x => (fc x, fk x)) F).
Proof.
  induction F as [|x F IH]; intros ND; [constructor|]. cbn in ND |- *. rewrite NoDup_cons_iff in *. destruct ND as (N & ND). split; auto.
  intros H. apply N. rewrite in_map_iff in *. destruct H as (y & E & Hy). exists y. split; auto. unfold bf. inversion E. reflexivity.
Qed.
Lemma insert_ok limit o3 isp m pid t0 v0 fuel loc s :
  good m -> pid < n_points m -> nth_error (p2t m) pid = Some None -> live m t0 ->
  locate_dt o3 m pid (TF (Some t0) v0) fuel = Some (loc, s) -> loc <> ONVERTEX ->
  simple m (cavity_of o3 isp m pid loc s) -> exposed m (cavity_of o3 isp m pid loc s) ->
  exists B, NoDup B /\ (forall t k, In (t, k) B <-> k < 4 /\ border m (cavity_of o3 isp m pid loc s) t k) /\
    ((length B + 4) / 2 < limit -> exists m' s', insert_vertex limit o3 isp m pid (TF (Some t0) v0) fuel = Some (m', s', true) /\
      inserted m (cavity_of o3 isp m pid loc s) pid B m' s').
Proof.
  intros G Pid Fresh Lt0 Loc NV Si0 Ex0. pose proof (locate_lv o3 m pid G t0 v0 fuel loc s Lt0 Loc) as Ls.
  destruct (cavity_ok m o3 isp pid G (seed m loc s) loc s Ls NV ltac:(tauto)) as (m1 & cave0 & m0 & cave & bdry & E1 & E2 & Cv).
  set (R := cavity_of o3 isp m pid loc s) in *.
  assert (ER : forall t, R t <-> In t cave).
  { intros t. rewrite (cv_reg _ _ _ _ _ _ _ _ Cv). unfold R, cavity_of. split; apply region_ext; try tauto; intros u; [apply conflicts_iff|symmetry; apply conflicts_iff]. }
  assert (Si : simple m (fun t => In t cave)).
  { intros t v t' v' a b c d c' d' B B'. apply Si0; eapply border_ext; eauto; intros; symmetry; apply ER. }
  assert (Ex : exposed m (fun t => In t cave)).
  { intros t x p Ht Hx Hp. destruct (Ex0 t x p (proj2 (ER t) Ht) Hx Hp) as (t' & v & b & c & d & B & C). exists t', v, b, c, d. split; auto.
    eapply border_ext; eauto. }
  destruct (faces_ex m o3 isp pid (seed m loc s) m0 cave bdry G Cv Pid) as (F & EF & AF).
  set (B := map (fun x => (fc x, fk x)) F). exists B.
  assert (BB : forall t k, In (t, k) B <-> In (TF (Some t) k) bdry).
  { intros t k. rewrite <- EF. unfold B. rewrite !in_map_iff. split; intros (x & E & Hx); exists x; split; auto; unfold bf in *; inversion E; reflexivity. }
  assert (ND : NoDup (map bf F)) by (rewrite EF; apply (cv_bnd _ _ _ _ _ _ _ _ Cv)).
  assert (LB : length B = length F) by apply map_length. assert (Lb : length bdry = length F) by (rewrite <- EF; apply map_length).
  split; [|split].
  - apply nodup_pairs, ND.
  - intros t k. rewrite BB, (cv_b _ _ _ _ _ _ _ _ Cv). split.
    + intros (It & K & u & (g & En & Tg) & Nu). split; auto. split; [now apply ER|]. exists u, (ver g). split; [|rewrite ER; auto].
      destruct (nei_ver_lt m G t k g (cv_live _ _ _ _ _ _ _ _ Cv t It) En) as (_ & Vg & _).
      unfold fsym. cbn [tet ver]. rewrite (land4 k K), En, (fsym_low k g K Vg), Tg. reflexivity.
    + intros (K & Rt & u & w & Fu & Nu). split; [now apply ER|]. split; auto. exists u. split; [|rewrite <- ER; auto].
      unfold fsym in Fu. cbn [tet ver] in Fu. rewrite (land4 k K) in Fu. destruct (nei_at m (Some t) k) as [g|] eqn:En; [|discriminate].
      exists g. split; auto. destruct (look2 FSYM_TBL k (ver g)); [|discriminate]. inversion Fu. auto.
  - intros Lim. rewrite LB in Lim.
    (* the border is not empty *)
    assert (F0 : 0 < length F).
    { assert (S0 : exists t, R t).
      { destruct Ls as (t & Et & _). exists t. apply region_start. destruct loc; cbn; auto. exists s. split; [constructor|auto]. }
      destruct S0 as (t & Rt). pose proof (proj1 (ER t) Rt) as It. pose proof (cv_live _ _ _ _ _ _ _ _ Cv t It) as Lt.
      destruct (g_glued m G t 0 Lt ltac:(lia)) as (a & b & c & d & _ & _ & _ & C & _).
      apply corners_dat in C. destruct C as (l & El & _ & Pa & _). apply dat_inv in El. destruct El as (x & Exx & <-). apply nth_error_In in Pa.
      destruct (Ex t x a It Exx Pa) as (t' & v & b' & c' & d' & (It' & u & w & Fu & Nu) & C').
      pose proof (corners_ver _ _ _ _ _ _ C') as V. cbn in V.
      assert (Hb : In (TF (Some t') (Nat.land v 3)) bdry).
      { apply (cv_b _ _ _ _ _ _ _ _ Cv). split; auto. split; [apply face_lt, V|]. exists u. split; auto.
        unfold fsym in Fu. cbn [tet ver] in Fu. destruct (nei_at m (Some t') (Nat.land v 3)) as [h|] eqn:En; [|discriminate].
        exists h. split; auto. destruct (look2 FSYM_TBL v (ver h)); [|discriminate]. inversion Fu. auto. }
      rewrite <- Lb. destruct bdry; [contradiction|cbn; lia]. }
    assert (Fs : length F / 2 < length F) by (apply Nat.div_lt; lia).
    unfold insert_vertex. rewrite Loc, E1, E2, Lb. apply Nat.ltb_lt in Lim. rewrite Lim.
    destruct (fill_ok m o3 isp pid (seed m loc s) m0 cave bdry G Cv Pid Fresh F [] m0 []) as (m2 & Ef & Fi).
    { eapply finv_start; eauto. } { exact AF. } { exact ND. }
    cbn [length app] in Ef, Fi. rewrite Nat.add_0_r, EF in Ef.
    assert (En : nth_error (news m 0 (length F)) (length F / 2) = Some (TF (Some (length (tets m) + length F / 2)) 11)).
    { unfold news. rewrite nth_error_map. rewrite (nth_error_nth' (seq 0 (length F)) 0) by (rewrite seq_length; auto).
      rewrite seq_nth by auto. reflexivity. }
    set (ns := length (tets m) + length F / 2) in *.
    assert (Pl : pid < length (p2t m2)) by (rewrite (fi_pl _ _ _ _ _ _ Fi), (g_p2t m G); lia).
    set (m3 := set_p2t m2 (upd (p2t m2) pid (Some ns))).
    rewrite Ef, En. cbn [tet]. rewrite (set_ok _ _ _ Pl). fold m3.
    destruct (connect_all_ok m o3 isp pid (seed m loc s) m0 cave bdry G Cv Si F EF AF m2 (p2t m3) Fi (length F) 0 m3) as (m4 & Ec & Ci & Nf).
    { apply (cinv_start m pid cave F m2 (p2t m3) Fi); reflexivity. } { lia. } { intros; lia. }
    rewrite Ec.
    destruct (kill_ok cave m4) as (m5 & Ek & Sk & Ki & Ko).
    { intros t Ht. rewrite (ci_m _ _ _ _ _ Ci). destruct (fi_in _ _ _ _ _ _ Fi t Ht) as [X|X]; eauto. }
    rewrite Ek.
    assert (La : last m pid cave F m2 (length F / 2) m5).
    { constructor.
      - rewrite (sk_n _ _ Sk), (ci_n _ _ _ _ _ Ci). apply (fi_n _ _ _ _ _ _ Fi).
      - rewrite (sk_l _ _ Sk), (ci_l _ _ _ _ _ Ci). apply (fi_l _ _ _ _ _ _ Fi).
      - rewrite (sk_p _ _ Sk), (ci_p _ _ _ _ _ Ci). unfold m3. cbn. rewrite upd_length. apply (fi_pl _ _ _ _ _ _ Fi).
      - rewrite (sk_p _ _ Sk), (ci_p _ _ _ _ _ Ci). unfold m3. cbn. apply nth_error_upd_eq, Pl.
      - intros p Np. rewrite (sk_p _ _ Sk), (ci_p _ _ _ _ _ Ci). unfold m3. cbn. apply nth_error_upd_neq. auto.
      - intros t. rewrite (sk_d _ _ Sk). apply (ci_d _ _ _ _ _ Ci).
      - intros t. rewrite (sk_ln _ _ Sk). apply (ci_ln _ _ _ _ _ Ci).
      - exact Ki.
      - intros t Nt. rewrite Ko by auto. apply (ci_m _ _ _ _ _ Ci).
      - intros t k Hn. rewrite (sk_nei _ _ Sk). apply (ci_nei _ _ _ _ _ Ci), Hn.
      - intros j x r j' x' r' H H' Hr Hr' Eo Ed. unfold lk. rewrite !(sk_nei _ _ Sk).
        destruct (ci_slot _ _ _ _ _ Ci _ _ _ _ _ _ H H' Hr Hr' Eo Ed) as [(X & _)|X]; [|exact X].
        exfalso. apply (Nf j r); auto. apply nth_error_Some. congruence. }
    exists m5, (TF (Some ns) 11). split; [destruct loc; (reflexivity || congruence)|].
    constructor.
    + eapply good_last; eauto.
    + apply (la_n _ _ _ _ _ _ _ La).
    + intros t. rewrite LB, ER. eapply live_iff; eauto.
    + intros t x Hx. pose proof (dat_some _ _ _ Hx) as D. assert (t < length (tets m)) by (apply nth_error_Some; congruence).
      rewrite <- (old_dat m pid cave F m2 Fi _ m5 La t) in D by auto. apply dat_inv in D. exact D.
    + intros i t k Hi. unfold B in Hi. rewrite nth_error_map in Hi. destruct (nth_error F i) as [x|] eqn:Hx; [|discriminate]. inversion Hi; subst t k.
      pose proof (F_ok m cave F AF _ _ Hx) as Ox. exists (fx x), (f0 x), (f1 x), (f2 x), (fd x).
      pose proof (fo_m _ _ _ Ox) as Mx. split; [apply (mt_v _ _ _ _ _ _ _ _ _ _ Mx)|]. split; [apply (fo_xk _ _ _ Ox)|].
      split; [apply (mt_c _ _ _ _ _ _ _ _ _ _ Mx)|].
      apply (mt_c _ _ _ _ _ _ _ _ _ _ (new_matched m pid cave Pid F AF m2 Fi _ m5 Fs La i x Hx)).
    + cbn [tet]. apply (la_pid _ _ _ _ _ _ _ La).
    + exists ns. split; [reflexivity|]. rewrite LB. unfold ns. lia.
    + intros q Nq Hq. eapply none_last; eauto.
Qed.
