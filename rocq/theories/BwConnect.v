(** Insertion of a point: the new tetrahedra are glued to each other. *)
From Coq Require Import List Arith Bool NArith ZArith Lia.
From Verif Require Import Lib Tet TetSpec TetProofs BwSpec BwBase BwGrow BwFill.
Import ListNotations.

(** The three faces of a new tetrahedron at its new vertex. *)
Definition sver (r : nat) : nat := match r with 0 => 11 | 1 => 1 | _ => 8 end.
Definition sface (r : nat) : nat := Nat.land (sver r) 3.
Definition sorg (x : face) (r : nat) : nat := match r with 0 => f1 x | 1 => f2 x | _ => f0 x end.
Definition sdest (x : face) (r : nat) : nat := match r with 0 => f0 x | 1 => f1 x | _ => f2 x end.
Definition sthird (x : face) (r : nat) : nat := match r with 0 => f2 x | 1 => f0 x | _ => f1 x end.
Definition srow (r : nat) : list nat := match r with 0 => ROW_V11_TBL | 1 => ID_TBL | _ => ROW_V08_TBL end.
Definition scol (r : nat) : list nat := match r with 0 => COL_V11_TBL | 1 => COL_V01_TBL | _ => COL_V08_TBL end.
Ltac three r := destruct r as [|[|[|r]]]; [| | |lia].

Lemma slot_tables r r' : r < 3 -> r' < 3 -> exists z c, look (srow r) (sver r') = Some z /\ look2 FSYM_TBL (sver r) z = Some (sver r') /\
  look (scol r) (sver r') = Some c /\ look2 FSYM_TBL (sver r') c = Some (sver r).
Proof. intros R R'. three r; three r'; vm_compute; do 2 eexists; repeat split. Qed.
Lemma sface_lt r : sface r < 4.
Proof. unfold sface. apply face_lt. destruct r as [|[|r]]; cbn; lia. Qed.
Lemma sface_inj r r' : r < 3 -> r' < 3 -> sface r = sface r' -> r = r'.
Proof. intros R R'. three r; three r'; cbn; intros; (reflexivity || discriminate). Qed.
Lemma sface_ne2 r : sface r <> 2.
Proof. destruct r as [|[|r]]; cbn; discriminate. Qed.
Lemma sface_all k : k < 4 -> k <> 2 -> exists r, r < 3 /\ sface r = k.
Proof. intros K N. destruct k as [|[|[|[|k]]]]; try lia; [exists 2|exists 1|exists 0]; split; auto. Qed.

Lemma table_in F : forall j fm e, In e (table_of j F fm) <-> In e fm \/ exists i x, nth_error F i = Some x /\ In e (entries (j + i) x).
Proof.
  induction F as [|y F IH]; intros j fm e; cbn [table_of].
  - split; [auto|]. intros [H|(i & x & H & _)]; auto. destruct i; discriminate.
  - rewrite IH, in_app_iff. split.
    + intros [[H|H]|(i & x & E & H)]; auto; right; [exists 0, y|exists (S i), x]; (split; [auto|]); [now rewrite Nat.add_0_r|].
      now rewrite <- Nat.add_succ_comm.
    + intros [H|([|i] & x & E & H)]; auto.
      * inversion E; subst. rewrite Nat.add_0_r in H. auto.
      * right. exists i, x. split; auto. now rewrite Nat.add_succ_comm.
Qed.
Lemma entries_in n x e : In e (entries n x) <-> exists r, r < 3 /\ e = ((sdest x r, sorg x r), TF (Some n) (sver r)).
Proof.
  split.
  - intros [<-|[<-|[<-|[]]]]; [exists 2|exists 1|exists 0]; split; auto.
  - intros (r & R & ->). three r; cbn; auto.
Qed.

Section Connect.
  Variables (m : tetmesh) (o3 : sign3) (isp : sign4) (pid : nat) (start : nat -> Prop).
  Variables (m0 : tetmesh) (cave : list nat) (bdry : list triface).
  Hypothesis G : good m.
  Hypothesis Cv : cavity m o3 isp pid start m0 cave bdry.
  Notation L := (length (tets m)).
  Notation R := (fun t => In t cave).
  Hypothesis Si : simple m R.
  Variable F : list face.
  Hypothesis EF : map bf F = bdry.
  Hypothesis AF : Forall (face_ok m cave) F.

  Lemma F_ok j x : nth_error F j = Some x -> face_ok m cave x.
  Proof. intros H. rewrite Forall_forall in AF. eapply AF, nth_error_In; eauto. Qed.
  Lemma F_inj j j' x x' : nth_error F j = Some x -> nth_error F j' = Some x' -> bf x = bf x' -> j = j'.
  Proof.
    intros H H' E. pose proof (cv_bnd _ _ _ _ _ _ _ _ Cv) as ND. rewrite <- EF in ND. rewrite NoDup_nth_error in ND. apply ND.
    - rewrite map_length. apply nth_error_Some. congruence.
    - rewrite !nth_error_map, H, H'. cbn. now rewrite E.
  Qed.
  (** A slot comes from a version of the border. *)
  Lemma cav_version x r : face_ok m cave x -> r < 3 -> exists v, v < 12 /\ Nat.land v 3 = fk x /\ border m R (fc x) v /\
    corners m (TF (Some (fc x)) v) (sdest x r) (sorg x r) (sthird x r) (fd x).
  Proof.
    intros Hx Hr. pose proof (fo_m _ _ _ Hx) as M.
    assert (Q : forall v w a b c, matched m (fc x) v (fu x) w a b c (fd x) (fe x) -> border m R (fc x) v).
    { intros v w a b c M'. split; [apply (fo_c _ _ _ Hx)|]. exists (fu x), w. split; [apply (mt_f _ _ _ _ _ _ _ _ _ _ M')|apply (fo_nu _ _ _ Hx)]. }
    assert (V : fx x < 12) by apply (mt_v _ _ _ _ _ _ _ _ _ _ M).
    assert (K : Nat.land ((fx x + 4) mod 12) 3 = fk x /\ Nat.land ((fx x + 8) mod 12) 3 = fk x).
    { rewrite <- (fo_xk _ _ _ Hx). set (v := fx x) in *. clearbody v. clear -V. versions v; split; reflexivity. }
    destruct (matched_next _ _ _ _ _ _ _ _ _ _ M) as (M1 & M2). three r; cbn [sdest sorg sthird].
    - exists (fx x). split; [auto|]. split; [apply (fo_xk _ _ _ Hx)|]. split; [eapply Q; eauto|apply (mt_c _ _ _ _ _ _ _ _ _ _ M)].
    - exists ((fx x + 4) mod 12). split; [apply mod12|]. split; [tauto|]. split; [eapply Q; eauto|apply (mt_c _ _ _ _ _ _ _ _ _ _ M1)].
    - exists ((fx x + 8) mod 12). split; [apply mod12|]. split; [tauto|]. split; [eapply Q; eauto|apply (mt_c _ _ _ _ _ _ _ _ _ _ M2)].
  Qed.
  Lemma slot_ne x r : face_ok m cave x -> sorg x r <> sdest x r.
  Proof.
    intros Hx. pose proof (fo_nd _ _ _ Hx) as ND. rewrite !NoDup_cons_iff in ND. cbn in ND. destruct r as [|[|r]]; cbn; intuition.
  Qed.
  Lemma slot_unique j j' x x' r r' : nth_error F j = Some x -> nth_error F j' = Some x' -> r < 3 -> r' < 3 ->
    sorg x r = sorg x' r' -> sdest x r = sdest x' r' -> j = j' /\ r = r'.
  Proof.
    intros H H' Hr Hr' Eo Ed. pose proof (F_ok _ _ H) as Hx. pose proof (F_ok _ _ H') as Hx'.
    destruct (cav_version x r Hx Hr) as (v & V & Kv & B & C). destruct (cav_version x' r' Hx' Hr') as (v' & V' & Kv' & B' & C').
    rewrite <- Eo, <- Ed in C'. destruct (Si _ _ _ _ _ _ _ _ _ _ B B' C C') as (Ec & Ev).
    assert (Ej : j = j') by (eapply F_inj; eauto; unfold bf; congruence). split; auto. subst j'. rewrite H in H'. inversion H'; subst x'.
    pose proof (fo_nd _ _ _ Hx) as ND. rewrite !NoDup_cons_iff in ND. cbn in ND.
    three r; three r'; cbn in Eo, Ed; try reflexivity; exfalso; intuition.
  Qed.
  Lemma partner_ex j x r : nth_error F j = Some x -> r < 3 -> exists j' x' r', nth_error F j' = Some x' /\ r' < 3 /\
    sorg x' r' = sdest x r /\ sdest x' r' = sorg x r.
  Proof.
    intros H Hr. pose proof (F_ok _ _ H) as Hx. destruct (cav_version x r Hx Hr) as (v & V & Kv & (_ & u & w & Fu & Nu) & C).
    assert (Lf : lv m (TF (Some (fc x)) v)) by (apply lv_intro; auto; eapply cv_live; eauto; apply (fo_c _ _ _ Hx)).
    destruct (edge_match m G R (fun t => in_dec Nat.eq_dec t cave) _ _ _ _ _ _ Lf (fo_c _ _ _ Hx) Fu Nu C) as (f' & g' & c' & d' & Lf' & Rf' & Fg & Ng & C').
    destruct Lf' as (t' & Et' & Lt' & V'). destruct f' as [ft v']. cbn in Et', V', Rf'. subst ft. unfold tid in Rf'. cbn in Rf'.
    assert (Hb : In (TF (Some t') (Nat.land v' 3)) bdry).
    { apply (cv_b _ _ _ _ _ _ _ _ Cv). split; auto. split; [apply face_lt, V'|]. exists (tid g'). split; auto.
      unfold fsym in Fg. cbn [tet ver] in Fg. destruct (nei_at m (Some t') (Nat.land v' 3)) as [h|] eqn:En; [|discriminate].
      exists h. split; auto. destruct (look2 FSYM_TBL v' (ver h)); [|discriminate]. inversion Fg; subst g'. unfold tid. cbn [tet].
      destruct (nei_ver_lt m G t' _ h Lt' En) as (_ & _ & uu & Eu & _). now rewrite Eu. }
    rewrite <- EF in Hb. apply in_map_iff in Hb. destruct Hb as (x' & Ex' & Hx'). unfold bf in Ex'. inversion Ex' as [[Ec Ek]].
    apply In_nth_error in Hx'. destruct Hx' as (j' & Hj'). pose proof (F_ok _ _ Hj') as Ox'.
    pose proof (fo_m _ _ _ Ox') as M. rewrite Ec in M. rewrite <- (fo_xk _ _ _ Ox') in Ek.
    destruct (matched_turn _ _ _ _ _ _ _ _ _ _ v' M V' (eq_sym Ek)) as (w' & a' & b' & cc & M' & _ & Perm).
    destruct (corners_fun _ _ _ _ _ _ _ _ _ _ C' (mt_c _ _ _ _ _ _ _ _ _ _ M')) as (-> & -> & _).
    destruct Perm as [(E1 & E2 & _)|[(E1 & E2 & _)|(E1 & E2 & _)]];
      [exists j', x', 0|exists j', x', 1|exists j', x', 2]; (split; [auto|]; split; [lia|]); cbn; auto.
  Qed.
  Lemma fm_partner j x r j' x' r' : nth_error F j = Some x -> nth_error F j' = Some x' -> r < 3 -> r' < 3 ->
    sorg x' r' = sdest x r -> sdest x' r' = sorg x r ->
    fm_get (table_of L F []) (sorg x r, sdest x r) = Some (TF (Some (L + j')) (sver r')).
  Proof.
    intros H H' Hr Hr' Eo Ed. unfold fm_get. cbn [fst snd].
    destruct (find _ _) as [e|] eqn:E.
    - apply find_some in E. destruct E as (I & E). rewrite andb_true_iff, !Nat.eqb_eq in E. destruct E as (E1 & E2).
      apply table_in in I. destruct I as [[]|(i & y & Hi & Hy)]. apply entries_in in Hy. destruct Hy as (q & Hq & ->). cbn in E1, E2 |- *.
      destruct (slot_unique i j' y x' q r' Hi H' Hq Hr') as (-> & ->); auto; congruence.
    - exfalso. pose proof (find_none _ _ E ((sdest x' r', sorg x' r'), TF (Some (L + j')) (sver r'))) as X. cbn in X.
      rewrite Eo, Ed, !Nat.eqb_refl in X. discriminate X. apply table_in. right. exists j', x'. split; auto. apply entries_in. exists r'.
      split; auto. congruence.
  Qed.

  Variables (m2 : tetmesh) (P2 : list (option nat)).
  Hypothesis Fi : finv m pid cave F [] m2.

  Definition lk (M : tetmesh) (j r j' r' : nat) : Prop := exists z, nei_at M (Some (L + j)) (sface r) = Some (TF (Some (L + j')) z) /\
    look2 FSYM_TBL (sver r) z = Some (sver r').
  Definition free (M : tetmesh) (j r : nat) : Prop := nei_at M (Some (L + j)) (sface r) = Some tf0.
  Record cinv (M : tetmesh) : Prop := Cinv {
    ci_n : n_points M = n_points m2; ci_p : p2t M = P2; ci_l : length (tets M) = length (tets m2);
    ci_d : forall t, dat M t = dat m2 t; ci_m : forall t, msk M t = msk m2 t; ci_ln : forall t, nln M t = nln m2 t;
    ci_nei : forall t k, (forall j r, j < length F -> r < 3 -> (t, k) <> (L + j, sface r)) -> nei_at M (Some t) k = nei_at m2 (Some t) k;
    ci_slot : forall j x r j' x' r', nth_error F j = Some x -> nth_error F j' = Some x' -> r < 3 -> r' < 3 ->
      sorg x' r' = sdest x r -> sdest x' r' = sorg x r -> (free M j r /\ free M j' r') \/ (lk M j r j' r' /\ lk M j' r' j r) }.
  Lemma cinv_start M : n_points M = n_points m2 -> p2t M = P2 -> tets M = tets m2 -> cinv M.
  Proof.
    intros En Ep E. constructor; auto; unfold dat, msk, nln, nei_at, tet_at, free, nei_at, tet_at; rewrite ?E; auto.
    intros j x r j' x' r' H H' Hr Hr' _ _. left.
    assert (Q : forall j x r, nth_error F j = Some x -> nei_at m2 (Some (L + j)) (sface r) = Some tf0).
    { intros i y q Hi. apply (fi_free _ _ _ _ _ _ Fi); [apply nth_error_Some; congruence|apply sface_lt|apply sface_ne2]. }
    split; [apply (Q j x r H)|apply (Q j' x' r' H')].
  Qed.
  Lemma corners_new M j x r : cinv M -> nth_error F j = Some x -> r < 3 ->
    corners M (TF (Some (L + j)) (sver r)) (sorg x r) (sdest x r) pid (sthird x r).
  Proof.
    intros Ci H Hr. apply corners_dat. exists [f1 x; f0 x; pid; f2 x]. rewrite (ci_d _ Ci), (fi_new _ _ _ _ _ _ Fi _ _ H).
    three r; cbn; repeat split; lia.
  Qed.

  Lemma connect_ok M j x r : cinv M -> nth_error F j = Some x -> r < 3 -> exists M',
    connect M (table_of L F []) (Some (L + j)) (sver r) (srow r) (scol r) = Some M' /\ cinv M' /\ ~ free M' j r /\
    (forall i q, i < length F -> q < 3 -> ~ free M i q -> ~ free M' i q).
  Proof.
    intros Ci H Hr. destruct (partner_ex j x r H Hr) as (j' & x' & r' & H' & Hr' & Eo & Ed).
    unfold connect. change (Nat.land (sver r) 3) with (sface r).
    destruct (ci_slot _ Ci _ _ _ _ _ _ H H' Hr Hr' Eo Ed) as [(Fr & Fr')|((z & Lk & _) & _)].
    - unfold free in Fr. rewrite Fr. cbn [tet tf0]. destruct (corners_new M j x r Ci H Hr) as (-> & -> & _).
      rewrite (fm_partner _ _ _ _ _ _ H H' Hr Hr' Eo Ed). cbn [ver tet].
      destruct (slot_tables r r' Hr Hr') as (z & c & T1 & T2 & T3 & T4). rewrite T1, T3.
      assert (Lj : j < length F) by (apply nth_error_Some; congruence). assert (Lj' : j' < length F) by (apply nth_error_Some; congruence).
      destruct (set_nei_view M (L + j) (sface r) (TF (Some (L + j')) z)) as (M1 & E1 & V1).
      { rewrite (ci_ln _ Ci). apply (fi_nln _ _ _ _ _ _ Fi). lia. } { apply sface_lt. }
      rewrite E1. change (Nat.land (sver r') 3) with (sface r').
      destruct (set_nei_view M1 (L + j') (sface r') (TF (Some (L + j)) c)) as (M2 & E2 & V2).
      { rewrite (on_ln _ _ _ _ _ V1), (ci_ln _ Ci). apply (fi_nln _ _ _ _ _ _ Fi). lia. } { apply sface_lt. }
      rewrite E2. exists M2. split; [reflexivity|].
      assert (Ne : (L + j, sface r) <> (L + j', sface r')).
      { intros X. inversion X as [[X1 X2]]. assert (j = j') by lia. subst j'. apply sface_inj in X2; auto. subst r'.
        rewrite H in H'. inversion H'; subst x'. apply (slot_ne x r (F_ok _ _ H)). congruence. }
      assert (N1 : nei_at M2 (Some (L + j)) (sface r) = Some (TF (Some (L + j')) z)) by (rewrite (on_neq _ _ _ _ _ V2) by exact Ne; apply (on_eq _ _ _ _ _ V1)).
      assert (N2 : nei_at M2 (Some (L + j')) (sface r') = Some (TF (Some (L + j)) c)) by apply (on_eq _ _ _ _ _ V2).
      assert (N3 : forall t k, (t, k) <> (L + j, sface r) -> (t, k) <> (L + j', sface r') -> nei_at M2 (Some t) k = nei_at M (Some t) k).
      { intros t k A B. rewrite (on_neq _ _ _ _ _ V2), (on_neq _ _ _ _ _ V1) by auto. reflexivity. }
      assert (K1 : lk M2 j r j' r') by (exists z; auto). assert (K2 : lk M2 j' r' j r) by (exists c; auto).
      split; [|split].
      + constructor.
        * rewrite (on_n _ _ _ _ _ V2), (on_n _ _ _ _ _ V1). apply (ci_n _ Ci).
        * rewrite (on_p _ _ _ _ _ V2), (on_p _ _ _ _ _ V1). apply (ci_p _ Ci).
        * rewrite (on_l _ _ _ _ _ V2), (on_l _ _ _ _ _ V1). apply (ci_l _ Ci).
        * intros t. rewrite (on_d _ _ _ _ _ V2), (on_d _ _ _ _ _ V1). apply (ci_d _ Ci).
        * intros t. rewrite (on_m _ _ _ _ _ V2), (on_m _ _ _ _ _ V1). apply (ci_m _ Ci).
        * intros t. rewrite (on_ln _ _ _ _ _ V2), (on_ln _ _ _ _ _ V1). apply (ci_ln _ Ci).
        * intros t k Hn. rewrite N3; [apply (ci_nei _ Ci), Hn|apply Hn; auto|apply Hn; auto].
        * intros i y q i' y' q' Hi Hi' Hq Hq' Go Gd.
          assert (Dec : (i = j /\ q = r) \/ (i = j' /\ q = r') \/ ((L + i, sface q) <> (L + j, sface r) /\ (L + i, sface q) <> (L + j', sface r'))).
          { destruct (Nat.eq_dec i j) as [A|A]; [destruct (Nat.eq_dec q r) as [B|B]; [auto|]|];
            (destruct (Nat.eq_dec i j') as [A'|A']; [destruct (Nat.eq_dec q r') as [B'|B']; [auto|]|]);
            right; right; split; intros X; inversion X as [[X1 X2]]; try apply sface_inj in X2; auto; lia. }
          destruct Dec as [(-> & ->)|[(-> & ->)|(D1 & D2)]].
          -- rewrite H in Hi. inversion Hi; subst y. destruct (slot_unique i' j' y' x' q' r' Hi' H') as (-> & ->); auto; congruence.
          -- rewrite H' in Hi. inversion Hi; subst y. destruct (slot_unique i' j y' x q' r Hi' H) as (-> & ->); auto; congruence.
          -- assert (D3 : (L + i', sface q') <> (L + j, sface r)).
             { intros X. inversion X as [[X1 X2]]. apply sface_inj in X2; auto. assert (i' = j) by lia. subst i' q'.
               rewrite H in Hi'. inversion Hi'; subst y'. apply D2. destruct (slot_unique i j' y x' q r' Hi H') as (-> & ->); auto; congruence. }
             assert (D4 : (L + i', sface q') <> (L + j', sface r')).
             { intros X. inversion X as [[X1 X2]]. apply sface_inj in X2; auto. assert (i' = j') by lia. subst i' q'.
               rewrite H' in Hi'. inversion Hi'; subst y'. apply D1. destruct (slot_unique i j y x q r Hi H) as (-> & ->); auto; congruence. }
             unfold free, lk. rewrite !N3 by auto. exact (ci_slot _ Ci _ _ _ _ _ _ Hi Hi' Hq Hq' Go Gd).
      + unfold free. rewrite N1. discriminate.
      + intros i q Li Hq Nf. unfold free in *.
        destruct (Nat.eq_dec (L + i) (L + j)) as [A|A]; [destruct (Nat.eq_dec (sface q) (sface r)) as [B|B]; [rewrite A, B, N1; discriminate|]|];
        (destruct (Nat.eq_dec (L + i) (L + j')) as [A'|A']; [destruct (Nat.eq_dec (sface q) (sface r')) as [B'|B']; [rewrite A', B', N2; discriminate|]|]);
        rewrite N3; auto; congruence.
    - rewrite Lk. cbn [tet]. exists M. split; [reflexivity|]. split; auto. split; auto. unfold free. rewrite Lk. discriminate.
  Qed.
  Lemma connect_all_ok : forall k n M, cinv M -> n + k = length F -> (forall i q, i < n -> q < 3 -> ~ free M i q) ->
    exists M', connect_all M (table_of L F []) (news m n k) = Some M' /\ cinv M' /\ forall i q, i < length F -> q < 3 -> ~ free M' i q.
  Proof.
    induction k as [|k IH]; intros n M Ci E Hf.
    - exists M. cbn. split; [reflexivity|]. split; auto. intros i q Hi. apply Hf. lia.
    - unfold news. cbn [seq map connect_all tet]. destruct (nth_error_ex F n ltac:(lia)) as (x & Hx).
      destruct (connect_ok M n x 0 Ci Hx ltac:(lia)) as (M1 & E1 & C1 & N1 & K1).
      destruct (connect_ok M1 n x 1 C1 Hx ltac:(lia)) as (M2 & E2 & C2 & N2 & K2).
      destruct (connect_ok M2 n x 2 C2 Hx ltac:(lia)) as (M3 & E3 & C3 & N3 & K3).
      cbn [sver srow scol] in E1, E2, E3. rewrite E1, E2, E3. apply (IH (S n)); auto; [lia|].
      intros i q Hi Hq. destruct (Nat.eq_dec i n) as [->|Ne].
      + three q; [apply K3, K2|apply K3|]; auto; lia.
      + apply K3, K2, K1; try lia. apply Hf; auto. lia.
  Qed.
End Connect.
