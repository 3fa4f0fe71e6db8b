(** Computing whether a run of insertions is regular, used for the examples; and
    the large cavities. *)
From Coq Require Import List Arith Bool NArith ZArith Lia FinFun.
From Verif Require Import Lib Tet TetSpec TetProofs BwSpec BwBase BwGrow BwFill BwConnect BwInsert BwFinish.
Import ListNotations.
Local Open Scope opt_scope.

Definition mem (t : nat) (l : list nat) : bool := existsb (Nat.eqb t) l.
Lemma mem_in t l : mem t l = true <-> In t l.
Proof. unfold mem. rewrite existsb_exists. split; [intros (x & H & E); apply Nat.eqb_eq in E; now subst|]. intros H. exists t. split; auto. apply Nat.eqb_refl. Qed.
Definition borderb (m : tetmesh) (cave : list nat) (t v : nat) : bool :=
  match fsym m (TF (Some t) v) with Some (TF (Some u) _) => mem t cave && negb (mem u cave) | _ => false end.
Lemma borderb_ok m cave t v : borderb m cave t v = true <-> border m (fun u => In u cave) t v.
Proof.
  unfold borderb, border. split.
  - destruct (fsym m (TF (Some t) v)) as [[[u|] w]|]; try discriminate. intros H. apply andb_prop in H. destruct H as (A & B).
    split; [now apply mem_in|]. exists u, w. split; auto. rewrite <- mem_in. apply negb_true_iff in B. congruence.
  - intros (A & u & w & -> & N). apply mem_in in A. rewrite A. cbn. rewrite negb_true_iff. destruct (mem u cave) eqn:E; auto. exfalso. apply N, mem_in, E.
Qed.
Definition faces (m : tetmesh) (cave : list nat) : list (nat * nat) :=
  filter (fun x => borderb m cave (fst x) (snd x)) (list_prod cave (seq 0 12)).
Lemma faces_in m cave t v : v < 12 -> border m (fun u => In u cave) t v -> In (t, v) (faces m cave).
Proof.
  intros V B. unfold faces. apply filter_In. split; [|now apply borderb_ok]. apply in_prod; [apply B|]. apply in_seq. lia.
Qed.
Definition ends (m : tetmesh) (x : nat * nat) : option (nat * nat) :=
  a <- org m (TF (Some (fst x)) (snd x)) ;; b <- dest m (TF (Some (fst x)) (snd x)) ;; Some (a, b).
Definition same (x y : option (nat * nat)) : bool :=
  match x, y with Some (a, b), Some (c, d) => (a =? c) && (b =? d) | _, _ => false end.
Definition simpleb (m : tetmesh) (cave : list nat) : bool :=
  forallb (fun x => forallb (fun y => negb (same (ends m x) (ends m y)) || ((fst x =? fst y) && (snd x =? snd y))) (faces m cave)) (faces m cave).
Lemma simpleb_ok m cave : simpleb m cave = true -> simple m (fun u => In u cave).
Proof.
  intros H t v t' v' a b c d c' d' B B' C C'. pose proof (corners_ver _ _ _ _ _ _ C) as V. pose proof (corners_ver _ _ _ _ _ _ C') as V'. cbn in V, V'.
  unfold simpleb in H. rewrite forallb_forall in H. specialize (H _ (faces_in m cave t v V B)). rewrite forallb_forall in H. specialize (H _ (faces_in m cave t' v' V' B')).
  destruct C as (E1 & E2 & _). destruct C' as (E1' & E2' & _). unfold ends in H. cbn [fst snd] in H. rewrite E1, E2, E1', E2' in H. cbn in H.
  rewrite !Nat.eqb_refl in H. cbn in H. apply andb_prop in H. rewrite !Nat.eqb_eq in H. exact H.
Qed.
Definition full (m : tetmesh) (p : nat) (x : nat * nat) : bool :=
  let f := TF (Some (fst x)) (snd x) in
  match org m f, dest m f, apex m f, oppo m f with Some a, Some _, Some _, Some _ => a =? p | _, _, _, _ => false end.
Definition exposedb (m : tetmesh) (cave : list nat) : bool :=
  forallb (fun t => match nth_error (tets m) t with
    | Some x => forallb (fun p => existsb (full m p) (faces m cave)) (data x) | None => true end) cave.
Lemma exposedb_ok m cave : exposedb m cave = true -> exposed m (fun u => In u cave).
Proof.
  intros H t x p Ht Hx Hp. unfold exposedb in H. rewrite forallb_forall in H. specialize (H t Ht). rewrite Hx, forallb_forall in H. specialize (H p Hp).
  apply existsb_exists in H. destruct H as ((t' & v) & Hf & F). unfold faces in Hf. apply filter_In in Hf. cbn [fst snd] in Hf. destruct Hf as (_ & B).
  apply borderb_ok in B. unfold full in F. cbn [fst snd] in F. exists t', v.
  destruct (org m (TF (Some t') v)) as [a|] eqn:E1; [|discriminate]. destruct (dest m (TF (Some t') v)) as [b|] eqn:E2; [|discriminate].
  destruct (apex m (TF (Some t') v)) as [c|] eqn:E3; [|discriminate]. destruct (oppo m (TF (Some t') v)) as [d|] eqn:E4; [|discriminate].
  apply Nat.eqb_eq in F. subst a. exists b, c, d. split; auto. unfold corners. auto.
Qed.

Fixpoint regularb (o3 : sign3) (isp : sign4) (fuel : nat) (m : tetmesh) (s : triface) (l : list nat) : bool :=
  match l with
  | [] => true
  | p :: l' =>
    match locate_dt o3 m p s fuel with
    | Some (loc, s0) =>
      match seed_cavity m loc s0 with
      | Some (m1, cave0) =>
        match grow o3 isp m1 p 0 cave0 [] (S (length (tets m1))) with
        | Some (_, cave, bdry) =>
          simpleb m cave && exposedb m cave && (length bdry <? 2044) &&
          match insert_vertex_bw o3 isp m p s fuel with Some (m', s', true) => regularb o3 isp fuel m' s' l' | _ => false end
        | None => false end
      | None => false end
    | None => false end
  end.
Lemma cavity_list o3 isp m p loc s m1 cave0 m0 cave bdry : good m -> lv m s ->
  seed_cavity m loc s = Some (m1, cave0) -> grow o3 isp m1 p 0 cave0 [] (S (length (tets m1))) = Some (m0, cave, bdry) ->
  loc <> ONVERTEX /\ (forall t, In t cave <-> cavity_of o3 isp m p loc s t) /\ cavity m o3 isp p (seed m loc s) m0 cave bdry.
Proof.
  intros G Ls E1 E2. assert (NV : loc <> ONVERTEX) by (intros ->; discriminate). split; auto.
  destruct (cavity_ok m o3 isp p G (seed m loc s) loc s Ls NV ltac:(tauto)) as (m1' & cave0' & m0' & cave' & bdry' & E1' & E2' & Cv).
  rewrite E1 in E1'. inversion E1'; subst. rewrite E2 in E2'. inversion E2'; subst. split; auto.
  intros t. rewrite (cv_reg _ _ _ _ _ _ _ _ Cv). unfold cavity_of. split; apply region_ext; try tauto; intros u; [symmetry|]; apply conflicts_iff.
Qed.
Lemma regularb_ok o3 isp fuel l : forall m s, good m -> (exists t, tet s = Some t /\ live m t) -> NoDup l ->
  (forall p, In p l -> p < n_points m /\ nth_error (p2t m) p = Some None) ->
  regularb o3 isp fuel m s l = true -> regular o3 isp fuel m s l.
Proof.
  induction l as [|p l IH]; intros m s G (t & Ts & Lt) ND Hl H; [constructor|]. cbn [regularb] in H.
  destruct (locate_dt o3 m p s fuel) as [[loc s0]|] eqn:Loc; [|discriminate].
  destruct (seed_cavity m loc s0) as [[m1 cave0]|] eqn:E1; [|discriminate].
  destruct (grow o3 isp m1 p 0 cave0 [] (S (length (tets m1)))) as [[[m0 cave] bdry]|] eqn:E2; [|discriminate].
  rewrite !andb_true_iff in H. destruct H as (((H1 & H2) & H3) & H4). apply simpleb_ok in H1. apply exposedb_ok in H2. apply Nat.ltb_lt in H3.
  destruct s as [st v]. cbn in Ts. subst st. pose proof (locate_lv o3 m p G t v fuel loc s0 Lt Loc) as Ls.
  destruct (cavity_list o3 isp m p loc s0 m1 cave0 m0 cave bdry G Ls E1 E2) as (NV & ER & Cv).
  assert (BE : forall t v, border m (fun u => In u cave) t v <-> border m (cavity_of o3 isp m p loc s0) t v).
  { intros t1 v1. unfold border. rewrite ER. split; intros (A & u & w & F & N); (split; [exact A|]); exists u, w; (split; [exact F|]); [rewrite <- ER|rewrite ER]; exact N. }
  rewrite NoDup_cons_iff in ND. destruct ND as (Np & ND). destruct (Hl p (or_introl eq_refl)) as (Pp & Fp).
  assert (Si : simple m (cavity_of o3 isp m p loc s0)).
  { intros t1 v1 t' v' a b c d c' d' B B'. apply H1; now apply BE. }
  assert (Ex : exposed m (cavity_of o3 isp m p loc s0)).
  { intros t1 x q Ht Hx Hq. apply ER in Ht. destruct (H2 t1 x q Ht Hx Hq) as (t' & v' & b & c & d & B & C). exists t', v', b, c, d. split; auto. now apply BE. }
  assert (Bd : forall B, NoDup B -> (forall t k, In (t, k) B -> k < 4 /\ border m (cavity_of o3 isp m p loc s0) t k) -> length B < 2044).
  { intros B NB HB. eapply Nat.le_lt_trans; [|exact H3]. rewrite <- (map_length (fun x => TF (Some (fst x)) (snd x)) B).
    apply NoDup_incl_length.
    - apply Injective_map_NoDup; auto. intros [a b] [c d] E. cbn in E. congruence.
    - intros f Hf. apply in_map_iff in Hf. destruct Hf as ((t1 & k) & <- & Hb). destruct (HB t1 k Hb) as (K & B1). apply BE in B1. cbn [fst snd].
      destruct B1 as (It & u & w & Fu & Nu). apply (cv_b _ _ _ _ _ _ _ _ Cv). split; auto. split; auto. exists u. split; auto.
      unfold fsym in Fu. cbn [tet ver] in Fu. rewrite (land4 k K) in Fu. destruct (nei_at m (Some t1) k) as [g|] eqn:En; [|discriminate].
      exists g. split; auto. destruct (look2 FSYM_TBL k (ver g)); [|discriminate]. inversion Fu. auto. }
  econstructor; eauto. intros m' s' E. rewrite E in H4.
  destruct (insert_ok 1024 o3 isp m p t v fuel loc s0 G Pp Fp Lt Loc NV Si Ex) as (B & NB & HB & Hins).
  assert (LB : length B < 2044) by (apply Bd; auto; intros; apply HB; auto).
  destruct Hins as (m2 & s2 & E' & I). { apply Nat.div_lt_upper_bound; lia. }
  unfold insert_vertex_bw in E. rewrite E in E'. inversion E'; subst m2 s2.
  destruct (in_search _ _ _ _ _ _ I) as (t1 & Ts1 & Lt1). apply IH; auto.
  - apply (in_good _ _ _ _ _ _ I).
  - exists t1. split; auto. apply (in_live _ _ _ _ _ _ I). auto.
  - intros q Hq. rewrite (in_points _ _ _ _ _ _ I). destruct (Hl q (or_intror Hq)). split; auto. apply (in_others _ _ _ _ _ _ I); auto. congruence.
Qed.

(** * Large cavities *)
Lemma kill_all_inv l : forall m m', kill_all m l = Some m' -> p2t m' = p2t m /\ (forall t, msk m t = Some ones -> msk m' t = Some ones) /\ forall t, In t l -> msk m' t = Some ones.
Proof.
  induction l as [|a l IH]; intros m m' H; cbn [kill_all] in H; [inversion H; subst; split; auto; split; [auto|intros t []]|].
  destruct (set_mask (fun _ => ones) m (Some a)) as [m1|] eqn:E; [|discriminate].
  assert (K : exists k, msk m a = Some k).
  { unfold set_mask, on_tet in E. destruct (nth_error (tets m) a) as [x|] eqn:Ex; [|discriminate]. unfold msk. rewrite Ex. cbn. eauto. }
  destruct K as (k & Ek). destruct (set_mask_view (fun _ => ones) m a k Ek) as (m1' & E' & V). rewrite E in E'. inversion E'; subst m1'.
  destruct (IH m1 m' H) as (A & B & C). split; [rewrite A; apply (om_p _ _ _ _ V)|].
  assert (St : forall t, msk m t = Some ones -> msk m1 t = Some ones).
  { intros t Ht. destruct (Nat.eq_dec t a) as [->|Ne]; [apply (om_eq _ _ _ _ V)|]. now rewrite (om_neq _ _ _ _ V). }
  split; [auto|]. intros t [<-|Ht]; auto. apply B, (om_eq _ _ _ _ V).
Qed.
Lemma set_nei_p2t m t k g m' : set_nei m t k g = Some m' -> p2t m' = p2t m.
Proof.
  unfold set_nei, on_tet. destruct t as [t|]; [|discriminate]. destruct (nth_error (tets m) t) as [x|]; [|discriminate].
  destruct (set (nei x) k g); [|discriminate]. destruct (set (tets m) t _); [|discriminate]. intros H. inversion H. reflexivity.
Qed.
Lemma bond_p2t m f g m' : bond m f g = Some m' -> p2t m' = p2t m.
Proof.
  unfold bond. destruct (look2 BOND_TBL (ver f) (ver g)); [|discriminate]. destruct (set_nei m _ _ _) as [m1|] eqn:E; [|discriminate].
  destruct (look2 BOND_TBL (ver g) (ver f)); [|discriminate]. intros H. apply set_nei_p2t in H, E. congruence.
Qed.
Lemma connect_large_p2t k : forall m f g m', connect_large m f g k = Some m' -> p2t m' = p2t m.
Proof.
  induction k as [|k IH]; intros m f g m' H; cbn [connect_large] in H; [now inversion H|].
  destruct (esym f) as [nt|]; [|discriminate]. destruct (nei_at m (tet nt) _) as [nf|]; [|discriminate].
  match type of H with (match ?e with Some _ => _ | None => _ end = _) => destruct e as [m1|] eqn:E; [|discriminate] end.
  destruct (enext f); [|discriminate]. destruct (enext g); [|discriminate]. apply IH in H. rewrite H.
  destruct (tet nf); [inversion E; reflexivity|]. destruct (spin_out m g _) as [s|]; [|discriminate]. destruct (fsym m s) as [nn|]; [|discriminate].
  destruct (esym nn); [|discriminate]. eapply bond_p2t; eauto.
Qed.
Lemma connect_all_large_p2t l : forall m m', connect_all_large m l = Some m' -> p2t m' = p2t m.
Proof.
  induction l as [|f l IH]; intros m m' H; cbn [connect_all_large] in H; [now inversion H|].
  destruct (fsym m f) as [nt|]; [|discriminate]. destruct (fsym m nt) as [nw|]; [|discriminate].
  destruct (connect_large m nw f 3) as [m1|] eqn:E; [|discriminate]. apply IH in H. apply connect_large_p2t in E. congruence.
Qed.
Lemma large_dead limit o3 isp m p t0 v0 fuel loc s m' s' : good m -> live m t0 ->
  locate_dt o3 m p (TF (Some t0) v0) fuel = Some (loc, s) ->
  insert_vertex limit o3 isp m p (TF (Some t0) v0) fuel = Some (m', s', true) ->
  exists B, NoDup B /\ (forall t k, In (t, k) B <-> k < 4 /\ border m (cavity_of o3 isp m p loc s) t k) /\
    (limit <= (length B + 4) / 2 ->
     exists t, tet s' = Some t /\ cavity_of o3 isp m p loc s t /\ nth_error (p2t m') p = Some (Some t) /\ ~ live m' t /\ ~ good m').
Proof.
  intros G Lt Loc H. pose proof (locate_lv o3 m p G t0 v0 fuel loc s Lt Loc) as Ls. unfold insert_vertex in H. rewrite Loc in H.
  assert (NV : loc <> ONVERTEX) by (intros ->; discriminate).
  destruct (cavity_ok m o3 isp p G (seed m loc s) loc s Ls NV ltac:(tauto)) as (m1 & cave0 & m0 & cave & bdry & E1 & E2 & _).
  destruct (cavity_list o3 isp m p loc s m1 cave0 m0 cave bdry G Ls E1 E2) as (_ & ER & Cv). rewrite E1, E2 in H.
  exists (map (fun f => (tid f, ver f)) bdry).
  assert (BB : forall t k, In (t, k) (map (fun f => (tid f, ver f)) bdry) <-> In (TF (Some t) k) bdry).
  { intros t k. rewrite in_map_iff. split; [intros (f & E & Hf)|intros Hf; exists (TF (Some t) k); auto].
    destruct (cv_some _ _ _ _ _ _ _ _ Cv f Hf) as (c & k' & ->). cbn in E. inversion E; subst. exact Hf. }
  split; [|split].
  - assert (X : forall l, NoDup l -> (forall f, In f l -> exists c k, f = TF (Some c) k) -> NoDup (map (fun f => (tid f, ver f)) l)).
    { induction l as [|f l IHl]; intros ND Hs; [constructor|]. rewrite NoDup_cons_iff in ND. destruct ND as (N & ND). cbn. constructor; [|apply IHl; auto; intros; apply Hs; now right].
      intros C. apply in_map_iff in C. destruct C as (g & E & Hg). apply N.
      destruct (Hs f (or_introl eq_refl)) as (c & k & ->). destruct (Hs g (or_intror Hg)) as (c' & k' & ->). cbn in E. inversion E; subst. exact Hg. }
    apply X; [apply (cv_bnd _ _ _ _ _ _ _ _ Cv)|apply (cv_some _ _ _ _ _ _ _ _ Cv)].
  - intros t k. rewrite BB, (cv_b _ _ _ _ _ _ _ _ Cv). split.
    + intros (It & K & u & (g & En & Tg) & Nu). split; auto. split; [now apply ER|]. exists u, (ver g). split; [|rewrite <- ER; auto].
      destruct (nei_ver_lt m G t k g (cv_live _ _ _ _ _ _ _ _ Cv t It) En) as (_ & Vg & _).
      unfold fsym. cbn [tet ver]. rewrite (land4 k K), En, (fsym_low k g K Vg), Tg. reflexivity.
    + intros (K & Rt & u & w & Fu & Nu). split; [now apply ER|]. split; auto. exists u. split; [|rewrite ER; auto].
      unfold fsym in Fu. cbn [tet ver] in Fu. rewrite (land4 k K) in Fu. destruct (nei_at m (Some t) k) as [g|] eqn:En; [|discriminate].
      exists g. split; auto. destruct (look2 FSYM_TBL k (ver g)); [|discriminate]. inversion Fu. auto.
  - rewrite map_length. intros Lim. assert (Lf : ((length bdry + 4) / 2 <? limit) = false) by (apply Nat.ltb_ge; exact Lim).
    rewrite Lf in H.
    assert (Q : exists m2 s2 p2 m4 m5, fill_large m0 p bdry = Some m2 /\ nth_error bdry (length bdry / 2) = Some s2 /\ set (p2t m2) p (tet s2) = Some p2 /\
      connect_all_large (set_p2t m2 p2) bdry = Some m4 /\ kill_all m4 cave = Some m5 /\ m' = m5 /\ s' = s2).
    { clear -H NV. assert (H' : (m <- fill_large m0 p bdry ;; s <- nth_error bdry (length bdry / 2) ;; p <- set (p2t m) p (tet s) ;;
        (let m := set_p2t m p in m <- connect_all_large m bdry ;; m <- kill_all m cave ;; Some (m, s, true))) = Some (m', s', true)) by (destruct loc; auto; discriminate).
      clear H. destruct (fill_large m0 p bdry) as [m2|]; [|discriminate]. destruct (nth_error bdry (length bdry / 2)) as [s2|]; [|discriminate].
      destruct (set (p2t m2) p (tet s2)) as [p2|] eqn:Es; [|discriminate]. cbv zeta in H'. destruct (connect_all_large (set_p2t m2 p2) bdry) as [m4|] eqn:Ec; [|discriminate].
      destruct (kill_all m4 cave) as [m5|] eqn:Ek; [|discriminate]. inversion H'; subst. exists m2, s', p2, m4, m'. auto 10. }
    destruct Q as (m2 & s2 & p2 & m4 & m5 & _ & En & Es & Ec & Ek & -> & ->).
    apply nth_error_In in En. destruct (cv_some _ _ _ _ _ _ _ _ Cv s2 En) as (t & k & ->). exists t. apply (cv_b _ _ _ _ _ _ _ _ Cv) in En. destruct En as (It & _).
    split; [reflexivity|]. split; [now apply ER|]. apply kill_all_inv in Ek. destruct Ek as (Ep & _ & Ek). apply connect_all_large_p2t in Ec.
    assert (Pt : nth_error (p2t m5) p = Some (Some t)).
    { rewrite Ep, Ec. cbn. unfold set in Es. destruct (p <? length (p2t m2)) eqn:El; [|discriminate]. inversion Es. apply nth_error_upd_eq. now apply Nat.ltb_lt. }
    split; auto. assert (Nl : ~ live m5 t) by (rewrite live_msk, (Ek t It); discriminate). split; auto. intros G5. apply Nl, (g_stored m5 G5 p t Pt).
Qed.
