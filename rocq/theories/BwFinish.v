(** Insertion of all points, and the removal of the deleted tetrahedra. *)
From Coq Require Import List Arith Bool NArith ZArith Lia.
From Verif Require Import Lib Tet TetSpec TetProofs BwSpec BwBase BwGrow BwFill BwConnect BwInsert.
Import ListNotations.

(** * The first five tetrahedra *)
Lemma initial_good n pa pb pc pd : pa < n -> pb < n -> pc < n -> pd < n -> NoDup [pa; pb; pc; pd] ->
  exists m, initial_delaunay (empty_mesh n) pa pb pc pd = Some (m, TF (Some 0) 11) /\ good m /\ live m 0 /\ n_points m = n /\
    (forall p, p < n -> ~ In p [pa; pb; pc; pd] -> nth_error (p2t m) p = Some None) /\
    (forall p, In p [pa; pb; pc; pd] -> exists t, nth_error (p2t m) p = Some (Some t)).
Proof.
  intros A B C D ND. eexists. split; [apply initial_delaunay_ok; auto|].
  set (P := upd _ n (Some 1)).
  assert (LP : length P = n + 1) by (unfold P; rewrite !upd_length, repeat_length; reflexivity).
  assert (VP : forall p, p <= n -> nth_error P p = Some (if p =? n then Some 1 else if (p =? pd) || (p =? pc) || (p =? pb) || (p =? pa) then Some 0 else None)).
  { intros p Hp. unfold P. rewrite !nth_error_upd, !upd_length, repeat_length.
    replace (n <? n + 1) with true by (symmetry; apply Nat.ltb_lt; lia). replace (pa <? n + 1) with true by (symmetry; apply Nat.ltb_lt; lia).
    replace (pb <? n + 1) with true by (symmetry; apply Nat.ltb_lt; lia). replace (pc <? n + 1) with true by (symmetry; apply Nat.ltb_lt; lia).
    replace (pd <? n + 1) with true by (symmetry; apply Nat.ltb_lt; lia). rewrite !andb_true_r.
    rewrite (Nat.eqb_sym n p), (Nat.eqb_sym pd p), (Nat.eqb_sym pc p), (Nat.eqb_sym pb p), (Nat.eqb_sym pa p).
    destruct (p =? n); [reflexivity|]. destruct (p =? pd); [reflexivity|]. destruct (p =? pc); [reflexivity|]. destruct (p =? pb); [reflexivity|].
    destruct (p =? pa); [reflexivity|]. cbn. apply nth_error_repeat. lia. }
  set (m := TetMesh n (initial_list n pa pb pc pd) P).
  assert (Lv : forall t, t < 5 -> live m t).
  { intros t Ht. destruct t as [|[|[|[|[|t]]]]]; [..|lia]; (eexists; split; [reflexivity|reflexivity]). }
  assert (Dt : forall t x, nth_error (tets m) t = Some x -> t < 5).
  { intros t x H. change 5 with (length (tets m)). apply nth_error_Some. congruence. }
  assert (N : pa <> pb /\ pa <> pc /\ pa <> pd /\ pb <> pc /\ pb <> pd /\ pc <> pd) by (clear -ND; rewrite !NoDup_cons_iff in ND; cbn in ND; intuition).
  assert (Kn : forall p, In p [pa; pb; pc; pd; n] -> exists t, nth_error P p = Some (Some t)).
  { intros p Hp. assert (p <= n) by (cbn in Hp; intuition lia). rewrite VP by auto. destruct (p =? n) eqn:E; [eauto|]. apply Nat.eqb_neq in E.
    assert (Q : (p =? pd) || (p =? pc) || (p =? pb) || (p =? pa) = true).
    { rewrite !orb_true_iff, !Nat.eqb_eq. cbn in Hp. intuition (subst; auto). congruence. }
    rewrite Q. eauto. }
  split; [|split; [|split; [|split]]].
  - constructor.
    + intros t x H. destruct (Lv t (Dt t x H)) as (y & E & Z). rewrite H in E. inversion E; subst. auto.
    + intros t x H. pose proof (Dt t x H) as Lt. destruct t as [|[|[|[|[|t]]]]]; [..|lia]; inversion H; split; reflexivity.
    + intros t v Lt V. pose proof (live_lt m t Lt) as L5. cbn in L5.
      assert (Cn : exists a b c d, corners m (TF (Some t) v) a b c d /\ NoDup [a; b; c; d]).
      { destruct (nth_error_ex (initial_data n pa pb pc pd) t L5) as (l & El).
        assert (Dl : dat m t = Some l) by (destruct t as [|[|[|[|[|t]]]]]; [..|lia]; inversion El; reflexivity).
        assert (Hl : exists a b c d, l = [a; b; c; d] /\ NoDup [a; b; c; d]).
        { destruct t as [|[|[|[|[|t]]]]]; [..|lia]; inversion El; do 4 eexists; (split; [reflexivity|]);
            repeat (apply NoDup_cons; [cbn; intuition (subst; lia || congruence)|]); apply NoDup_nil. }
        destruct Hl as (a & b & c & d & -> & NDl).
        assert (Q : exists i j k o, look ORG_PIVOT v = Some i /\ look DEST_PIVOT v = Some j /\ look APEX_PIVOT v = Some k /\ look OPPO_PIVOT v = Some o /\
          In (i, j, k, o) [(3, 2, 1, 0); (3, 0, 2, 1); (1, 0, 3, 2); (1, 2, 0, 3); (2, 1, 3, 0); (0, 2, 3, 1); (0, 3, 1, 2); (2, 0, 1, 3); (1, 3, 2, 0); (2, 3, 0, 1); (3, 1, 0, 2); (0, 1, 2, 3)]).
        { clear -V. versions v; (do 4 eexists; do 4 (split; [reflexivity|])); cbn; auto 20. }
        destruct Q as (i & j & k & o & Q1 & Q2 & Q3 & Q4 & Q).
        exists (nth i [a; b; c; d] 0), (nth j [a; b; c; d] 0), (nth k [a; b; c; d] 0), (nth o [a; b; c; d] 0).
        split.
        - unfold corners, org, dest, apex, oppo. rewrite !pivot_dat, Dl, Q1, Q2, Q3, Q4.
          clear -Q. cbn in Q. repeat (destruct Q as [Q|Q]; [inversion Q; subst; cbn; repeat split|]). destruct Q.
        - clear -Q NDl. rewrite !NoDup_cons_iff in NDl. cbn in NDl.
          cbn in Q. repeat (destruct Q as [Q|Q]; [inversion Q; subst; cbn; rewrite !NoDup_cons_iff; cbn; intuition|]). destruct Q. }
      destruct Cn as (a & b & c & d & Cc & NDc).
      destruct (initial_consistent n pa pb pc pd P t v a b c d L5 V Cc) as (u & w & e & F & Lu & W & Bk & K).
      exists a, b, c, d, u, w, e. do 3 (split; [solve [auto]|]). split; [apply Lv; exact Lu|]. auto.
    + intros t x i p H Hp. pose proof (Dt t x H) as Lt. cbn [n_points m].
      destruct t as [|[|[|[|[|t]]]]]; [..|lia]; inversion H; subst x; cbn in Hp; destruct i as [|[|[|[|i]]]]; cbn in Hp;
        try (inversion Hp; split; [lia|]; intros; (reflexivity || lia)); destruct i; discriminate.
    + cbn. exact LP.
    + intros p t H. cbn in H. assert (Hp : p <= n) by (assert (p < length P) by (apply nth_error_Some; congruence); lia).
      rewrite VP in H by auto. destruct (Nat.eqb_spec p n) as [->|Ne]; [inversion H; split; [apply Lv; lia|]; eexists; split; [reflexivity|]; cbn; auto|].
      destruct ((p =? pd) || (p =? pc) || (p =? pb) || (p =? pa)) eqn:E; [|discriminate]. inversion H. split; [apply Lv; lia|].
      eexists; split; [reflexivity|]. cbn. rewrite !orb_true_iff, !Nat.eqb_eq in E. intuition (subst; auto).
    + intros t x p H Hp. apply Kn. pose proof (Dt t x H) as Lt.
      destruct t as [|[|[|[|[|t]]]]]; [..|lia]; inversion H; subst x; cbn in Hp |- *; intuition.
  - apply Lv. lia.
  - reflexivity.
  - intros p Hp Np. cbn. rewrite VP by lia. replace (p =? n) with false by (symmetry; apply Nat.eqb_neq; lia).
    replace ((p =? pd) || (p =? pc) || (p =? pb) || (p =? pa)) with false; auto. symmetry. rewrite !orb_false_iff, !Nat.eqb_neq. cbn in Np. intuition.
  - intros p Hp. apply Kn. cbn in Hp |- *. intuition.
Qed.

(** * All points *)
Lemma inserted_known m R p B m' s' : good m -> inserted m R p B m' s' -> forall q, (exists t, nth_error (p2t m) q = Some (Some t)) -> exists t, nth_error (p2t m') q = Some (Some t).
Proof.
  intros G I q (t & E). destruct (g_stored m G q t E) as (_ & x & Ex & Hq). destruct (in_kept _ _ _ _ _ _ I t x Ex) as (x' & Ex' & Ed).
  eapply (g_known m' (in_good _ _ _ _ _ _ I)); eauto. now rewrite Ed.
Qed.
Lemma insert_all_ok o3 isp fuel l : forall m s, good m -> (exists t, tet s = Some t /\ live m t) -> regular o3 isp fuel m s l -> NoDup l ->
  (forall p, In p l -> p < n_points m /\ nth_error (p2t m) p = Some None) ->
  exists m', insert_all o3 isp m s l fuel = Some m' /\ good m' /\ n_points m' = n_points m /\
    (forall p, In p l \/ (exists t, nth_error (p2t m) p = Some (Some t)) -> exists t, nth_error (p2t m') p = Some (Some t)).
Proof.
  induction l as [|p l IH]; intros m s G (t & Ts & Lt) Rg ND Hl.
  - exists m. split; [reflexivity|]. split; auto. split; auto. intros q [[]|H]. exact H.
  - inversion Rg as [|? ? ? ? loc s0 Loc NV Si Ex Bd Nx]; subst. rewrite NoDup_cons_iff in ND. destruct ND as (Np & ND).
    destruct (Hl p (or_introl eq_refl)) as (Pp & Fp). destruct s as [st v]. cbn in Ts. subst st.
    destruct (insert_ok 1024 o3 isp m p t v fuel loc s0 G Pp Fp Lt Loc NV Si Ex) as (B & NB & HB & Hins).
    assert (LB : length B < 2044) by (apply Bd; auto; intros; apply HB; auto).
    destruct Hins as (m1 & s1 & E1 & I1). { apply Nat.div_lt_upper_bound; lia. }
    destruct (in_search _ _ _ _ _ _ I1) as (t1 & Ts1 & Lt1).
    destruct (IH m1 s1) as (m' & E' & G' & N' & K').
    + apply (in_good _ _ _ _ _ _ I1).
    + exists t1. split; auto. apply (in_live _ _ _ _ _ _ I1). auto.
    + apply Nx. exact E1.
    + exact ND.
    + intros q Hq. rewrite (in_points _ _ _ _ _ _ I1). destruct (Hl q (or_intror Hq)). split; auto. apply (in_others _ _ _ _ _ _ I1); auto. congruence.
    + exists m'. cbn [insert_all]. unfold insert_vertex_bw. rewrite E1. split; auto. split; auto. split; [rewrite N'; apply (in_points _ _ _ _ _ _ I1)|].
      intros q Hq. apply K'. destruct Hq as [[<-|Hq]|Hq]; auto.
      * right. exists t1. rewrite (in_p2t _ _ _ _ _ _ I1). now rewrite Ts1.
      * right. apply (inserted_known _ _ _ _ _ _ G I1 q Hq).
Qed.

(** * Removing the deleted tetrahedra *)
Definition kept (x : tetra) : bool := negb (mask x =? ones)%N.
Lemma renumber_length l : forall c, length (renumber l c) = length l.
Proof. induction l as [|x l IH]; intros c; cbn; [reflexivity|]. destruct (mask x =? ones)%N; cbn; now rewrite IH. Qed.
Lemma renumber_kept l : forall c t x, nth_error l t = Some x -> kept x = true ->
  exists i, nth_error (renumber l c) t = Some (c + i) /\ nth_error (filter kept l) i = Some x.
Proof.
  induction l as [|y l IH]; intros c t x H K; [destruct t; discriminate|]. cbn [renumber filter]. unfold kept at 1.
  destruct t as [|t]; cbn in H.
  - inversion H; subst y. unfold kept in K. destruct (mask x =? ones)%N; [discriminate|]. cbn. exists 0. rewrite Nat.add_0_r. auto.
  - destruct (mask y =? ones)%N; cbn [negb].
    + destruct (IH c t x H K) as (i & A & B). exists i. auto.
    + destruct (IH (S c) t x H K) as (i & A & B). exists (S i). cbn. rewrite A, B. split; auto. f_equal. lia.
Qed.
Lemma kept_renumber l : forall c i x, nth_error (filter kept l) i = Some x ->
  exists t, nth_error l t = Some x /\ kept x = true /\ nth_error (renumber l c) t = Some (c + i).
Proof.
  induction l as [|y l IH]; intros c i x H; [destruct i; discriminate|]. cbn [renumber filter] in *. unfold kept at 1 in H.
  destruct (mask y =? ones)%N eqn:E; cbn [negb] in H.
  - destruct (IH c i x H) as (t & A & B & C). exists (S t). auto.
  - destruct i as [|i]; cbn in H.
    + inversion H; subst y. exists 0. cbn. split; auto. split; [unfold kept; now rewrite E|]. f_equal. lia.
    + destruct (IH (S c) i x H) as (t & A & B & C). exists (S t). cbn. split; auto. split; auto. rewrite C. f_equal. lia.
Qed.
Lemma omap_ok {A B} (f : A -> option B) (g : A -> B) l : (forall a, In a l -> f a = Some (g a)) -> omap f l = Some (map g l).
Proof. induction l as [|a l IH]; intros H; [reflexivity|]. cbn. rewrite (H a (or_introl eq_refl)), IH; auto. intros b Hb. apply H. now right. Qed.

Section Compact.
  Variable m : tetmesh.
  Hypothesis G : good m.
  Hypothesis All : forall p, p < n_points m -> exists t, nth_error (p2t m) p = Some (Some t).

  Definition rank (t : nat) : nat := nth t (renumber (tets m) 0) 0.
  Definition rn (f : triface) : triface := TF (Some (rank (tid f))) (ver f).
  Definition slim (x : tetra) : tetra := Tetra (data x) (map rn (nei x)) (mask x).
  Definition ts : list tetra := map slim (filter kept (tets m)).
  Definition mm : tetmesh := TetMesh (n_points m) ts (p2t m).

  Lemma kept_live t x : nth_error (tets m) t = Some x -> (kept x = true <-> live m t).
  Proof.
    intros E. unfold kept. rewrite negb_true_iff, N.eqb_neq. split.
    - intros N. exists x. split; auto. destruct (g_mask m G t x E); [auto|contradiction].
    - intros (y & E' & Z) N. rewrite E in E'. inversion E'; subst y. rewrite N in Z. discriminate.
  Qed.
  Lemma rank_live t x : nth_error (tets m) t = Some x -> live m t ->
    nth_error (renumber (tets m) 0) t = Some (rank t) /\ nth_error ts (rank t) = Some (slim x).
  Proof.
    intros E Lt. destruct (renumber_kept (tets m) 0 t x E (proj2 (kept_live t x E) Lt)) as (i & A & B). cbn in A.
    assert (rank t = i) by (unfold rank; now apply nth_error_nth). subst i. split; auto. unfold ts. rewrite nth_error_map, B. reflexivity.
  Qed.
  Lemma rank_onto i y : nth_error ts i = Some y -> exists t x, nth_error (tets m) t = Some x /\ live m t /\ y = slim x /\ rank t = i.
  Proof.
    unfold ts. rewrite nth_error_map. destruct (nth_error (filter kept (tets m)) i) as [x|] eqn:E; [|discriminate]. intros H. inversion H.
    destruct (kept_renumber (tets m) 0 i x E) as (t & A & B & C). exists t, x. split; auto. split; [now apply (kept_live t x A)|]. split; auto.
    unfold rank. now apply nth_error_nth.
  Qed.
  Lemma live_x t : live m t -> exists x, nth_error (tets m) t = Some x.
  Proof. intros (x & E & _). eauto. Qed.
  Lemma dat_mm t : live m t -> dat mm (rank t) = dat m t.
  Proof.
    intros Lt. destruct (live_x t Lt) as (x & E). destruct (rank_live t x E Lt) as (_ & B). unfold dat, mm. cbn [tets]. now rewrite B, E.
  Qed.
  Lemma nei_mm t k : live m t -> nei_at mm (Some (rank t)) k = option_map rn (nei_at m (Some t) k).
  Proof.
    intros Lt. destruct (live_x t Lt) as (x & E). destruct (rank_live t x E Lt) as (_ & B). unfold nei_at, tet_at, mm. cbn [tets]. rewrite B, E.
    cbn. apply nth_error_map.
  Qed.
  Lemma corners_mm t v a b c d : live m t -> corners mm (TF (Some (rank t)) v) a b c d <-> corners m (TF (Some t) v) a b c d.
  Proof. intros Lt. rewrite !corners_dat, dat_mm; tauto. Qed.
  Lemma fsym_mm t v u w : live m t -> fsym m (TF (Some t) v) = Some (TF (Some u) w) -> fsym mm (TF (Some (rank t)) v) = Some (TF (Some (rank u)) w).
  Proof.
    intros Lt. unfold fsym. cbn [tet ver]. rewrite (nei_mm t _ Lt). destruct (nei_at m (Some t) (Nat.land v 3)) as [g|]; [|discriminate]. cbn [option_map rn ver tet].
    destruct (look2 FSYM_TBL v (ver g)) as [w0|]; [|discriminate]. intros H. injection H as E1 E2. unfold tid. rewrite E1, E2. reflexivity.
  Qed.
  Lemma mm_consistent P : consistent (TetMesh (n_points m) ts P).
  Proof.
    intros i v a b c d Li V K. cbn [tets] in Li. destruct (nth_error_ex ts i Li) as (y & Ey). destruct (rank_onto i y Ey) as (t & x & E & Lt & _ & <-).
    change (corners mm (TF (Some (rank t)) v) a b c d) in K. apply (corners_mm t v a b c d Lt) in K.
    destruct (g_glued m G t v Lt V) as (a' & b' & c' & d' & u & w & e & C & _ & F & Lu & W & B & Ku).
    destruct (corners_fun _ _ _ _ _ _ _ _ _ _ C K) as (-> & -> & -> & ->).
    exists (rank u), w, e. split; [apply (fsym_mm t v u w Lt F)|]. split; [|split; [auto|split; [apply (fsym_mm u w t v Lu B)|]]].
    - destruct (live_x u Lu) as (z & Ez). destruct (rank_live u z Ez Lu) as (_ & H). cbn [tets]. apply nth_error_Some. congruence.
    - change (corners mm (TF (Some (rank u)) w) b' a' c' e). apply (corners_mm u w b' a' c' e Lu). exact Ku.
  Qed.
  Lemma pivots_low i j : i < 4 -> j < 4 -> j <> i -> nth i ORG_PIVOT 0 = j \/ nth i DEST_PIVOT 0 = j \/ nth i APEX_PIVOT 0 = j.
  Proof. intros I J N. do 4 (destruct i as [|i]; [do 4 (destruct j as [|j]; [cbn; auto; lia|]); lia|]). lia. Qed.
  Lemma look_low tbl i : i < length tbl -> look tbl i = Some (nth i tbl 0).
  Proof. intros H. unfold look. now apply nth_error_nth'. Qed.
  Lemma mm_linked P : linked (TetMesh (n_points m) ts P).
  Proof.
    intros i y Ey. cbn [tets] in Ey. destruct (rank_onto i y Ey) as (t & x & E & Lt & -> & _). cbn [data nei mask slim].
    destruct (g_size m G t x E) as (L4 & N4). split; auto. split; [now rewrite map_length|].
    assert (Z : mask x = 0%N) by (destruct Lt as (x' & E' & Z); congruence).
    split.
    { destruct (g_glued m G t 0 Lt ltac:(lia)) as (a & b & c & d & _ & _ & _ & C & ND & _). apply corners_dat in C.
      destruct C as (l & El & _ & P0 & P1 & P2 & P3). unfold dat in El. rewrite E in El. cbn in El. inversion El; subst l.
      destruct (data x) as [|p0 [|p1 [|p2 [|p3 [|]]]]]; try discriminate L4. cbn in P0, P1, P2, P3. inversion P0; inversion P1; inversion P2; inversion P3; subst.
      clear -ND. rewrite !NoDup_cons_iff in *. cbn in *. intuition. }
    rewrite Z. split; [discriminate|]. split; [reflexivity|].
    intros k g Hg. rewrite nth_error_map in Hg. destruct (nth_error (nei x) k) as [h|] eqn:Eh; [|discriminate]. cbn in Hg. inversion Hg; subst g. cbn [tet rn].
    assert (K : k < 4) by (rewrite <- N4; apply nth_error_Some; congruence).
    assert (En : nei_at m (Some t) k = Some h) by (rewrite (nei_at_some m t k x E); auto).
    destruct (nei_ver_lt m G t k h Lt En) as (_ & Vh & u & Eu & Lu). destruct (live_x u Lu) as (z & Ez). destruct (rank_live u z Ez Lu) as (_ & Hz).
    exists (rank u), (slim z). unfold tid. rewrite Eu. split; auto. split; [exact Hz|]. cbn [data slim].
    intros j p Hj Nj. assert (J : j < 4) by (rewrite <- L4; apply nth_error_Some; congruence).
    destruct (g_glued m G t k Lt ltac:(lia)) as (a & b & c & d & u' & w & e & C & _ & F & _ & _ & _ & Ku).
    assert (u' = u). { unfold fsym in F. cbn [tet ver] in F. rewrite (land4 k K), En in F. destruct (look2 FSYM_TBL k (ver h)); [|discriminate]. inversion F. congruence. }
    subst u'. apply corners_dat in C. destruct C as (l & El & _ & P0 & P1 & P2 & _). unfold dat in El. rewrite E in El. cbn in El. inversion El; subst l.
    apply corners_dat in Ku. destruct Ku as (l & El' & _ & Q0 & Q1 & Q2 & _). unfold dat in El'. rewrite Ez in El'. cbn in El'. inversion El'; subst l.
    apply nth_error_In in Q0, Q1, Q2.
    destruct (pivots_low k j K J Nj) as [X|[X|X]]; rewrite X in *; congruence.
  Qed.

  Definition home (p : nat) : nat := match nth_error (p2t m) p with Some (Some t) => t | _ => 0 end.
  Definition out (p : nat) : option nat :=
    match dat m (home p) with
    | Some l => if nth 3 l 0 =? n_points m then match nei_at m (Some (home p)) 3 with Some g => Some (rank (tid g)) | None => None end else Some (rank (home p))
    | None => None end.
  Lemma home_ok p : p < n_points m -> nth_error (p2t m) p = Some (Some (home p)) /\ live m (home p) /\ exists x, nth_error (tets m) (home p) = Some x /\ In p (data x).
  Proof. intros H. destruct (All p H) as (t & E). unfold home. rewrite E. split; auto. now apply (g_stored m G p t). Qed.
  Lemma compact_ok : exists mc, compact m = Some mc /\ n_points mc = n_points m /\ tets mc = ts /\ length (p2t mc) = length (p2t m) /\ linked mc /\ consistent mc /\
    nth_error (p2t mc) (n_points m) = nth_error (p2t m) (n_points m) /\
    (forall p, p < n_points m -> exists t x, nth_error (p2t mc) p = Some (Some t) /\ nth_error (tets mc) t = Some x /\ In p (data x) /\ (nth 3 (data x) 0 <> n_points mc \/ backs mc t)).
  Proof.
    unfold compact.
    assert (Th : forall t, live m t -> nth_error (renumber (tets m) 0) t = Some (rank t)) by (intros t Lt; destruct (live_x t Lt) as (x & E); now apply (rank_live t x E)).
    match goal with |- context [omap ?f (filter ?g (tets m))] => assert (Q : omap f (filter g (tets m)) = Some ts) end.
    { unfold ts. change (fun t : tetra => negb (mask t =? ones)%N) with kept. apply omap_ok. intros x Hx.
      apply In_nth_error in Hx. destruct Hx as (i & Hx). destruct (kept_renumber (tets m) 0 i x Hx) as (t & E & K & _). pose proof (proj1 (kept_live t x E) K) as Lt.
      rewrite (omap_ok _ rn); [reflexivity|]. intros f Hf. apply In_nth_error in Hf. destruct Hf as (k & Hk).
      rewrite <- (nei_at_some m t k x E) in Hk. destruct (nei_ver_lt m G t k f Lt Hk) as (_ & _ & u & Eu & Lu). rewrite Eu, (Th u Lu).
      unfold rn, tid. now rewrite Eu. }
    rewrite Q. clear Q. fold mm.
    match goal with |- context [omap ?f (seq 0 (n_points m))] => assert (Q : omap f (seq 0 (n_points m)) = Some (map out (seq 0 (n_points m)))) end.
    { apply omap_ok. intros p Hp. apply in_seq in Hp. destruct (home_ok p ltac:(lia)) as (E & Lt & x & Ex & Hx). rewrite E, (Th _ Lt).
      assert (D : dat m (home p) = Some (data x)) by now apply dat_some.
      destruct (rank_live _ x Ex Lt) as (_ & B). destruct (g_size m G _ x Ex) as (L4 & _).
      unfold is_hull_tet, tet_at. cbn [tets mm]. rewrite B. cbn [data slim].
      rewrite (nth_error_nth' (data x) 0) by lia. unfold out. rewrite D. cbn [n_points mm]. destruct (nth 3 (data x) 0 =? n_points m); [|reflexivity].
      rewrite (nei_mm _ 3 Lt). destruct (nei_ex m G _ 3 Lt ltac:(lia)) as (g & u & En & _ & _). rewrite En. reflexivity. }
    rewrite Q. clear Q.
    assert (Lg : n_points m < length (p2t m)) by (rewrite (g_p2t m G); lia).
    destruct (nth_error_ex (p2t m) (n_points m) Lg) as (g & Eg). rewrite Eg. eexists. split; [reflexivity|]. cbn [n_points tets p2t].
    assert (Lo : length (map out (seq 0 (n_points m))) = n_points m) by (now rewrite map_length, seq_length).
    split; auto. split; auto. split; [rewrite app_length, Lo, (g_p2t m G); reflexivity|]. split; [apply mm_linked|]. split; [apply mm_consistent|].
    split; [rewrite nth_error_app2, Lo, Nat.sub_diag by lia; reflexivity|].
    intros p Hp. rewrite nth_error_app1 by lia. rewrite nth_error_map. rewrite (nth_error_nth' _ 0) by (rewrite seq_length; auto). rewrite seq_nth by auto. cbn [option_map plus].
    destruct (home_ok p Hp) as (_ & Lt & x & Ex & Hx). unfold out. rewrite (dat_some _ _ _ Ex). destruct (g_size m G _ x Ex) as (L4 & _).
    destruct (Nat.eqb_spec (nth 3 (data x) 0) (n_points m)) as [Hg|Hg].
    - destruct (nei_ex m G _ 3 Lt ltac:(lia)) as (h & u & En & Eh & Lu). rewrite En. unfold tid. rewrite Eh.
      destruct (live_x u Lu) as (z & Ez). destruct (rank_live u z Ez Lu) as (_ & Bz). exists (rank u), (slim z). split; auto. split; auto. cbn [data slim].
      split; [|right; destruct (rank_live _ x Ex Lt) as (_ & Bx); exists (rank (home p)), (slim x), (rn h); cbn [n_points tets data nei slim tet rn]; split; [exact Bx|]; split; [exact Hg|]; split; [rewrite nth_error_map, <- (nei_at_some m _ 3 x Ex), En; reflexivity|unfold tid; now rewrite Eh]].
      apply In_nth_error in Hx. destruct Hx as (j & Hj). assert (J : j < 4) by (rewrite <- L4; apply nth_error_Some; congruence).
      assert (Nj : j <> 3) by (intros ->; erewrite nth_error_nth in Hg by eauto; lia).
      destruct (rank_live _ x Ex Lt) as (_ & Bx). destruct (mm_linked [] _ (slim x) Bx) as (_ & _ & _ & _ & _ & Hn).
      destruct (Hn 3 (rn h)) as (u' & y & Eu & Ey & Hy).
      { cbn [nei slim]. rewrite nth_error_map. rewrite <- (nei_at_some m _ 3 x Ex), En. reflexivity. }
      cbn [tet rn] in Eu. unfold tid in Eu. rewrite Eh in Eu. inversion Eu; subst u'. cbn [tets] in Ey. rewrite Bz in Ey. inversion Ey; subst y.
      apply (Hy j p); auto.
    - destruct (rank_live _ x Ex Lt) as (_ & Bx). exists (rank (home p)), (slim x). auto 6.
  Qed.
End Compact.
