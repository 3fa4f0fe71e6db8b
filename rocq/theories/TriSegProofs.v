(** Lemmas about the walks over a triangulation. *)
From Coq Require Import List Arith Bool ZArith Lia.
From Verif Require Import Lib Flip Prop_Flip TriSegSpec TriSeg BwBase.
Import ListNotations.

(** * mark_ghost *)
Section Ghost.
  Variable m : list triangle.
  Hypothesis W : wf m.

  Definition step (h : hedge) : hedge := match sym m (next h) with Some g => g | None => h end.
  Lemma next_inside h : inside m h -> inside m (next h).
  Proof. intros (A & B). split; auto. unfold next, prev. cbn [snd]. apply Nat.mod_upper_bound. lia. Qed.
  Lemma prev_inside h : inside m h -> inside m (prev h).
  Proof. intros (A & B). split; auto. unfold next, prev. cbn [snd]. apply Nat.mod_upper_bound. lia. Qed.
  Lemma prev_next h : inside m h -> prev (next h) = h /\ next (prev h) = h.
  Proof. destruct h as (t & o). intros (_ & B). cbn [snd] in B. unfold prev, next. cbn [fst snd]. destruct (three _ B) as [->|[->| ->]]; cbn; auto. Qed.
  Lemma step_ok h : inside m h -> sym m (next h) = Some (step h) /\ inside m (step h).
  Proof. intros H. destruct (wf_nei m W _ (next_inside h H)) as (g & E & I & _). unfold step. rewrite E. auto. Qed.
  Lemma step_inj h g : inside m h -> inside m g -> step h = step g -> h = g.
  Proof.
    intros H G E. destruct (step_ok h H) as (A & _), (step_ok g G) as (B & _).
    destruct (wf_nei m W _ (next_inside h H)) as (x & X1 & _ & X2 & _). destruct (wf_nei m W _ (next_inside g G)) as (y & Y1 & _ & Y2 & _).
    assert (next h = next g) by congruence. destruct (prev_next h H) as (P & _), (prev_next g G) as (Q & _). congruence.
  Qed.
  Lemma ghost_loop fuel : forall h start ghost j k, inside m start -> h = it step j start -> length ghost = length m ->
    (forall t, nth_error ghost t = Some true <-> exists i, i < j /\ fst (it step i start) = t) ->
    j < k -> k - j <= fuel -> it step k start = start ->
    exists ghost' q, mark_ghost_loop m start h ghost fuel = Some ghost' /\ length ghost' = length m /\ 0 < q /\ it step q start = start /\
      (forall t, nth_error ghost' t = Some true <-> exists i, i < q /\ fst (it step i start) = t).
  Proof.
    induction fuel as [|fuel IH]; intros h start ghost j k Is Eh Lg Hg Lj Lf Ek; [lia|]. cbn [mark_ghost_loop].
    assert (Ih : inside m h) by (subst h; apply (it_X step (inside m)); auto; intros; now apply step_ok).
    destruct (step_ok h Ih) as (Es & Is'). rewrite (proj2 (set_Some ghost _ (fst h) true) (conj (eq_ind_r (fun k => fst h < k) (proj1 Ih) Lg) eq_refl)). rewrite Es.
    assert (Hg' : forall t, nth_error (upd ghost (fst h) true) t = Some true <-> exists i, i < S j /\ fst (it step i start) = t).
    { intros t. rewrite nth_error_upd. destruct (Nat.ltb_spec (fst h) (length ghost)) as [_|X]; [|rewrite Lg in X; destruct Ih; lia]. rewrite andb_true_r.
      destruct (Nat.eqb_spec (fst h) t) as [E|N].
      - split; auto. intros _. exists j. split; [lia|]. congruence.
      - rewrite Hg. split; intros (i & Li & E); exists i; (split; [|exact E]); [lia|]. destruct (Nat.eq_dec i j) as [->|]; [congruence|lia]. }
    destruct (he_eqb_spec (step h) start) as [E|N].
    - eexists. exists (S j). split; [reflexivity|]. split; [now rewrite upd_length|]. split; [lia|]. split; [cbn; congruence|exact Hg'].
    - destruct (Nat.eq_dec (S j) k) as [<-|Nk]; [exfalso; apply N; cbn in Ek; congruence|].
      apply (IH (step h) start (upd ghost (fst h) true) (S j) k); auto; [cbn; congruence|now rewrite upd_length|lia|lia].
  Qed.
End Ghost.

(** * Regions *)
Lemma set_true_view l i : i < length l -> exists l', set l i true = Some l' /\ length l' = length l /\
  forall t, nth_error l' t = Some true <-> t = i \/ nth_error l t = Some true.
Proof.
  intros H. exists (upd l i true). split; [now apply set_Some|]. split; [apply upd_length|]. intros t. rewrite nth_error_upd.
  destruct (Nat.ltb_spec i (length l)); [|lia]. rewrite andb_true_r. destruct (Nat.eqb_spec i t) as [<-|N]; intuition congruence.
Qed.
Lemma bool_view (l : list bool) i : i < length l -> nth_error l i = Some true \/ (nth_error l i = Some false /\ nth_error l i <> Some true).
Proof. intros H. destruct (nth_error_ex l i H) as ([|] & E); rewrite E; auto. right. split; auto. discriminate. Qed.

Section Regions.
  Variables (INV : nat) (m : list triangle) (ghost0 : list bool).
  Hypothesis W : wf m.
  Hypothesis Lg : length ghost0 = length m.
  Hypothesis Ms : marked_pairs INV m.

  Local Notation real := (real ghost0).
  Local Notation joined := (joined INV m ghost0).
  Local Notation region := (region INV m ghost0).
  Local Notation has := (has INV m).

  Lemma real_lt t : real t -> t < length m.
  Proof. intros H. rewrite <- Lg. apply nth_error_Some. unfold TriSegSpec.real in H. congruence. Qed.
  Lemma joined_sym t u : joined t u -> joined u t.
  Proof.
    intros (A & B & j & g & J & E & S & <-). split; auto. split; auto. pose proof (real_lt t A) as L.
    destruct (wf_nei m W (t, j) (conj L J)) as (g' & S' & (_ & I2) & S2 & _). rewrite S in S'. inversion S'; subst g'.
    exists (snd g), (t, j). split; auto. rewrite <- surjective_pairing. split; [|auto]. apply (Ms (t, j) g); auto. split; auto.
  Qed.
  Lemma region_trans t u v : region t u -> region u v -> region t v.
  Proof. intros A. induction 1; auto. eapply region_step; eauto. Qed.
  Lemma region_real t u : region t u -> real u.
  Proof. induction 1 as [|u v _ _ (_ & H & _)]; auto. Qed.
  Lemma region_real0 t u : region t u -> real t.
  Proof. induction 1; auto. Qed.
  Lemma region_sym t u : region t u -> region u t.
  Proof.
    induction 1 as [H|u v A IH J]; [now constructor|]. apply region_trans with u; auto.
    eapply region_step; [constructor; apply J|]. now apply joined_sym.
  Qed.
  Lemma tri_some t : t < length m -> exists tr, nth_error m t = Some tr.
  Proof. apply nth_error_ex. Qed.

  Section Flood.
    Variables (vis0 ghost : list bool) (i : nat).
    Hypothesis Hi : real i.
    Hypothesis Lv0 : length vis0 = length m.
    Hypothesis Lgh : length ghost = length m.
    Hypothesis V0c : forall t u, nth_error vis0 t = Some true -> joined t u -> nth_error vis0 u = Some true.
    Hypothesis Gh : forall t, nth_error ghost t = Some true -> ~ real t \/ nth_error vis0 t = Some true.
    Hypothesis Gh0 : forall t, t < length m -> ~ real t -> nth_error ghost t = Some true.
    Hypothesis Vi : nth_error vis0 i <> Some true.

    Definition flags (flag : nat) (done : list nat) (parts : nat -> nat -> Prop) : Prop :=
      (flag = 2 /\ forall t j k, parts t j -> mark m (t, j) = Some k -> k = INV) \/
      (flag = 1 /\ exists t j k, parts t j /\ In t done /\ mark m (t, j) = Some k /\ k <> INV /\ Nat.even k = true) \/
      (flag = 0 /\ exists t j k, parts t j /\ In t done /\ mark m (t, j) = Some k /\ k <> INV /\ Nat.even k = false).
    (** [parts]: the sides that have been looked at. *)
    Record finv (parts : nat -> nat -> Prop) (st : list bool * list nat * nat) : Prop := {
      fv_len : length (fst (fst st)) = length m;
      fv_nd : NoDup (snd (fst st));
      fv_reg : forall t, In t (snd (fst st)) -> region i t /\ nth_error vis0 t <> Some true;
      fv_i : In i (snd (fst st));
      fv_vis : forall t, nth_error (fst (fst st)) t = Some true <-> nth_error vis0 t = Some true \/ In t (snd (fst st));
      fv_done : forall t j u g, parts t j -> joined t u -> mark m (t, j) = Some INV -> sym m (t, j) = Some g -> fst g = u -> In u (snd (fst st));
      fv_flag : flags (snd st) (snd (fst st)) parts;
      fv_parts : forall t j, parts t j -> In t (snd (fst st)) /\ j < 3 }.

    Lemma side_ok parts st t tr j : finv parts st -> In t (snd (fst st)) -> nth_error m t = Some tr -> j < 3 ->
      exists st', side INV tr ghost st j = Some st' /\ finv (fun a b => parts a b \/ (a = t /\ b = j)) st' /\
        exists e, snd (fst st') = snd (fst st) ++ e.
    Proof.
      destruct st as [[vis q] flag]. intros F Ht Et J. cbn [fst snd] in *.
      destruct (fv_reg _ _ F t Ht) as (Rt & Nt). pose proof (fv_len _ _ F) as Lvis. cbn [fst snd] in Rt, Nt, Lvis. pose proof (region_real i t Rt) as Re. pose proof (real_lt t Re) as Lt.
      assert (Mk : exists k, nth_error (data tr) (j + 3) = Some k /\ mark m (t, j) = Some k).
      { pose proof (wf_data m W t (j + 3) Lt ltac:(lia)) as D. unfold mark, get_data in *. cbn [fst snd]. rewrite Et in *.
        destruct (nth_error (data tr) (j + 3)) as [k|]; [eauto|contradiction]. }
      destruct Mk as (k & Ek & Em). destruct (wf_nei m W (t, j) (conj Lt J)) as (g & Sg & (Ig & _) & _).
      assert (En : nth_error (nei tr) j = Some g) by (unfold sym in Sg; cbn [fst snd] in Sg; rewrite Et in Sg; exact Sg).
      unfold side. rewrite Ek. destruct (Nat.eqb_spec k INV) as [->|Nk]; cbn [negb].
      - rewrite En.
        assert (Fl : flags flag q (fun a b => parts a b \/ (a = t /\ b = j))).
        { destruct (fv_flag _ _ F) as [(A & B)|[(A & t1 & j1 & k1 & P1 & I1 & R1)|(A & t1 & j1 & k1 & P1 & I1 & R1)]]; cbn [fst snd] in *.
          - left. split; auto. intros a b c [P|(-> & ->)] Q; [eapply B; eauto|congruence].
          - right. left. split; auto. exists t1, j1, k1. auto.
          - right. right. split; auto. exists t1, j1, k1. auto. }
        assert (Keep : (forall u, joined t u -> fst g = u -> In u q) -> finv (fun a b => parts a b \/ (a = t /\ b = j)) (vis, q, flag)).
        { intros Hd. destruct F as [F1 F2 F3 F4 F5 F6 F7 F8]. cbn [fst snd] in *. constructor; cbn [fst snd]; auto.
          - intros a b u h [P|(-> & ->)] Jn Mm Ss Ff; [eapply F6; eauto|]. rewrite Sg in Ss. inversion Ss; subst h. apply Hd; auto.
          - intros a b [P|(-> & ->)]; auto. }
        assert (Jg : forall u, joined t u -> fst g = u -> real u) by (intros u (_ & H & _) _; exact H).
        destruct (bool_view vis (fst g)) as [Ev|(Ev & Ev')]; [rewrite Lvis; auto|..]; rewrite Ev.
        + eexists. split; [reflexivity|]. split; [|exists []; now rewrite app_nil_r]. apply Keep. intros u Jn <-.
          apply (fv_vis _ _ F) in Ev. cbn [fst snd] in Ev. destruct Ev as [Ev|Ev]; auto. exfalso. apply Nt. apply (V0c (fst g) t Ev). now apply joined_sym.
        + destruct (bool_view ghost (fst g)) as [Eg|(Eg & Eg')]; [lia|..]; rewrite Eg.
          * eexists. split; [reflexivity|]. split; [|exists []; now rewrite app_nil_r]. apply Keep. intros u Jn Eu. exfalso.
            destruct (Gh _ Eg) as [X|X]; [apply X; rewrite Eu; now apply Jg|]. apply Ev'. apply (fv_vis _ _ F). auto.
          * assert (Rg : real (fst g)).
            { unfold TriSegSpec.real. destruct (bool_view ghost0 (fst g)) as [X|(X & _)]; [lia| |exact X]. exfalso. apply Eg'. apply Gh0; auto. unfold TriSegSpec.real. congruence. }
            destruct (set_true_view vis (fst g)) as (vis' & Es & Lv & Hv); [rewrite Lvis; auto|]. rewrite Es.
            eexists. split; [reflexivity|]. split; [|exists [fst g]; reflexivity].
            assert (Jn : joined t (fst g)) by (split; auto; split; auto; exists j, g; auto).
            destruct F as [F1 F2 F3 F4 F5 F6 F7 F8]. cbn [fst snd] in *. constructor; cbn [fst snd].
            -- congruence.
            -- apply NoDup_rev in F2. rewrite <- (rev_involutive (q ++ [fst g])), rev_app_distr. apply NoDup_rev. cbn. constructor; auto.
               rewrite <- in_rev. intros C. apply Ev', F5. auto.
            -- intros u Hu. apply in_app_or in Hu. destruct Hu as [Hu|[<-|[]]]; auto. split; [eapply region_step; eauto|].
               intros C. apply Ev', F5. auto.
            -- apply in_or_app. auto.
            -- intros u. rewrite Hv, F5, in_app_iff. cbn. intuition.
            -- intros a b u h [P|(-> & ->)] Jn' Mm Ss Ff; apply in_or_app; [left; eapply F6; eauto|right; left; congruence].
            -- destruct Fl as [X|[(A & t1 & j1 & k1 & P1 & I1 & R1)|(A & t1 & j1 & k1 & P1 & I1 & R1)]]; [left; auto|right; left|right; right];
                 (split; [exact A|]); exists t1, j1, k1; (split; [exact P1|]); (split; [apply in_or_app; auto|exact R1]).
            -- intros a b [P|(-> & ->)]; [destruct (F8 _ _ P)|]; split; auto; apply in_or_app; auto.
      - eexists. split; [reflexivity|]. split; [|exists []; now rewrite app_nil_r].
        destruct F as [F1 F2 F3 F4 F5 F6 F7 F8]. cbn [fst snd] in *. constructor; cbn [fst snd]; auto.
        + intros a b u h [P|(-> & ->)] Jn' Mm Ss Ff; [eapply F6; eauto|congruence].
        + destruct F7 as [(A & B)|[(A & t1 & j1 & k1 & P1 & I1 & R1)|(A & t1 & j1 & k1 & P1 & I1 & R1)]]; subst flag; cbn [Nat.ltb Nat.leb].
          * destruct (Nat.even k) eqn:Ev; [right; left|right; right]; (split; [reflexivity|]); exists t, j, k; auto 10.
          * right. left. split; auto. exists t1, j1, k1. auto.
          * right. right. split; auto. exists t1, j1, k1. auto.
        + intros a b [P|(-> & ->)]; auto.
    Qed.
    Lemma finv_ext p p' st : (forall a b, p a b <-> p' a b) -> finv p st -> finv p' st.
    Proof.
      intros E [F1 F2 F3 F4 F5 F6 F7 F8]. constructor; auto.
      - intros a b u g H. apply F6. now apply E.
      - destruct F7 as [(A & B)|[(A & t1 & j1 & k1 & P1 & I1 & R1)|(A & t1 & j1 & k1 & P1 & I1 & R1)]].
        + left. split; auto. intros a b k H. apply B. now apply E.
        + right. left. split; auto. exists t1, j1, k1. split; [now apply E|auto].
        + right. right. split; auto. exists t1, j1, k1. split; [now apply E|auto].
      - intros a b H. apply F8. now apply E.
    Qed.
    Definition upto (q : list nat) (idx : nat) (t j : nat) : Prop := j < 3 /\ exists p, p < idx /\ nth_error q p = Some t.
    Lemma flood_ok fuel : forall idx st, finv (upto (snd (fst st)) idx) st -> idx <= length (snd (fst st)) -> length m < idx + fuel ->
      exists st', flood INV m ghost idx st fuel = Some st' /\ finv (fun t j => In t (snd (fst st')) /\ j < 3) st'.
    Proof.
      induction fuel as [|fuel IH]; intros idx st F Li Lf.
      { exfalso. assert (length (snd (fst st)) <= length m); [|lia]. rewrite <- (seq_length (length m) 0). apply NoDup_incl_length; [apply (fv_nd _ _ F)|].
        intros t Ht. apply in_seq. pose proof (real_lt t (region_real _ _ (proj1 (fv_reg _ _ F t Ht)))). lia. }
      destruct st as [[vis q] flag]. cbn [flood fst snd] in *. destruct (nth_error q idx) as [t|] eqn:Et.
      - assert (It : In t q) by (eapply nth_error_In; eauto). pose proof (real_lt t (region_real _ _ (proj1 (fv_reg _ _ F t It)))) as Lt.
        destruct (tri_some t Lt) as (tr & Etr). rewrite Etr.
        destruct (side_ok _ _ t tr 0 F It Etr ltac:(lia)) as (st1 & -> & F1 & e1 & Q1). cbn [fst snd] in Q1.
        assert (I1 : In t (snd (fst st1))) by (rewrite Q1; apply in_or_app; auto).
        destruct (side_ok _ _ t tr 1 F1 I1 Etr ltac:(lia)) as (st2 & -> & F2 & e2 & Q2).
        assert (I2 : In t (snd (fst st2))) by (rewrite Q2; apply in_or_app; auto).
        destruct (side_ok _ _ t tr 2 F2 I2 Etr ltac:(lia)) as (st3 & -> & F3 & e3 & Q3).
        assert (Q : snd (fst st3) = q ++ (e1 ++ e2 ++ e3)) by (rewrite Q3, Q2, Q1, !app_assoc; reflexivity).
        apply (IH (S idx) st3).
        + eapply finv_ext; [|exact F3]. intros a b. cbv beta. unfold upto.
          assert (X : forall p, p <= idx -> nth_error (snd (fst st3)) p = nth_error q p).
          { intros p Hp. rewrite Q. apply nth_error_app1. assert (idx < length q) by (apply nth_error_Some; congruence). lia. }
          split.
          * intros [[[(Lb & p & Lp & Ep)|(-> & ->)]|(-> & ->)]|(-> & ->)]; (split; [lia|]); [exists p; split; [lia|]; rewrite X by lia; auto|..]; exists idx; (split; [lia|]); rewrite X; auto.
          * intros (Lb & p & Lp & Ep). rewrite X in Ep by lia. destruct (Nat.eq_dec p idx) as [->|N].
            -- assert (a = t) by congruence. subst a. destruct b as [|[|[|b]]]; [..|lia]; auto.
            -- left. left. left. split; auto. exists p. split; [lia|auto].
        + rewrite Q, app_length. assert (idx < length q) by (apply nth_error_Some; congruence). lia.
        + lia.
      - exists (vis, q, flag). split; [reflexivity|]. eapply finv_ext; [|exact F]. intros a b. unfold upto. cbn [fst snd]. apply nth_error_None in Et. split.
        + intros (Lb & p & Lp & Ep). split; auto. eapply nth_error_In; eauto.
        + intros (Ia & Lb). split; auto. apply In_nth_error in Ia. destruct Ia as (p & Ep). exists p. split; auto.
          assert (p < length q) by (apply nth_error_Some; congruence). lia.
    Qed.
    Lemma flood_region st : finv (fun t j => In t (snd (fst st)) /\ j < 3) st -> forall t, In t (snd (fst st)) <-> region i t.
    Proof.
      intros F t. split; [apply (fv_reg _ _ F)|]. induction 1 as [|u v _ IH Jn]; [apply (fv_i _ _ F)|].
      destruct Jn as (A & B & j & g & J & Em & Es & Eg). eapply (fv_done _ _ F u j v g); auto. split; auto. split; auto. exists j, g. auto.
    Qed.
  End Flood.

  Lemma drop_ok l : forall ghost, length ghost = length m -> (forall t, In t l -> t < length m) ->
    exists g, drop_all ghost l = Some g /\ length g = length m /\ forall t, nth_error g t = Some true <-> nth_error ghost t = Some true \/ In t l.
  Proof.
    induction l as [|a l IH]; intros ghost L H; [exists ghost; cbn; intuition|]. cbn [drop_all].
    destruct (set_true_view ghost a) as (g1 & -> & L1 & H1); [rewrite L; apply H; now left|].
    destruct (IH g1) as (g & E & Lg' & Hg); [congruence|intros; apply H; now right|]. exists g. split; auto. split; auto.
    intros t. rewrite Hg, H1. cbn. intuition.
  Qed.

  (** Between two regions. *)
  Record rinv (vis ghost : list bool) : Prop := {
    rv_lv : length vis = length m; rv_lg : length ghost = length m;
    rv_closed : forall t u, nth_error vis t = Some true -> joined t u -> nth_error vis u = Some true;
    rv_g0 : forall t, t < length m -> ~ real t -> nth_error ghost t = Some true;
    rv_g : forall t, nth_error ghost t = Some true -> ~ real t \/ nth_error vis t = Some true;
    rv_same : forall t u, real t -> nth_error ghost t = Some true -> region t u -> nth_error ghost u = Some true;
    rv_drop : forall t, real t -> nth_error ghost t = Some true -> exists u, region t u /\ has (fun k => negb (Nat.even k)) u;
    rv_keep : forall t, nth_error vis t = Some true -> nth_error ghost t <> Some true ->
      (exists u, region t u /\ has Nat.even u) \/ forall u, region t u -> ~ has (fun _ => true) u }.
  Lemma regions_ok l : forall vis ghost, rinv vis ghost -> (forall t, In t l -> t < length m) ->
    exists g vis', regions INV m vis ghost l = Some g /\ rinv vis' g /\ (forall t, nth_error vis t = Some true -> nth_error vis' t = Some true) /\
      forall t, In t l -> real t -> nth_error vis' t = Some true.
  Proof.
    induction l as [|i l IH]; intros vis ghost R Hl.
    { exists ghost, vis. split; [reflexivity|]. split; auto. split; [auto|intros t []]. }
    assert (Li : i < length m) by (apply Hl; now left). cbn [regions].
    destruct (bool_view vis i) as [Ev|(Ev & Ev')]; [rewrite (rv_lv _ _ R); auto|..]; rewrite Ev.
    - destruct (nth_error_ex ghost i) as (b & Eb); [rewrite (rv_lg _ _ R); auto|]. rewrite Eb. cbn [orb].
      destruct (IH vis ghost R) as (g & vis' & E & R' & M & H); [intros; apply Hl; now right|]. exists g, vis'. split; auto. split; auto. split; auto.
      intros t [<-|Ht] Rt; auto.
    - destruct (bool_view ghost i) as [Eg|(Eg & Eg')]; [rewrite (rv_lg _ _ R); auto|..]; rewrite Eg; cbn [orb].
      { destruct (IH vis ghost R) as (g & vis' & E & R' & M & H); [intros; apply Hl; now right|]. exists g, vis'. split; auto. split; auto. split; auto.
        intros t [<-|Ht] Rt; auto. destruct (rv_g _ _ R _ Eg); [contradiction|]. now apply M. }
      assert (Ri : real i).
      { unfold TriSegSpec.real. destruct (bool_view ghost0 i) as [X|(X & _)]; [lia| |exact X]. exfalso. apply Eg', (rv_g0 _ _ R); auto. unfold TriSegSpec.real. congruence. }
      destruct (set_true_view vis i) as (vis1 & -> & L1 & H1); [rewrite (rv_lv _ _ R); auto|].
      destruct (flood_ok vis ghost i (rv_lv _ _ R) (rv_lg _ _ R) (rv_closed _ _ R) (rv_g _ _ R) (rv_g0 _ _ R) (S (length m)) 0 (vis1, [i], 2)) as (st & -> & F).
      { constructor; cbn [fst snd].
        - rewrite L1. apply (rv_lv _ _ R).
        - repeat constructor. intros [].
        - intros t [<-|[]]. split; [now constructor|auto].
        - now left.
        - intros t. rewrite H1. cbn. intuition.
        - intros t j u g (_ & p & Lp & _). lia.
        - left. split; auto. intros t j k (_ & p & Lp & _). lia.
        - intros t j (_ & p & Lp & _). lia. }
      { lia. } { lia. }
      pose proof (flood_region vis i st F) as Q. destruct st as [[vis2 q] flag]. cbn [fst snd] in *.
      assert (Rq : forall t, In t q -> forall u, region t u -> In u q) by (intros t Ht u Hu; apply Q; apply Q in Ht; eapply region_trans; eauto).
      assert (Cl : forall t u, nth_error vis2 t = Some true -> joined t u -> nth_error vis2 u = Some true).
      { intros t u Ht Jn. apply (fv_vis _ _ _ _ F). apply (fv_vis _ _ _ _ F) in Ht. cbn [fst snd] in *. destruct Ht as [Ht|Ht]; [left; eapply (rv_closed _ _ R); eauto|right].
        apply (Rq t Ht). eapply region_step; [constructor; apply Jn|exact Jn]. }
      destruct (Nat.eqb_spec flag 0) as [->|Nf].
      + destruct (drop_ok q ghost (rv_lg _ _ R)) as (gh & -> & Lgh & Hgh); [intros t Ht; eapply real_lt, region_real, Q; eauto|].
        assert (R2 : rinv vis2 gh).
        { constructor; auto.
          - apply (fv_len _ _ _ _ F).
          - intros t Lt Nt. apply Hgh. left. apply (rv_g0 _ _ R); auto.
          - intros t Ht. apply Hgh in Ht. destruct Ht as [Ht|Ht].
            + destruct (rv_g _ _ R _ Ht); [auto|right; apply (fv_vis _ _ _ _ F); auto].
            + right. apply (fv_vis _ _ _ _ F). auto.
          - intros t u Rt Ht Ru. apply Hgh. apply Hgh in Ht. destruct Ht as [Ht|Ht]; [left; eapply (rv_same _ _ R); eauto|right; eauto].
          - intros t Rt Ht. apply Hgh in Ht. destruct Ht as [Ht|Ht]; [now apply (rv_drop _ _ R)|].
            destruct (fv_flag _ _ _ _ F) as [(A & _)|[(A & _)|(_ & t1 & j1 & k1 & (_ & P1) & I1 & E1 & N1 & Ev1)]]; cbn [fst snd] in *; try discriminate.
            exists t1. split; [apply region_trans with i; [apply region_sym; now apply Q|now apply Q]|]. exists j1, k1. rewrite Ev1. auto.
          - intros t Ht Nt. assert (~ In t q /\ nth_error ghost t <> Some true) as (Nq & Ng) by (split; intros C; apply Nt, Hgh; auto).
            apply (fv_vis _ _ _ _ F) in Ht. cbn [fst snd] in Ht. destruct Ht as [Ht|Ht]; [|contradiction]. now apply (rv_keep _ _ R). }
        destruct (IH vis2 gh R2) as (g & vis' & E & R' & M & H); [intros; apply Hl; now right|].
        exists g, vis'. split; auto. split; auto. split.
        * intros t Ht. apply M, (fv_vis _ _ _ _ F). auto.
        * intros t [<-|Ht] Rt; auto. apply M, (fv_vis _ _ _ _ F). right. apply (fv_i _ _ _ _ F).
      + assert (R2 : rinv vis2 ghost).
        { constructor; auto; try apply R.
          - apply (fv_len _ _ _ _ F).
          - intros t Ht. destruct (rv_g _ _ R _ Ht); [auto|right; apply (fv_vis _ _ _ _ F); auto].
          - intros t Ht Nt. apply (fv_vis _ _ _ _ F) in Ht. cbn [fst snd] in Ht. destruct Ht as [Ht|Ht]; [now apply (rv_keep _ _ R)|].
            destruct (fv_flag _ _ _ _ F) as [(A & B)|[(_ & t1 & j1 & k1 & (_ & P1) & I1 & E1 & N1 & Ev1)|(A & _)]]; cbn [fst snd] in *; [..|contradiction].
            + right. intros u Ru (j & k & J & Em & Nk & _). apply Nk. eapply (B u j k); auto. split; auto. eauto.
            + left. exists t1. split; [apply region_trans with i; [apply region_sym; now apply Q|now apply Q]|]. exists j1, k1. auto. }
        destruct (IH vis2 ghost R2) as (g & vis' & E & R' & M & H); [intros; apply Hl; now right|].
        exists g, vis'. split; auto. split; auto. split.
        * intros t Ht. apply M, (fv_vis _ _ _ _ F). auto.
        * intros t [<-|Ht] Rt; auto. apply M, (fv_vis _ _ _ _ F). right. apply (fv_i _ _ _ _ F).
  Qed.
End Regions.
