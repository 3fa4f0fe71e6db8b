(** The last stages of incircle_adapt and orient3d_adapt. *)
From Coq Require Import ZArith Reals List Bool Lia Lra.
From Flocq Require Import Core BinarySingleNaN.
From Verif Require Import Lib F64 F64Facts Expansion Explicit ExpReal ExpFloat ExpZero ExpEst ExpSpec ExplicitSpec ExplicitProofs.
Import ListNotations.
Local Open Scope R_scope.

Lemma num_two : forall a, num (-180) 101 a -> num (-180) 102 (fmul f_two a) /\ val (fmul f_two a) = 2 * val a.
Proof.
  intros a (F & M & Ba). assert (V2 : val f_two = 2).
  { change (val f_two) with (F2R (Float radix2 4503599627370496 (-51))). unfold F2R. cbn [Fnum Fexp]. simpl. lra. }
  assert (Q : Rabs (val f_two * val a) <= B 102).
  { rewrite V2, Rabs_mult, (Rabs_pos_eq 2) by lra. change 102%Z with (101 + 1)%Z. rewrite B_succ. lra. }
  destruct (fmul_bound 102 f_two a) as (F1 & B1); auto; [lia|].
  destruct (fmul_ok _ _ F1) as (_ & _ & V). rewrite V2 in V.
  assert (E : val (fmul f_two a) = 2 * val a).
  { rewrite V. apply rn_id. destruct (fmt_ex (val a) (val_fmt a)) as (m & e & E1 & E2 & E3).
    apply fmt_mult with (e + 1)%Z; [|lia|].
    - exists m. rewrite E1, B_succ. ring.
    - rewrite E1. replace (2 * (IZR m * B e)) with (IZR m * B (e + 1)) by (rewrite B_succ; ring).
      rewrite Rabs_mult, (Rabs_pos_eq (B _)) by (left; apply B_pos). rewrite <- abs_IZR.
      replace (e + 1 + 53)%Z with (53 + (e + 1))%Z by lia. rewrite (B_plus 53). apply Rmult_le_compat_r; [left; apply B_pos|].
      change (B 53) with (IZR (2 ^ 53)). apply IZR_le. lia. }
  split; auto. split; auto. split; auto. rewrite E. destruct M as (k & ->). exists (2 * k)%Z. rewrite mult_IZR. ring.
Qed.

Ltac fact_acc e := match goal with H : acc _ _ e _ |- _ => constr:(H) end.
Ltac norm_acc H :=
  match type of H with acc ?k ?n ?l ?v =>
    let x := fresh "v" in let E := fresh "Ev" in remember v as x eqn:E in H end.
(** Add a representation to the accumulator [f]. *)
Ltac do_acc :=
  match goal with
  | |- context [fast_expansion_sum_zeroelim ?f ?t] =>
    let Hf := fact_acc f in let Ht := fact_rep t in
    let h := fresh "f" in let E := fresh "E" in let X := fresh "Xf" in let H := fresh "Hf" in
    destruct (acc_add _ _ _ _ _ _ _ Hf (rep_term _ _ _ _ _ Ht ltac:(znum) ltac:(znum))) as (h & E & X & H); [lia|lia|]; rewrite E; clear E; norm_acc H
  end.
Notation nA := (num (-180) 101).
Notation nT := (num (-180) 100).

(** incircle *)
Lemma ic_step1_ok : forall xt bc x cc y bb z fin k n v vbc vcc vbb,
  nT xt -> nA x -> nA y -> nA z -> rep (-360) 206 4 bc vbc ->
  (nonzero xt = true -> rep (-360) 206 4 cc vcc) -> (nonzero xt = true -> rep (-360) 206 4 bb vbb) ->
  expn fin -> acc k n fin v -> (0 <= k <= 40)%Z -> (n + 48 <= 4096)%Z ->
  exists e fin', ic_step1 xt bc x cc y bb z fin = Some (e, fin') /\
    (nonzero xt = true -> rep (-540) 309 8 e (vbc * val xt)) /\ expn fin' /\
    acc (k + 1) (n + 48) fin' (v + val xt * (2 * val x * vbc + val y * vcc - val z * vbb)).
Proof.
  intros xt bc x cc y bb z fin k n v vbc vcc vbb Nt Nx Ny Nz Hbc Hcc Hbb X A Tk Tn. unfold ic_step1.
  destruct (nonzero xt) eqn:Et.
  - specialize (Hcc eq_refl). specialize (Hbb eq_refl). unfold ic_helper1. destruct (num_two x Nx) as (N2 & V2).
    repeat do_op. do_acc. eexists; eexists; split; [reflexivity|]. split; [intros _; subst; eassumption|]. split; auto.
    match goal with H : acc _ _ ?f0 ?w |- acc _ _ ?f0 _ => replace (v + _) with w; [apply acc_more with (1 := H); lia|] end.
    subst. rewrite V2, ?fneg_val by apply fneg_val. ring.
  - apply nonzero_false in Et. destruct Et as [_ Et]. exists [], fin. split; auto. split; [discriminate|]. split; auto.
    rewrite Et, Rmult_0_l, Rplus_0_r. apply acc_more with (1 := A); lia.
Qed.

Lemma ic_scaled2_ok : forall z e t fin k n v u, nT z -> nT t -> rep (-360) 206 4 e u -> expn fin -> acc k n fin v ->
  (0 <= k <= 40)%Z -> (n + 16 <= 4096)%Z ->
  exists fin', ic_scaled2 z e t fin = Some fin' /\ expn fin' /\ acc (k + 1) (n + 16) fin' (v + u * val t * val z).
Proof.
  intros z e t fin k n v u Nz Nt He X A Tk Tn. unfold ic_scaled2. destruct (nonzero z) eqn:Ez.
  - repeat do_op. do_acc. eexists; split; [reflexivity|]. split; auto. subst. auto.
  - apply nonzero_false in Ez. destruct Ez as [_ Ez]. exists fin. split; auto. split; auto.
    rewrite Ez, Rmult_0_r, Rplus_0_r. apply acc_more with (1 := A); lia.
Qed.
Lemma ic_bct_ok : forall bxt byt cxt cyt bx by_ cx cy,
  nT bxt -> nT byt -> nT cxt -> nT cyt -> nA bx -> nA by_ -> nA cx -> nA cy ->
  exists bct bctt, ic_bct bxt byt cxt cyt bx by_ cx cy = Some (bct, bctt) /\
    rep (-360) 208 8 bct (val bxt * val cy + val bx * val cyt - val cxt * val by_ - val cx * val byt) /\
    rep (-360) 206 4 bctt (val bxt * val cyt - val cxt * val byt).
Proof.
  intros bxt byt cxt cyt bx by_ cx cy N1 N2 N3 N4 N5 N6 N7 N8. unfold ic_bct.
  destruct (_ || _) eqn:E.
  - do_prod. do_prod. cbv zeta. do_quad. do_prod. do_prod. do_quad. do_op. do_prod. do_prod. do_quad.
    eexists; eexists; split; [reflexivity|]. split.
    + match goal with H : rep _ _ _ ?q ?w |- rep _ _ _ ?q _ => replace (_ - _) with w; [apply rep_weak with (1 := H); lia|] end. subst. rewrite ?fneg_val by apply fneg_val. ring.
    + subst. match goal with H : rep _ _ _ ?q ?w |- rep _ _ _ ?q ?w => apply rep_weak with (1 := H); lia end.
  - repeat (apply orb_false_iff in E; destruct E as [E ?]).
    repeat match goal with H : nonzero ?t = false |- _ => apply nonzero_false in H; destruct H as [_ H] end.
    exists [fzero], [fzero]. split; auto.
    rewrite E, H, H0, H1. rewrite ?Rmult_0_l, ?Rmult_0_r, ?Rplus_0_r, ?Rminus_0_r. split; apply rep_zero; lia.
Qed.
Lemma ic_half_x_ok : forall axt byt cyt ax axtbc bct bctt bb cc fin k n v vbc vbct vbctt vbb vcc,
  nT axt -> nT byt -> nT cyt -> nA ax -> rep (-540) 309 8 axtbc (vbc * val axt) ->
  rep (-360) 208 8 bct vbct -> rep (-360) 206 4 bctt vbctt -> rep (-360) 206 4 bb vbb -> rep (-360) 206 4 cc vcc ->
  expn fin -> acc k n fin v -> (0 <= k <= 36)%Z -> (n + 144 <= 4096)%Z ->
  exists fin', ic_half_x axt byt cyt ax axtbc bct bctt bb cc fin = Some fin' /\ expn fin' /\
    acc (k + 4) (n + 144) fin' (v + (vbc * val axt * val axt + vbct * val axt * (2 * val ax) + vcc * val axt * val byt
       - vbb * val axt * val cyt + vbct * val axt * val axt + vbctt * val axt * (2 * val ax) + vbctt * val axt * val axt)).
Proof.
  intros axt byt cyt ax axtbc bct bctt bb cc fin k n v vbc vbct vbctt vbb vcc Nt Ny Nz Nx H1 H2 H3 H4 H5 X A Tk Tn.
  unfold ic_half_x. destruct (num_two ax Nx) as (N2 & V2). repeat do_op. do_acc.
  edestruct (ic_scaled2_ok byt cc axt f) as (f1 & EE1 & XX1 & AA1); [assumption|assumption|eassumption|assumption|eassumption|lia|lia|].
  rewrite EE1.
  edestruct (ic_scaled2_ok cyt bb (fneg axt) f1) as (f2 & EE2 & XX2 & AA2);
    [assumption|apply num_neg; assumption|eassumption|assumption|eassumption|lia|lia|].
  rewrite EE2. do_acc. eexists; split; [reflexivity|]. split; auto.
  match goal with H : acc _ _ ?f0 ?w |- acc _ _ ?f0 _ => replace (v + _) with w; [apply acc_more with (1 := H); lia|] end.
  subst. rewrite V2, ?fneg_val by apply fneg_val. ring.
Qed.
Lemma ic_half_y_ok : forall axt ax axtbc bct bctt fin k n v vbc vbct vbctt,
  nT axt -> nA ax -> rep (-540) 309 8 axtbc (vbc * val axt) ->
  rep (-360) 208 8 bct vbct -> rep (-360) 206 4 bctt vbctt ->
  expn fin -> acc k n fin v -> (0 <= k <= 36)%Z -> (n + 144 <= 4096)%Z ->
  exists fin', ic_half_y axt ax axtbc bct bctt fin = Some fin' /\ expn fin' /\
    acc (k + 2) (n + 112) fin' (v + (vbc * val axt * val axt + vbct * val axt * (2 * val ax)
       + vbct * val axt * val axt + vbctt * val axt * (2 * val ax) + vbctt * val axt * val axt)).
Proof.
  intros axt ax axtbc bct bctt fin k n v vbc vbct vbctt Nt Nx H1 H2 H3 X A Tk Tn.
  unfold ic_half_y. destruct (num_two ax Nx) as (N2 & V2). repeat do_op. do_acc. do_acc.
  eexists; split; [reflexivity|]. split; auto.
  match goal with H : acc _ _ ?f0 ?w |- acc _ _ ?f0 _ => replace (v + _) with w; [apply acc_more with (1 := H); lia|] end.
  subst. rewrite V2. ring.
Qed.
Lemma ic_helper2_ok : forall axt ayt bxt byt cxt cyt ax ay bx by_ cx cy axtbc aytbc bb cc fin k n v vbc vbb vcc,
  nT axt -> nT ayt -> nT bxt -> nT byt -> nT cxt -> nT cyt -> nA ax -> nA ay -> nA bx -> nA by_ -> nA cx -> nA cy ->
  (nonzero axt = true -> rep (-540) 309 8 axtbc (vbc * val axt)) -> (nonzero ayt = true -> rep (-540) 309 8 aytbc (vbc * val ayt)) ->
  (nonzero axt = true -> rep (-360) 206 4 bb vbb) -> (nonzero axt = true -> rep (-360) 206 4 cc vcc) ->
  expn fin -> acc k n fin v -> (0 <= k <= 30)%Z -> (n + 400 <= 4096)%Z ->
  exists fin', ic_helper2 axt ayt bxt byt cxt cyt ax ay bx by_ cx cy axtbc aytbc bb cc fin = Some fin' /\ expn fin' /\
    acc (k + 6) (n + 256) fin' (v +
      (let bct := val bxt * val cy + val bx * val cyt - val cxt * val by_ - val cx * val byt in
       let bctt := val bxt * val cyt - val cxt * val byt in
       (vbc + bct + bctt) * (val axt * val axt + val ayt * val ayt)
       + 2 * (bct + bctt) * (val ax * val axt + val ay * val ayt) + val axt * (val byt * vcc - val cyt * vbb))).
Proof.
  intros axt ayt bxt byt cxt cyt ax ay bx by_ cx cy axtbc aytbc bb cc fin k n v vbc vbb vcc
    N1 N2 N3 N4 N5 N6 N7 N8 N9 N10 N11 N12 R1 R2 R3 R4 X A Tk Tn. unfold ic_helper2.
  destruct (nonzero axt || nonzero ayt) eqn:E.
  - destruct (ic_bct_ok bxt byt cxt cyt bx by_ cx cy) as (bct & bctt & Eb & Hb & Ht); auto. rewrite Eb. cbv zeta.
    set (bv := val bxt * val cy + val bx * val cyt - val cxt * val by_ - val cx * val byt) in *.
    set (btv := val bxt * val cyt - val cxt * val byt) in *. clearbody bv btv.
    assert (Q : exists f1, (if nonzero axt then ic_half_x axt byt cyt ax axtbc bct bctt bb cc fin else Some fin) = Some f1 /\ expn f1 /\
      acc (k + 4) (n + 144) f1 (v + (vbc * val axt * val axt + bv * val axt * (2 * val ax) + vcc * val axt * val byt
       - vbb * val axt * val cyt + bv * val axt * val axt + btv * val axt * (2 * val ax) + btv * val axt * val axt))).
    { destruct (nonzero axt) eqn:Ex.
      - apply ic_half_x_ok; auto; lia.
      - apply nonzero_false in Ex. destruct Ex as [_ Ex]. exists fin. split; auto. split; auto. rewrite Ex.
        replace (v + _) with v by ring. apply acc_more with (1 := A); lia. }
    destruct Q as (f1 & -> & X1 & A1).
    destruct (nonzero ayt) eqn:Ey.
    + edestruct (ic_half_y_ok ayt ay aytbc bct bctt f1) as (f2 & E2 & X2 & A2); [assumption|assumption|exact (R2 eq_refl)|eassumption|eassumption|assumption|eassumption|lia|lia|].
      exists f2. split; auto. split; auto.
      match goal with H : acc _ _ f2 ?w |- acc _ _ f2 _ => replace (v + _) with w; [apply acc_more with (1 := H); lia|] end. ring.
    + apply nonzero_false in Ey. destruct Ey as [_ Ey]. exists f1. split; auto. split; auto. rewrite Ey.
      match goal with H : acc _ _ f1 ?w |- acc _ _ f1 _ => replace (v + _) with w; [apply acc_more with (1 := H); lia|] end. ring.
  - apply orb_false_iff in E. destruct E as [E1 E2]. apply nonzero_false in E1, E2. destruct E1 as [_ E1]. destruct E2 as [_ E2].
    exists fin. split; auto. split; auto. cbv zeta. rewrite E1, E2.
    match goal with H : acc _ _ fin ?w |- acc _ _ fin _ => replace (v + _) with w by ring; apply acc_more with (1 := H); lia end.
Qed.

Lemma sq_cond : forall (b : bool) x y t, nA x -> nA y -> (nonzero t = true -> b = true) ->
  nonzero t = true -> rep (-360) 206 4 (ic_sq b x y) (val x * val x + val y * val y).
Proof.
  intros b x y t Nx Ny H E. rewrite (H E).
  pose proof (rep_sq (-180) 101 x y Nx Ny ltac:(lia) ltac:(lia) ltac:(lia) ltac:(lia)) as R. exact R.
Qed.
Lemma acc_last : forall k n l v w, acc k n l v -> expn l -> v = w -> exists r, last_opt l = Some r /\ same_sign r w.
Proof. intros k n l v w A X E. apply (last_same _ _ _ _ _ _ A X E). Qed.

Lemma incircle_last_ok : forall bc ca ab fin adx ady bdx bdy cdx cdy axt ayt bxt byt cxt cyt,
  nT axt -> nT ayt -> nT bxt -> nT byt -> nT cxt -> nT cyt ->
  nA adx -> nA ady -> nA bdx -> nA bdy -> nA cdx -> nA cdy ->
  rep (-360) 206 4 bc (val bdx * val cdy - val cdx * val bdy) ->
  rep (-360) 206 4 ca (val cdx * val ady - val adx * val cdy) ->
  rep (-360) 206 4 ab (val adx * val bdy - val bdx * val ady) -> forall vf,
  expn fin -> acc 0 96 fin vf ->
  vf = (sq (val adx) + sq (val ady)) * (val bdx * val cdy - val cdx * val bdy)
    + (sq (val bdx) + sq (val bdy)) * (val cdx * val ady - val adx * val cdy)
    + (sq (val cdx) + sq (val cdy)) * (val adx * val bdy - val bdx * val ady) ->
  let a1 := val adx + val axt in let a2 := val ady + val ayt in
  let b1 := val bdx + val bxt in let b2 := val bdy + val byt in
  let c1 := val cdx + val cxt in let c2 := val cdy + val cyt in
  exists r, incircle_last bc ca ab fin adx ady bdx bdy cdx cdy axt ayt bxt byt cxt cyt = Some r /\
    same_sign r ((sq a1 + sq a2) * (b1 * c2 - c1 * b2) + (sq b1 + sq b2) * (c1 * a2 - a1 * c2) + (sq c1 + sq c2) * (a1 * b2 - b1 * a2)).
Proof.
  intros bc ca ab fin adx ady bdx bdy cdx cdy axt ayt bxt byt cxt cyt T1 T2 T3 T4 T5 T6 N1 N2 N3 N4 N5 N6 Rbc Rca Rab vf X A Ef a1 a2 b1 b2 c1 c2.
  unfold incircle_last. cbv zeta.
  set (aa := ic_sq (nonzero bxt || _ || _ || _) adx ady). set (bb := ic_sq _ bdx bdy). set (cc := ic_sq _ cdx cdy).
  assert (Ca : forall t, (t = bxt \/ t = byt \/ t = cxt \/ t = cyt) -> nonzero t = true -> rep (-360) 206 4 aa (val adx * val adx + val ady * val ady)).
  { intros t Ht E. unfold aa. apply sq_cond with t; auto. intros E'. destruct Ht as [->|[->|[->| ->]]]; rewrite E', ?orb_true_r; auto. }
  assert (Cb : forall t, (t = cxt \/ t = cyt \/ t = axt \/ t = ayt) -> nonzero t = true -> rep (-360) 206 4 bb (val bdx * val bdx + val bdy * val bdy)).
  { intros t Ht E. unfold bb. apply sq_cond with t; auto. intros E'. destruct Ht as [->|[->|[->| ->]]]; rewrite E', ?orb_true_r; auto. }
  assert (Cc : forall t, (t = axt \/ t = ayt \/ t = bxt \/ t = byt) -> nonzero t = true -> rep (-360) 206 4 cc (val cdx * val cdx + val cdy * val cdy)).
  { intros t Ht E. unfold cc. apply sq_cond with t; auto. intros E'. destruct Ht as [->|[->|[->| ->]]]; rewrite E', ?orb_true_r; auto. }
  clearbody aa bb cc.
  edestruct (ic_step1_ok axt bc adx cc bdy bb cdy fin) as (axtbc & f1 & -> & R1 & X1 & A1);
    [assumption|assumption|assumption|assumption|eassumption|apply Cc; auto|apply Cb; auto|assumption|eassumption|lia|lia|]. clear A X.
  edestruct (ic_step1_ok ayt bc ady bb cdx cc bdx f1) as (aytbc & f2 & -> & R2 & X2 & A2);
    [assumption|assumption|assumption|assumption|eassumption|apply Cb; auto|apply Cc; auto|assumption|eassumption|lia|lia|]. clear A1 X1.
  edestruct (ic_step1_ok bxt ca bdx aa cdy cc ady f2) as (bxtca & f3 & -> & R3 & X3 & A3);
    [assumption|assumption|assumption|assumption|eassumption|apply Ca; auto|apply Cc; auto|assumption|eassumption|lia|lia|]. clear A2 X2.
  edestruct (ic_step1_ok byt ca bdy cc adx aa cdx f3) as (bytca & f4 & -> & R4 & X4 & A4);
    [assumption|assumption|assumption|assumption|eassumption|apply Cc; auto|apply Ca; auto|assumption|eassumption|lia|lia|]. clear A3 X3.
  edestruct (ic_step1_ok cxt ab cdx bb ady aa bdy f4) as (cxtab & f5 & -> & R5 & X5 & A5);
    [assumption|assumption|assumption|assumption|eassumption|apply Cb; auto|apply Ca; auto|assumption|eassumption|lia|lia|]. clear A4 X4.
  edestruct (ic_step1_ok cyt ab cdy aa bdx bb adx f5) as (cytab & f6 & -> & R6 & X6 & A6);
    [assumption|assumption|assumption|assumption|eassumption|apply Ca; auto|apply Cb; auto|assumption|eassumption|lia|lia|]. clear A5 X5.
  edestruct (ic_helper2_ok axt ayt bxt byt cxt cyt adx ady bdx bdy cdx cdy axtbc aytbc bb cc f6) as (f7 & -> & X7 & A7);
    [assumption|assumption|assumption|assumption|assumption|assumption|assumption|assumption|assumption|assumption|assumption|assumption
    |exact R1|exact R2|apply Cb; auto|apply Cc; auto|assumption|eassumption|lia|lia|]. clear A6 X6.
  edestruct (ic_helper2_ok bxt byt cxt cyt axt ayt bdx bdy cdx cdy adx ady bxtca bytca cc aa f7) as (f8 & -> & X8 & A8);
    [assumption|assumption|assumption|assumption|assumption|assumption|assumption|assumption|assumption|assumption|assumption|assumption
    |exact R3|exact R4|apply Cc; auto|apply Ca; auto|assumption|eassumption|lia|lia|]. clear A7 X7.
  edestruct (ic_helper2_ok cxt cyt axt ayt bxt byt cdx cdy adx ady bdx bdy cxtab cytab aa bb f8) as (f9 & -> & X9 & A9);
    [assumption|assumption|assumption|assumption|assumption|assumption|assumption|assumption|assumption|assumption|assumption|assumption
    |exact R5|exact R6|apply Ca; auto|apply Cb; auto|assumption|eassumption|lia|lia|]. clear A8 X8.
  apply (acc_last _ _ _ _ _ A9 X9). subst vf a1 a2 b1 b2 c1 c2. unfold sq. ring.
Qed.

Lemma incircle_adapt_ok : forall ax ay bx by_ cx cy dx dy p,
  coord ax -> coord ay -> coord bx -> coord by_ -> coord cx -> coord cy -> coord dx -> coord dy ->
  exists r, incircle_adapt ax ay bx by_ cx cy dx dy p = Some r /\
    (same_sign r (incircle_det (val ax) (val ay) (val bx) (val by_) (val cx) (val cy) (val dx) (val dy)) \/
     beyond r (fmul icc_err_boundb p) = true \/
     exists det_b, beyond r (fadd (fmul icc_err_boundc p) (fmul result_err_bound (fabs det_b))) = true).
Proof.
  intros ax ay bx by_ cx cy dx dy p Ax Ay Bx By Cx Cy Dx Dy. apply coord_num in Ax, Ay, Bx, By, Cx, Cy, Dx, Dy.
  unfold incircle_adapt. cbv zeta.
  do_sub ax dx adx adxt. do_sub bx dx bdx bdxt. do_sub cx dx cdx cdxt.
  do_sub ay dy ady adyt. do_sub by_ dy bdy bdyt. do_sub cy dy cdy cdyt.
  repeat do_prod. repeat do_quad. repeat do_op.
  stage_b. stage_t. stage_c.
  repeat match goal with H : beyond _ _ = false |- _ => clear H end.
  match goal with |- exists r, incircle_last ?q1 ?q2 ?q3 ?f _ _ _ _ _ _ _ _ _ _ _ _ = _ /\ _ =>
    match goal with H1 : rep _ _ _ q1 ?w1, H2 : rep _ _ _ q2 ?w2, H3 : rep _ _ _ q3 ?w3, H4 : rep _ _ _ f ?w4, X4 : expn f |- _ =>
      edestruct (incircle_last_ok q1 q2 q3 f adx ady bdx bdy cdx cdy adxt adyt bdxt bdyt cdxt cdyt) as (r & E & S);
      [assumption|assumption|assumption|assumption|assumption|assumption|assumption|assumption|assumption|assumption|assumption|assumption
      |subst w1; exact H1|subst w2; exact H2|subst w3; exact H3|exact X4|apply rep_term with (1 := H4); lia|subst; unfold sq; ring|]
    end end.
  exists r. split; auto. left. cbv zeta in S.
  match type of S with same_sign _ ?w => replace (incircle_det _ _ _ _ _ _ _ _) with w; [exact S|] end.
  repeat match goal with E : val _ + val _ = _ |- _ => rewrite E; clear E end. det_unf. ring.
Qed.

(** orient3d *)
Lemma feq_nz : forall t, fin t = true -> feq t fzero = negb (nonzero t).
Proof. intros. unfold nonzero. rewrite negb_involutive. reflexivity. Qed.
Lemma rep_pair4' : forall a b v, nT a -> nA b -> val a * val b = v -> rep (-360) 206 4 (pair4 (two_product a b)) v.
Proof.
  intros a b v Na Nb <-. pose proof (rep_pair4 _ _ _ _ a b Na Nb) as H. apply rep_weak with (1 := H ltac:(lia) ltac:(lia) ltac:(lia) ltac:(lia) ltac:(lia) ltac:(lia)); lia.
Qed.
Lemma o3_helper1_ok : forall axt ayt bx by_ cx cy, nT axt -> nT ayt -> nA bx -> nA by_ -> nA cx -> nA cy ->
  exists tb tc, o3_helper1 axt ayt bx by_ cx cy = (tb, tc) /\
    rep (-360) 206 4 tb (val axt * val by_ - val ayt * val bx) /\ rep (-360) 206 4 tc (val ayt * val cx - val axt * val cy).
Proof.
  intros axt ayt bx by_ cx cy N1 N2 N3 N4 N5 N6. unfold o3_helper1.
  destruct (feq axt fzero) eqn:Ex; destruct (feq ayt fzero) eqn:Ey;
    try (apply feq_zero in Ex; [|apply N1]); try (apply feq_zero in Ey; [|apply N2]).
  - eexists; eexists; split; [reflexivity|]. rewrite Ex, Ey, !Rmult_0_l, Rminus_0_r. split; apply rep_zeros4.
  - eexists; eexists; split; [reflexivity|]. rewrite Ex, !Rmult_0_l, Rminus_0_r.
    split; apply rep_pair4'; auto; [apply num_neg; auto|]. rewrite fneg_val. ring.
  - eexists; eexists; split; [reflexivity|]. rewrite Ey, !Rmult_0_l, Rminus_0_r.
    split; apply rep_pair4'; auto; [apply num_neg; auto|]. rewrite fneg_val. ring.
  - do_prod. do_prod. cbv zeta. do_quad. do_prod. do_prod. do_quad.
    eexists; eexists; split; [reflexivity|]. subst. split.
    + apply rep_weak with (1 := Hq); lia.
    + apply rep_weak with (1 := Hq0); lia.
Qed.
Lemma o3_round_ok : forall e f z fin k n v u w, rep (-360) 206 4 e u -> rep (-360) 206 4 f w -> nA z ->
  expn fin -> acc k n fin v -> (0 <= k <= 40)%Z -> (n + 16 <= 4096)%Z ->
  exists s fin', o3_round e f z fin = Some (s, fin') /\ rep (-360) 209 8 s (u + w) /\ expn fin' /\
    acc (k + 1) (n + 16) fin' (v + (u + w) * val z).
Proof.
  intros e f z fin k n v u w He Hf Nz X A Tk Tn. unfold o3_round. repeat do_op. do_acc.
  eexists; eexists; split; [reflexivity|]. subst. split; [assumption|]. split; assumption.
Qed.
Lemma o3_scaled_ok : forall t e fin m ne k n v u, nT t -> rep (-360) m ne e u -> (m <= 209)%Z -> (-974 <= m)%Z -> (1 <= ne <= 8)%Z ->
  expn fin -> acc k n fin v -> (0 <= k <= 40)%Z -> (n + 16 <= 4096)%Z ->
  exists fin', o3_scaled t e fin = Some fin' /\ expn fin' /\ acc (k + 1) (n + 16) fin' (v + u * val t).
Proof.
  intros t e fin m ne k n v u Nt He Tm Tm' Te X A Tk Tn. unfold o3_scaled. destruct (nonzero t) eqn:Et.
  - assert (He' : rep (-360) 209 8 e u) by (apply rep_weak with (1 := He); lia). clear He. repeat do_op. do_acc.
    eexists; split; [reflexivity|]. subst. split; assumption.
  - apply nonzero_false in Et. destruct Et as [_ Et]. exists fin. split; auto. split; auto. rewrite Et, Rmult_0_r, Rplus_0_r.
    apply acc_more with (1 := A); lia.
Qed.
Lemma top_term : forall a b c, nT a -> nT b -> num (-180) 101 c ->
  rep (-540) 303 4 (quad (two_one_product (fst (two_product a b)) (snd (two_product a b)) c)) (val a * val b * val c).
Proof.
  intros a b c Na Nb Nc. pose proof (rep_top _ _ _ _ _ _ a b c Na Nb Nc) as H.
  apply rep_weak with (1 := H ltac:(lia) ltac:(lia) ltac:(lia) ltac:(lia) ltac:(lia) ltac:(lia) ltac:(lia) ltac:(lia) ltac:(lia) ltac:(lia) ltac:(lia)); lia.
Qed.
Lemma o3_half_ok : forall a b z zt fin k n v, nT a -> nT b -> nA z -> nT zt ->
  expn fin -> acc k n fin v -> (0 <= k <= 40)%Z -> (n + 8 <= 4096)%Z ->
  exists fin', o3_helper2_half (two_product a b) z zt fin = Some fin' /\ expn fin' /\
    acc (k + 2) (n + 8) fin' (v + val a * val b * (val z + val zt)).
Proof.
  intros a b z zt fin k n v Na Nb Nz Nt X A Tk Tn. unfold o3_helper2_half.
  pose proof (top_term a b z Na Nb Nz) as R1. do_acc.
  destruct (nonzero zt) eqn:Et.
  - assert (Nt' : num (-180) 101 zt) by (apply num_weak with (1 := Nt); lia).
    pose proof (top_term a b zt Na Nb Nt') as R2. clear A. do_acc. eexists; split; [reflexivity|]. split; auto.
    match goal with H : acc _ _ ?f0 ?w |- acc _ _ ?f0 _ => replace (v + _) with w; [apply acc_more with (1 := H); lia|] end. subst. ring.
  - apply nonzero_false in Et. destruct Et as [_ Et]. eexists; split; [reflexivity|]. split; auto.
    match goal with H : acc _ _ ?f0 ?w |- acc _ _ ?f0 _ => replace (v + _) with w; [apply acc_more with (1 := H); lia|] end. subst. rewrite Et. ring.
Qed.
Lemma o3_helper2_ok : forall axt byt bzt bz cz cyt czt fin k n v, nT axt -> nT byt -> nT bzt -> nA bz -> nA cz -> nT cyt -> nT czt ->
  expn fin -> acc k n fin v -> (0 <= k <= 36)%Z -> (n + 16 <= 4096)%Z ->
  exists fin', o3_helper2 axt byt bzt bz cz cyt czt fin = Some fin' /\ expn fin' /\
    acc (k + 4) (n + 16) fin' (v + val axt * (val byt * (val cz + val czt) - val cyt * (val bz + val bzt))).
Proof.
  intros axt byt bzt bz cz cyt czt fin k n v N1 N2 N3 N4 N5 N6 N7 X A Tk Tn. unfold o3_helper2.
  destruct (nonzero axt) eqn:Ea.
  - assert (Q : exists f1, (if nonzero byt then o3_helper2_half (two_product axt byt) cz czt fin else Some fin) = Some f1 /\ expn f1 /\
      acc (k + 2) (n + 8) f1 (v + val axt * val byt * (val cz + val czt))).
    { destruct (nonzero byt) eqn:Eb; [apply o3_half_ok; auto; lia|]. apply nonzero_false in Eb. destruct Eb as [_ Eb].
      exists fin. split; auto. split; auto. rewrite Eb. replace (v + _) with v by ring. apply acc_more with (1 := A); lia. }
    destruct Q as (f1 & -> & X1 & A1). destruct (nonzero cyt) eqn:Ec.
    + edestruct (o3_half_ok (fneg axt) cyt bz bzt f1) as (f2 & E2 & X2 & A2);
        [apply num_neg; assumption|assumption|assumption|assumption|assumption|eassumption|lia|lia|].
      exists f2. split; auto. split; auto. rewrite fneg_val in A2.
      match goal with H : acc _ _ ?f0 ?w |- acc _ _ ?f0 _ => replace (v + _) with w; [apply acc_more with (1 := H); lia|] end. ring.
    + apply nonzero_false in Ec. destruct Ec as [_ Ec]. exists f1. split; auto. split; auto. rewrite Ec.
      match goal with H : acc _ _ ?f0 ?w |- acc _ _ ?f0 _ => replace (v + _) with w; [apply acc_more with (1 := H); lia|] end. ring.
  - apply nonzero_false in Ea. destruct Ea as [_ Ea]. exists fin. split; auto. split; auto. rewrite Ea, Rmult_0_l, Rplus_0_r.
    apply acc_more with (1 := A); lia.
Qed.

Lemma orient3d_last_ok : forall bc ca ab fin adx ady adz bdx bdy bdz cdx cdy cdz axt ayt azt bxt byt bzt cxt cyt czt,
  nT axt -> nT ayt -> nT azt -> nT bxt -> nT byt -> nT bzt -> nT cxt -> nT cyt -> nT czt ->
  nA adx -> nA ady -> nA adz -> nA bdx -> nA bdy -> nA bdz -> nA cdx -> nA cdy -> nA cdz ->
  rep (-360) 206 4 bc (val bdx * val cdy - val cdx * val bdy) ->
  rep (-360) 206 4 ca (val cdx * val ady - val adx * val cdy) ->
  rep (-360) 206 4 ab (val adx * val bdy - val bdx * val ady) -> forall vf,
  expn fin -> acc 0 24 fin vf ->
  vf = val adz * (val bdx * val cdy - val cdx * val bdy)
    + val bdz * (val cdx * val ady - val adx * val cdy)
    + val cdz * (val adx * val bdy - val bdx * val ady) ->
  let a1 := val adx + val axt in let a2 := val ady + val ayt in let a3 := val adz + val azt in
  let b1 := val bdx + val bxt in let b2 := val bdy + val byt in let b3 := val bdz + val bzt in
  let c1 := val cdx + val cxt in let c2 := val cdy + val cyt in let c3 := val cdz + val czt in
  exists r, orient3d_last bc ca ab fin adx ady adz bdx bdy bdz cdx cdy cdz axt ayt azt bxt byt bzt cxt cyt czt = Some r /\
    same_sign r (a3 * (b1 * c2 - c1 * b2) + b3 * (c1 * a2 - a1 * c2) + c3 * (a1 * b2 - b1 * a2)
      + (val czt - val cxt) * (val ayt * b3 - val byt * a3)).
Proof.
  intros bc ca ab fin adx ady adz bdx bdy bdz cdx cdy cdz axt ayt azt bxt byt bzt cxt cyt czt
    T1 T2 T3 T4 T5 T6 T7 T8 T9 N1 N2 N3 N4 N5 N6 N7 N8 N9 Rbc Rca Rab vf X A Ef a1 a2 a3 b1 b2 b3 c1 c2 c3.
  unfold orient3d_last.
  destruct (o3_helper1_ok axt ayt bdx bdy cdx cdy) as (at_b & at_c & -> & Rab' & Rac'); auto.
  destruct (o3_helper1_ok bxt byt cdx cdy adx ady) as (bt_c & bt_a & -> & Rbc' & Rba'); auto.
  destruct (o3_helper1_ok cxt cyt adx ady bdx bdy) as (ct_a & ct_b & -> & Rca' & Rcb'); auto.
  edestruct (o3_round_ok bt_c ct_b adz fin) as (xyt0 & f1 & -> & R0 & X1 & A1); [eassumption|eassumption|assumption|assumption|eassumption|lia|lia|]. clear A X.
  edestruct (o3_round_ok ct_a at_c bdz f1) as (xyt1 & f2 & -> & R1 & X2 & A2); [eassumption|eassumption|assumption|assumption|eassumption|lia|lia|]. clear A1 X1.
  edestruct (o3_round_ok at_b bt_a cdz f2) as (xyt2 & f3 & -> & R2 & X3 & A3); [eassumption|eassumption|assumption|assumption|eassumption|lia|lia|]. clear A2 X2.
  edestruct (o3_scaled_ok azt bc f3) as (f4 & -> & X4 & A4); [assumption|eassumption|lia|lia|lia|assumption|eassumption|lia|lia|]. clear A3 X3.
  edestruct (o3_scaled_ok bzt ca f4) as (f5 & -> & X5 & A5); [assumption|eassumption|lia|lia|lia|assumption|eassumption|lia|lia|]. clear A4 X4.
  edestruct (o3_scaled_ok czt ab f5) as (f6 & -> & X6 & A6); [assumption|eassumption|lia|lia|lia|assumption|eassumption|lia|lia|]. clear A5 X5.
  edestruct (o3_helper2_ok axt byt bzt bdz cdz cyt czt f6) as (f7 & -> & X7 & A7);
    [assumption|assumption|assumption|assumption|assumption|assumption|assumption|assumption|eassumption|lia|lia|]. clear A6 X6.
  edestruct (o3_helper2_ok bxt cyt czt cdz adz ayt azt f7) as (f8 & -> & X8 & A8);
    [assumption|assumption|assumption|assumption|assumption|assumption|assumption|assumption|eassumption|lia|lia|]. clear A7 X7.
  edestruct (o3_helper2_ok czt ayt azt adz bdz byt bzt f8) as (f9 & -> & X9 & A9);
    [assumption|assumption|assumption|assumption|assumption|assumption|assumption|assumption|eassumption|lia|lia|]. clear A8 X8.
  edestruct (o3_scaled_ok azt xyt0 f9) as (f10 & -> & X10 & A10); [assumption|eassumption|lia|lia|lia|assumption|eassumption|lia|lia|]. clear A9 X9.
  edestruct (o3_scaled_ok bzt xyt1 f10) as (f11 & -> & X11 & A11); [assumption|eassumption|lia|lia|lia|assumption|eassumption|lia|lia|]. clear A10 X10.
  edestruct (o3_scaled_ok czt xyt2 f11) as (f12 & -> & X12 & A12); [assumption|eassumption|lia|lia|lia|assumption|eassumption|lia|lia|]. clear A11 X11.
  apply (acc_last _ _ _ _ _ A12 X12). subst vf a1 a2 a3 b1 b2 b3 c1 c2 c3. ring.
Qed.

(** The tail of a rounded difference. *)
Definition tail (a b : f64) : R := val a - val b - val (fsub a b).
Lemma orient3d_adapt_ok : forall ax ay az bx by_ bz cx cy cz dx dy dz p,
  coord ax -> coord ay -> coord az -> coord bx -> coord by_ -> coord bz -> coord cx -> coord cy -> coord cz -> coord dx -> coord dy -> coord dz ->
  exists r, orient3d_adapt ax ay az bx by_ bz cx cy cz dx dy dz p = Some r /\
    (same_sign r (orient3d_det (val ax) (val ay) (val az) (val bx) (val by_) (val bz) (val cx) (val cy) (val cz) (val dx) (val dy) (val dz)
       + (tail cz dz - tail cx dx) * (tail ay dy * (val bz - val dz) - tail by_ dy * (val az - val dz))) \/
     beyond r (fmul o3d_err_boundb p) = true \/
     exists det_b, beyond r (fadd (fmul o3d_err_boundc p) (fmul result_err_bound (fabs det_b))) = true).
Proof.
  intros ax ay az bx by_ bz cx cy cz dx dy dz p Ax Ay Az Bx By Bz Cx Cy Cz Dx Dy Dz.
  apply coord_num in Ax, Ay, Az, Bx, By, Bz, Cx, Cy, Cz, Dx, Dy, Dz.
  unfold orient3d_adapt, tail. cbv zeta.
  do_sub ax dx adx adxt. do_sub bx dx bdx bdxt. do_sub cx dx cdx cdxt.
  do_sub ay dy ady adyt. do_sub by_ dy bdy bdyt. do_sub cy dy cdy cdyt.
  do_sub az dz adz adzt. do_sub bz dz bdz bdzt. do_sub cz dz cdz cdzt.
  repeat do_prod. repeat do_quad. repeat do_op.
  stage_b. stage_t. stage_c.
  repeat match goal with H : beyond _ _ = false |- _ => clear H end.
  match goal with |- exists r, orient3d_last ?q1 ?q2 ?q3 ?f _ _ _ _ _ _ _ _ _ _ _ _ _ _ _ _ _ _ = _ /\ _ =>
    match goal with H1 : rep _ _ _ q1 ?w1, H2 : rep _ _ _ q2 ?w2, H3 : rep _ _ _ q3 ?w3, H4 : rep _ _ _ f ?w4, X4 : expn f |- _ =>
      edestruct (orient3d_last_ok q1 q2 q3 f adx ady adz bdx bdy bdz cdx cdy cdz adxt adyt adzt bdxt bdyt bdzt cdxt cdyt cdzt) as (r & E & S);
      [assumption|assumption|assumption|assumption|assumption|assumption|assumption|assumption|assumption|assumption|assumption|assumption|assumption|assumption|assumption|assumption|assumption|assumption
      |subst w1; exact H1|subst w2; exact H2|subst w3; exact H3|exact X4|apply rep_term with (1 := H4); lia|subst; ring|]
    end end.
  exists r. split; auto. left. cbv zeta in S.
  match type of S with same_sign _ ?w => replace (orient3d_det _ _ _ _ _ _ _ _ _ _ _ _ + _) with w; [exact S|] end.
  repeat match goal with E : val ?x + val ?t = ?r |- _ => rewrite E; replace (val t) with (r - val x) in * by lra; clear E end. det_unf. ring.
Qed.
