(** Rounding error against a power of the largest difference (the static
    filters), and the first stage of insphere. *)
From Coq Require Import ZArith Reals List Bool Lia Lra Psatz.
From Flocq Require Import Core BinarySingleNaN.
From Verif Require Import Lib F64 F64Facts Expansion Explicit ExpReal ExpFloat ExpZero ExpEst ExpSpec ExplicitSpec ExplicitProofs ErrBound ErrStageA.
Import ListNotations.
Local Open Scope R_scope.

(** [x] is computed from differences of magnitude at most [M] and would be [y]
    without rounding of the operations; [X] is the value for the exact
    differences. *)
Definition ap (M : R) (d : nat) (m n : R) (g w : Z) (x : f64) (X : R) : Prop :=
  num g w x /\ 0 <= m <= n /\
  exists y, Rabs y <= m * M ^ d /\ Rabs (val x - y) <= (n - m) * M ^ d /\ Rabs (X - y) <= (tt ^ d - 1) * (m * M ^ d).

Lemma Rabs_prod_err : forall a b x y ea eb A Bd, Rabs x <= A -> Rabs y <= Bd -> Rabs (a - x) <= ea -> Rabs (b - y) <= eb ->
  Rabs (a * b - x * y) <= A * eb + Bd * ea + ea * eb.
Proof.
  intros a b x y ea eb A Bd Hx Hy Ha Hb.
  replace (a * b - x * y) with (x * (b - y) + y * (a - x) + (a - x) * (b - y)) by ring.
  pose proof (Rabs_pos x). pose proof (Rabs_pos y). pose proof (Rabs_pos (a - x)). pose proof (Rabs_pos (b - y)).
  apply Rle_trans with (1 := Rabs_triang _ _). apply Rplus_le_compat.
  - apply Rle_trans with (1 := Rabs_triang _ _). rewrite !Rabs_mult. apply Rplus_le_compat; apply Rmult_le_compat; auto.
  - rewrite Rabs_mult. apply Rmult_le_compat; auto.
Qed.
Lemma ap_bound : forall M d m n g w x X, 0 <= M -> ap M d m n g w x X -> Rabs (val x) <= n * M ^ d.
Proof.
  intros M d m n g w x X HM (_ & _ & y & Y & E & _). replace (val x) with (y + (val x - y)) by ring.
  apply Rle_trans with (1 := Rabs_triang _ _). lra.
Qed.
Lemma ap_diff : forall M g w a b, num g w a -> num g w b -> (-1074 <= g)%Z -> (-1074 <= w <= 1016)%Z ->
  Rabs (val (fsub a b)) <= M -> ap M 1 1 1 g (w + 1) (fsub a b) (val a - val b).
Proof.
  intros M g w a b Na Nb G T HM. destruct (num_sub g w a b Na Nb G T) as (N & V & _).
  split; auto. split; [lra|]. exists (val (fsub a b)). rewrite Rminus_diag_eq, Rabs_R0 by auto. simpl. rewrite Rmult_1_r.
  split; [lra|]. split; [lra|]. rewrite V in *.
  apply Rle_trans with (uu * Rabs (rn (val a - val b))).
  - apply rn_rel2. apply mult_le with g; auto. apply mult_sub; [apply Na|apply Nb].
  - unfold tt. pose proof uu_pos. replace ((1 + uu) * 1 - 1) with uu by lra. apply Rmult_le_compat_l; lra.
Qed.
(** A float that needs no subtraction. *)
Lemma ap_leaf : forall M g w a, num g w a -> Rabs (val a) <= M -> ap M 1 1 1 g w a (val a).
Proof.
  intros M g w a Na HM. split; auto. split; [lra|]. exists (val a). rewrite Rminus_diag_eq, Rabs_R0 by auto. simpl. rewrite Rmult_1_r.
  assert (0 <= M) by (apply Rle_trans with (2 := HM); apply Rabs_pos).
  split; [lra|]. split; [lra|]. apply Rmult_le_pos; [|lra]. pose proof tt_ge. lra.
Qed.
Lemma ap_mul : forall M d m n g w x X d' m' n' g' w' y Y, 0 <= M -> ap M d m n g w x X -> ap M d' m' n' g' w' y Y ->
  (-1074 <= g + g')%Z -> (-1074 <= w + w' < 1024)%Z ->
  ap M (d + d') (m * m') (tt * (n * n')) (g + g') (w + w') (fmul x y) (X * Y).
Proof.
  intros M d m n g w x X d' m' n' g' w' y Y HM A1 A2 G T.
  pose proof (ap_bound _ _ _ _ _ _ _ _ HM A1) as Bx. pose proof (ap_bound _ _ _ _ _ _ _ _ HM A2) as By.
  destruct A1 as (Nx & Mx & x0 & X0 & X1 & X2). destruct A2 as (Ny & My & y0 & Y0 & Y1 & Y2).
  destruct (num_fmul _ _ _ _ _ _ Nx Ny G T) as (N & V). pose proof tt_ge as T1.
  assert (Pd : 0 <= M ^ d) by (apply pow_le; auto). assert (Pd' : 0 <= M ^ d') by (apply pow_le; auto).
  assert (NN : 0 <= n * n') by (apply Rmult_le_pos; lra).
  split; auto. split.
  { split; [apply Rmult_le_pos; lra|]. apply Rle_trans with (n * n'); [apply Rmult_le_compat; lra|].
    pose proof (Rmult_le_compat_r (n * n') 1 tt NN T1). lra. }
  exists (x0 * y0). rewrite pow_add. split; [|split].
  - rewrite Rabs_mult. replace (m * m' * (M ^ d * M ^ d')) with ((m * M ^ d) * (m' * M ^ d')) by ring. apply Rmult_le_compat; auto using Rabs_pos.
  - rewrite V.
    assert (Mv : mult (-1074) (val x * val y)) by (apply mult_le with (g + g')%Z; auto; apply mult_mul; [apply Nx|apply Ny]).
    pose proof (rn_rel _ Mv) as E. fold uu in E.
    assert (Q : Rabs (val x * val y) <= n * n' * (M ^ d * M ^ d')).
    { rewrite Rabs_mult. replace (n * n' * (M ^ d * M ^ d')) with ((n * M ^ d) * (n' * M ^ d')) by ring. apply Rmult_le_compat; auto using Rabs_pos. }
    pose proof (Rabs_prod_err _ _ _ _ _ _ _ _ X0 Y0 X1 Y1) as H.
    replace (rn (val x * val y) - x0 * y0) with ((val x * val y - x0 * y0) - (val x * val y - rn (val x * val y))) by ring.
    unfold Rminus at 1. apply Rle_trans with (1 := Rabs_triang _ _). rewrite Rabs_Ropp.
    assert (uu * Rabs (val x * val y) <= uu * (n * n' * (M ^ d * M ^ d'))) by (apply Rmult_le_compat_l; auto; pose proof uu_pos; lra).
    replace ((tt * (n * n') - m * m') * (M ^ d * M ^ d')) with
      ((m * M ^ d * ((n' - m') * M ^ d') + m' * M ^ d' * ((n - m) * M ^ d) + (n - m) * M ^ d * ((n' - m') * M ^ d')) + uu * (n * n' * (M ^ d * M ^ d'))) by (unfold tt; ring).
    lra.
  - pose proof (Rabs_prod_err _ _ _ _ _ _ _ _ X0 Y0 X2 Y2) as H. rewrite pow_add.
    apply Rle_trans with (1 := H). right. ring.
Qed.
Lemma ap_lin : forall M d m n g w x X m' n' g' w' y Y z s, 0 <= M -> ap M d m n g w x X -> ap M d m' n' g' w' y Y ->
  (-1074 <= Z.min g g')%Z -> Rabs s = 1 -> num (Z.min g g') (Z.max w w' + 1) z -> val z = rn (val x + s * val y) -> (s = 1 \/ s = -1) ->
  ap M d (m + m') (tt * (n + n')) (Z.min g g') (Z.max w w' + 1) z (X + s * Y).
Proof.
  intros M d m n g w x X m' n' g' w' y Y z s HM A1 A2 G Hs N V S1.
  pose proof (ap_bound _ _ _ _ _ _ _ _ HM A1) as Bx. pose proof (ap_bound _ _ _ _ _ _ _ _ HM A2) as By.
  destruct A1 as (Nx & Mx & x0 & X0 & X1 & X2). destruct A2 as (Ny & My & y0 & Y0 & Y1 & Y2).
  pose proof tt_ge as T1. assert (Pd : 0 <= M ^ d) by (apply pow_le; auto).
  split; auto. split.
  { split; [lra|]. pose proof (Rmult_le_compat_r (n + n') 1 tt). lra. }
  assert (sum : forall a b ea eb, Rabs a <= ea -> Rabs b <= eb -> Rabs (a + s * b) <= ea + eb).
  { intros a b ea eb Ha Hb. apply Rle_trans with (1 := Rabs_triang _ _). rewrite Rabs_mult, Hs. lra. }
  exists (x0 + s * y0). split; [|split].
  - pose proof (sum _ _ _ _ X0 Y0). lra.
  - rewrite V.
    assert (Mv : mult (-1074) (val x + s * val y)).
    { apply mult_add; [apply mult_le with g; [lia|apply Nx]|].
      assert (mult (-1074) (val y)) by (apply mult_le with g'; [lia|apply Ny]).
      destruct S1 as [->| ->]; [rewrite Rmult_1_l; auto|]. replace (-1 * val y) with (- val y) by ring. apply mult_opp; auto. }
    pose proof (rn_rel _ Mv) as E. fold uu in E. pose proof (sum _ _ _ _ Bx By) as Q. pose proof (sum _ _ _ _ X1 Y1) as H.
    replace (rn (val x + s * val y) - (x0 + s * y0)) with ((val x - x0 + s * (val y - y0)) - (val x + s * val y - rn (val x + s * val y))) by ring.
    unfold Rminus at 1. apply Rle_trans with (1 := Rabs_triang _ _). rewrite Rabs_Ropp.
    assert (uu * Rabs (val x + s * val y) <= uu * (n * M ^ d + n' * M ^ d)) by (apply Rmult_le_compat_l; auto; pose proof uu_pos; lra).
    replace ((tt * (n + n') - (m + m')) * M ^ d) with (((n - m) * M ^ d + (n' - m') * M ^ d) + uu * (n * M ^ d + n' * M ^ d)) by (unfold tt; ring).
    lra.
  - pose proof (sum _ _ _ _ X2 Y2) as H. replace (X + s * Y - (x0 + s * y0)) with (X - x0 + s * (Y - y0)) by ring.
    apply Rle_trans with (1 := H). right. ring.
Qed.
Lemma ap_add : forall M d m n g w x X m' n' g' w' y Y, 0 <= M -> ap M d m n g w x X -> ap M d m' n' g' w' y Y ->
  (-1074 <= Z.min g g')%Z -> (-1074 <= Z.max w w' < 1023)%Z ->
  ap M d (m + m') (tt * (n + n')) (Z.min g g') (Z.max w w' + 1) (fadd x y) (X + Y).
Proof.
  intros M d m n g w x X m' n' g' w' y Y HM A1 A2 G T. destruct (num_fadd _ _ _ _ _ _ (proj1 A1) (proj1 A2) G T) as (N & V).
  replace (X + Y) with (X + 1 * Y) by ring. apply (ap_lin M d m n g w x X m' n' g' w' y Y _ 1); auto.
  - apply Rabs_R1.
  - rewrite V. f_equal. ring.
Qed.
Lemma ap_sub : forall M d m n g w x X m' n' g' w' y Y, 0 <= M -> ap M d m n g w x X -> ap M d m' n' g' w' y Y ->
  (-1074 <= Z.min g g')%Z -> (-1074 <= Z.max w w' < 1023)%Z ->
  ap M d (m + m') (tt * (n + n')) (Z.min g g') (Z.max w w' + 1) (fsub x y) (X - Y).
Proof.
  intros M d m n g w x X m' n' g' w' y Y HM A1 A2 G T. destruct (num_fsub _ _ _ _ _ _ (proj1 A1) (proj1 A2) G T) as (N & V).
  replace (X - Y) with (X + -1 * Y) by ring. apply (ap_lin M d m n g w x X m' n' g' w' y Y _ (-1)); auto.
  - replace (-1) with (- (1)) by ring. rewrite Rabs_Ropp. apply Rabs_R1.
  - rewrite V. f_equal. ring.
Qed.
Lemma ap_filter : forall M d m n g w x X m' n' g' w' y Y e, 0 <= M -> ap M d m n g w x X -> ap M d m' n' g' w' y Y ->
  (-1074 <= Z.min g g')%Z -> (-1074 <= Z.max w w' < 1023)%Z ->
  fin e = true -> (n + n' - (m + m') + (tt ^ d - 1) * (m + m')) * M ^ d <= val e ->
  beyond_strict (fadd x y) e = true -> same_sign (fadd x y) (X + Y).
Proof.
  intros M d m n g w x X m' n' g' w' y Y e HM A1 A2 G T Fe E H.
  destruct (num_fadd _ _ _ _ _ _ (proj1 A1) (proj1 A2) G T) as (N & V).
  destruct A1 as (Nx & Mx & x0 & X0 & X1 & X2). destruct A2 as (Ny & My & y0 & Y0 & Y1 & Y2).
  assert (Pd : 0 <= M ^ d) by (apply pow_le; auto).
  assert (HX : Rabs (val x + val y - (X + Y)) <= 1 * val e).
  { replace (val x + val y - (X + Y)) with ((val x - x0) + (val y - y0) - ((X - x0) + (Y - y0))) by ring.
    unfold Rminus at 1. apply Rle_trans with (1 := Rabs_triang _ _). rewrite Rabs_Ropp.
    pose proof (Rabs_triang (val x - x0) (val y - y0)). pose proof (Rabs_triang (X - x0) (Y - y0)).
    replace ((n + n' - (m + m') + (tt ^ d - 1) * (m + m')) * M ^ d) with
      ((n - m) * M ^ d + (n' - m') * M ^ d + ((tt ^ d - 1) * (m * M ^ d) + (tt ^ d - 1) * (m' * M ^ d))) in E by ring.
    lra. }
  assert (e0 : 0 <= val e). { pose proof (Rabs_pos (val x + val y - (X + Y))). lra. }
  split; [apply N|].
  unfold beyond_strict in H. apply orb_true_iff in H. destruct H as [H|H]; apply flt_val in H; auto; try apply N; try (rewrite fneg_fin; apply N).
  - rewrite V in *. assert (0 < X + Y) by (apply (strict_pos _ _ _ _ (val e) HX); [apply val_fmt|lra|auto]). split; split; lra.
  - rewrite fneg_val in H. rewrite V in *. rewrite <- rn_opp in H.
    assert (0 < - (X + Y)).
    { apply (strict_pos (- (val x + val y)) (- (X + Y)) 1 (val e) (val e)); [|apply val_fmt|lra|auto].
      replace (- (val x + val y) - - (X + Y)) with (- (val x + val y - (X + Y))) by ring. rewrite Rabs_Ropp. auto. }
    rewrite rn_opp in H. split; split; lra.
Qed.
(** The largest of two floats. *)
Lemma fmax_ok : forall g w a b, num g w a -> num g w b ->
  num g w (fmax a b) /\ val a <= val (fmax a b) /\ val b <= val (fmax a b).
Proof.
  intros g w a b Na Nb. destruct (Na) as (Fa & _). destruct (Nb) as (Fb & _). unfold fmax.
  replace (is_nan a) with false by (destruct a; auto; discriminate). replace (is_nan b) with false by (destruct b; auto; discriminate).
  unfold flt. rewrite Bltb_correct by auto. case Rlt_bool_spec; intros; split; auto; split; try lra.
Qed.
Ltac do_ap :=
  lazymatch goal with
  | |- ap _ _ _ _ _ _ (fmul _ _) _ => eapply ap_mul; [eassumption|do_ap|do_ap|lia|lia]
  | |- ap _ _ _ _ _ _ (fadd _ _) _ => eapply ap_add; [eassumption|do_ap|do_ap|lia|lia]
  | |- ap _ _ _ _ _ _ (fsub ?a ?b) _ =>
      first [eapply ap_diff; [eassumption|eassumption|lia|lia|eassumption] | eapply ap_sub; [eassumption|do_ap|do_ap|lia|lia]]
  end.

Lemma isp_static_ok : num (-95) (-42) isp_static /\ val isp_static = IZR 4538783999459334 * B (-95).
Proof.
  destruct (const_val isp_static 4538783999459334 (-95) ltac:(vm_compute; reflexivity) ltac:(lia) ltac:(lia)) as (F & V & N). split; auto.
Qed.
Section Opaque.
Local Opaque fadd fsub fmul fabs fneg fmax isp_static.
Lemma insphere_filter_ok : forall ax ay az bx by_ bz cx cy cz dx dy dz ex ey ez,
  coord ax -> coord ay -> coord az -> coord bx -> coord by_ -> coord bz -> coord cx -> coord cy -> coord cz ->
  coord dx -> coord dy -> coord dz -> coord ex -> coord ey -> coord ez ->
  (exists r, insphere ax ay az bx by_ bz cx cy cz dx dy dz ex ey ez = Some r /\
     same_sign r (insphere5_det (val ax) (val ay) (val az) (val bx) (val by_) (val bz) (val cx) (val cy) (val cz)
                   (val dx) (val dy) (val dz) (val ex) (val ey) (val ez))) \/
  insphere ax ay az bx by_ bz cx cy cz dx dy dz ex ey ez =
    insphere_adapt ax ay az bx by_ bz cx cy cz dx dy dz ex ey ez
      (insphere_permanent ax ay az bx by_ bz cx cy cz dx dy dz ex ey ez).
Proof.
  intros. coords. unfold insphere. cbv zeta.
  match goal with |- context [if ?c then _ else _] => destruct c eqn:E end; [left|right; unfold insphere_permanent, perm4, perm3, lift3; reflexivity].
  eexists. split; [reflexivity|].
  match type of E with beyond_strict _ (fmul (fmul (fmul (fmul ?mv ?mv) _) _) _) = _ => set (M := mv) in E end.
  assert (HM : num (-180) 101 M /\ Rabs (val (fsub ax ex)) <= val M /\ Rabs (val (fsub bx ex)) <= val M /\ Rabs (val (fsub cx ex)) <= val M /\ Rabs (val (fsub dx ex)) <= val M
    /\ Rabs (val (fsub ay ey)) <= val M /\ Rabs (val (fsub by_ ey)) <= val M /\ Rabs (val (fsub cy ey)) <= val M /\ Rabs (val (fsub dy ey)) <= val M
    /\ Rabs (val (fsub az ez)) <= val M /\ Rabs (val (fsub bz ez)) <= val M /\ Rabs (val (fsub cz ez)) <= val M /\ Rabs (val (fsub dz ez)) <= val M).
  { assert (S : forall a b, num (-180) 100 a -> num (-180) 100 b -> num (-180) 101 (fabs (fsub a b))).
    { intros a b Na Nb. apply num_abs. apply (num_sub (-180) 100 a b Na Nb); lia. }
    clear E. unfold M. clear M.
    repeat match goal with |- context [fmax (fabs ?a) (fabs ?b)] =>
       let s := fresh "s" in destruct (fmax_ok (-180) 101 (fabs a) (fabs b)) as (? & ? & ?); [apply S; auto|apply S; auto|]; set (s := fmax (fabs a) (fabs b)) in *
     | N : num (-180) 101 ?s |- context [fmax ?s (fabs ?b)] =>
       let s' := fresh "s" in destruct (fmax_ok (-180) 101 s (fabs b)) as (? & ? & ?); [exact N|apply S; auto|]; set (s' := fmax s (fabs b)) in * end.
    rewrite !fabs_val in *. split; [assumption|]. repeat split; lra. }
  clearbody M. destruct HM as (NM & ? & ? & ? & ? & ? & ? & ? & ? & ? & ? & ? & ?).
  assert (M0 : 0 <= val M). { eapply Rle_trans; [apply Rabs_pos|eassumption]. }
  destruct isp_static_ok as (NK & VK).
  destruct (mass_mul _ _ _ _ _ _ NM NM M0 M0) as (P2 & Q2 & N2); try lia.
  destruct (mass_mul _ _ _ _ _ _ N2 N2 P2 P2) as (P4 & Q4 & N4); try lia.
  destruct (mass_mul _ _ _ _ _ _ N4 NM P4 M0) as (P5 & Q5 & N5); try lia.
  assert (K0 : 0 <= val isp_static). { rewrite VK. apply Rmult_le_pos; [apply IZR_le; lia|left; apply B_pos]. }
  destruct (mass_mul _ _ _ _ _ _ N5 NK P5 K0) as (P6 & Q6 & N6); try lia.
  eapply same_sign_eq.
  - eapply ap_filter in E; [exact E|exact M0|do_ap|do_ap|lia|lia|apply N6|]. cbn [Nat.add].
    set (e := val (fmul (fmul (fmul (fmul M M) (fmul M M)) M) isp_static)) in *.
    set (e5 := val (fmul (fmul (fmul M M) (fmul M M)) M)) in *. set (e4 := val (fmul (fmul M M) (fmul M M))) in *. set (e2 := val (fmul M M)) in *.
    pose proof tt_ge as T1.
    assert (A4 : val M ^ 4 <= tt * tt * tt * e4).
    { apply Rle_trans with ((tt * e2) * (tt * e2)).
      - replace (val M ^ 4) with ((val M * val M) * (val M * val M)) by ring. apply Rmult_le_compat; auto; apply Rmult_le_pos; auto.
      - replace ((tt * e2) * (tt * e2)) with (tt * tt * (e2 * e2)) by ring. replace (tt * tt * tt * e4) with (tt * tt * (tt * e4)) by ring.
        apply Rmult_le_compat_l; auto. apply Rmult_le_pos; lra. }
    assert (A5 : val M ^ 5 <= tt * tt * tt * tt * e5).
    { replace (val M ^ 5) with (val M ^ 4 * val M) by ring. apply Rle_trans with (tt * tt * tt * e4 * val M).
      - apply Rmult_le_compat_r; auto.
      - replace (tt * tt * tt * e4 * val M) with (tt * tt * tt * (e4 * val M)) by ring. replace (tt * tt * tt * tt * e5) with (tt * tt * tt * (tt * e5)) by ring.
        apply Rmult_le_compat_l; auto. repeat apply Rmult_le_pos; lra. }
    assert (A6 : val isp_static * val M ^ 5 <= tt * tt * tt * tt * tt * e).
    { apply Rle_trans with (val isp_static * (tt * tt * tt * tt * e5)); [apply Rmult_le_compat_l; auto|].
      replace (val isp_static * (tt * tt * tt * tt * e5)) with (tt * tt * tt * tt * (e5 * val isp_static)) by ring.
      replace (tt * tt * tt * tt * tt * e) with (tt * tt * tt * tt * (tt * e)) by ring.
      apply Rmult_le_compat_l; auto. repeat apply Rmult_le_pos; lra. }
    assert (M5 : 0 <= val M ^ 5) by (apply pow_le; auto).
    apply Rmult_le_reg_l with (tt * tt * tt * tt * tt); [repeat apply Rmult_lt_0_compat; lra|].
    apply Rle_trans with (2 := A6). rewrite <- Rmult_assoc. apply Rmult_le_compat_r; auto.
    rewrite VK. change (B (-95)) with (/ IZR (2 ^ 95)). change (IZR (2 ^ 95)) with 39614081257132168796771975168. unfold tt, uu. simpl pow. lra.
  - det_unf. ring.
Qed.
End Opaque.
