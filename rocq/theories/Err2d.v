(** All stages of orient2d: the result always has the sign of the determinant. *)
From Coq Require Import ZArith Reals List Bool Lia Lra Psatz.
From Flocq Require Import Core BinarySingleNaN.
From Verif Require Import Lib F64 F64Facts Expansion Explicit ExpReal ExpFloat ExpZero ExpEst ExpSpec ExplicitSpec ExplicitProofs ErrBound ErrStageA.
Import ListNotations.
Local Open Scope R_scope.

(** [two_two_diff] gives a nonoverlapping expansion, so its estimate is good. *)
Lemma two_two_diff_KN : forall m a1 a0 b1 b0, (-1074 <= m <= 1014)%Z -> sz m a1 -> sz m a0 -> sz m b1 -> sz m b0 ->
  pairN (val a1) (val a0) -> pairN (val b1) (val b0) ->
  KN (rev (vals (nz (quad (two_two_diff a1 a0 b1 b0))))).
Proof.
  intros m a1 a0 b1 b0 T A1 A0 B1 B0 Pa Pb. destruct (two_two_diff a1 a0 b1 b0) as [[[x3 x2] x1] x0] eqn:E0.
  assert (E := E0). unfold two_two_diff in E.
  destruct (two_one_diff a1 a0 b0) as [[j o] y0] eqn:E1. destruct (two_one_diff j o b1) as [[y3 y2] y1] eqn:E2.
  apply pair_equal_spec in E. destruct E as [E <-]. apply pair_equal_spec in E. destruct E as [E <-].
  apply pair_equal_spec in E. destruct E as [<- <-].
  destruct (two_one_diff_fwd m _ _ _ _ _ _ ltac:(lia) A1 A0 B0 E1) as (Sj & So & S0 & Y0 & Gr1 & C1).
  assert (B1' : sz (m + 2) b1).
  { destruct B1. split; auto. apply Rle_trans with (B m); auto. apply B_le; lia. }
  destruct (two_one_diff_fwd (m + 2) _ _ _ _ _ _ ltac:(lia) Sj So B1' E2) as (S3 & S2 & S1 & _ & Gr2 & C2).
  assert (Fl : allfin [y0; y1; y2; y3]) by (repeat constructor; [apply S0|apply S1|apply S2|apply S3]).
  simpl quad. rewrite nz_vals by exact Fl. simpl vals. rewrite rev_nzR4.
  apply (two_two_KN (val a1) (val a0) (- val b1) (- val b0) _ _ _ _ (val j) (val o)); auto using val_fmt, fmt_opp, pairN_opp.
Qed.
Lemma est_mult : forall g o, (-1074 <= g)%Z -> Forall (mult g) o -> mult g (est o).
Proof.
  intros g o T H. induction H as [|x o Hx Ho IH]; simpl; [exists 0%Z; lra|]. apply rn_mult; auto. apply mult_add; auto.
Qed.
Lemma ttd_estimate : forall a b c d x1 x0 y1 y0, num (-180) 101 a -> num (-180) 101 b -> num (-180) 101 c -> num (-180) 101 d ->
  two_product a b = (x1, x0) -> two_product c d = (y1, y0) ->
  let e := estimate (quad (two_two_diff x1 x0 y1 y0)) in
  num (-360) 210 e /\ Rabs (val e - (val a * val b - val c * val d)) <= 2 * kap * uu * Rabs (val a * val b - val c * val d).
Proof.
  intros a b c d x1 x0 y1 y0 Na Nb Nc Nd E1 E2 e.
  pose proof (rep_ttd _ _ _ _ _ _ _ _ a b c d x1 x0 y1 y0 Na Nb Nc Nd E1 E2) as H.
  do 12 (let H1 := fresh in match type of H with (?P -> _) => assert (H1 : P) by znum; specialize (H H1); clear H1 end).
  norm_rep H.
  pose proof (prod_pair (-180) 101 (-180) 101 a b Na Nb) as P. pose proof (prod_pair (-180) 101 (-180) 101 c d Nc Nd) as Q.
  rewrite E1 in P. rewrite E2 in Q. cbn [fst snd] in P, Q.
  destruct P as ((P1 & P2) & (P3 & P4) & P5 & P6 & P7 & P8 & _); try lia. destruct Q as ((Q1 & Q2) & (Q3 & Q4) & Q5 & Q6 & Q7 & Q8 & _); try lia.
  assert (KN (rev (vals (nz (quad (two_two_diff x1 x0 y1 y0)))))) as HN.
  { apply (two_two_diff_KN 202); auto; try lia; split; auto. }
  destruct H as ((F & N & HK) & V & G & M & Ln).
  destruct (estimate_val 206 2 (quad (two_two_diff x1 x0 y1 y0))) as (Fe & Ve & Be); auto; try lia.
  set (l := quad (two_two_diff x1 x0 y1 y0)) in *.
  split.
  - split; [exact Fe|]. split.
    + unfold e. rewrite Ve. apply est_mult; [lia|]. apply Forall_rev. unfold vals. apply Forall_map. exact G.
    + apply Rle_trans with (1 := Be). apply Rle_trans with (4 * B 206).
      * apply Rmult_le_compat_r; [left; apply B_pos|]. apply IZR_le. auto.
      * replace 4 with (B 2) by reflexivity. rewrite <- B_plus. apply B_le. lia.
  - unfold e. rewrite Ve, <- est_nz, nzR_rev, <- nz_vals, <- V by auto. rewrite <- (nz_value l F). unfold value. rewrite <- sumR_rev.
    apply est_rel_KN; auto.
Qed.

(** ** The inequalities of the three stages *)
Lemma same_sign_close : forall r X, fin r = true -> Rabs (val r - X) < Rabs (val r) -> same_sign r X.
Proof.
  intros r X F H. split; auto. revert H. unfold Rabs. destruct (Rcase_abs (val r - X)), (Rcase_abs (val r)); intros; split; split; lra.
Qed.
Lemma beyond_val : forall d e, fin d = true -> fin e = true -> beyond d e = true -> val e <= Rabs (val d).
Proof.
  intros d e Fd Fe H. unfold beyond in H. apply orb_true_iff in H. destruct H as [H|H].
  - apply fle_val in H; auto. pose proof (Rle_abs (val d)). lra.
  - apply fle_val in H; auto; [|rewrite fneg_fin; auto]. rewrite fneg_val in H. pose proof (Rle_abs (- val d)) as Q. rewrite Rabs_Ropp in Q. lra.
Qed.
Definition ww : R := 2 * kap * uu.
Lemma est_S : forall e S, Rabs (e - S) <= ww * Rabs S -> Rabs (e - S) <= ww * (1 + 2 * ww) * Rabs e.
Proof.
  intros e S H. assert (Q : Rabs S <= Rabs e + Rabs (e - S)).
  { replace S with (e - (e - S)) at 1 by ring. unfold Rminus at 1. apply Rle_trans with (1 := Rabs_triang _ _). rewrite Rabs_Ropp. lra. }
  assert (w0 : 0 <= ww <= / 4) by (unfold ww, kap, uu; split; lra).
  assert ((1 - ww) * Rabs S <= Rabs e) by lra.
  apply Rle_trans with (1 := H). rewrite Rmult_assoc. apply Rmult_le_compat_l; [lra|].
  pose proof (Rabs_pos S). pose proof (Rabs_pos e).
  apply Rle_trans with ((1 + 2 * ww) * ((1 - ww) * Rabs S)); [|apply Rmult_le_compat_l; lra].
  assert (0 <= ww * (1 - 2 * ww) * Rabs S) by (apply Rmult_le_pos; [apply Rmult_le_pos; lra|lra]).
  replace ((1 + 2 * ww) * ((1 - ww) * Rabs S)) with (Rabs S + ww * (1 - 2 * ww) * Rabs S) by ring. lra.
Qed.
Lemma stage_a_real : forall v X det s D eb, Rabs (v - X) <= (tt ^ 3 - 1) * s -> Rabs (v - det) <= uu * Rabs det -> 0 < D -> s <= tt * D ->
  (3 + 16 * uu) * uu * D <= tt * eb -> eb <= Rabs det -> Rabs (det - X) < Rabs det.
Proof.
  intros v X det s D eb H1 H2 D0 H3 H4 H5.
  assert (Rabs (det - X) <= Rabs (v - X) + Rabs (v - det)).
  { replace (det - X) with ((v - X) - (v - det)) by ring. unfold Rminus at 1. apply Rle_trans with (1 := Rabs_triang _ _). rewrite Rabs_Ropp. lra. }
  assert ((tt ^ 3 - 1) * s <= (tt ^ 3 - 1) * (tt * D)) by (apply Rmult_le_compat_l; auto; unfold tt, uu; lra).
  revert H H0 H1 H2 H4 H5. generalize (Rabs (det - X)) (Rabs (v - X)) (Rabs (v - det)) (Rabs det). unfold tt, uu. intros. lra.
Qed.
Lemma stage_b_real : forall e S X m0 D eb, Rabs (e - S) <= ww * Rabs S -> Rabs (X - S) <= (tt ^ 2 - 1) * m0 -> 0 < D -> m0 <= tt * tt * D ->
  (2 + 12 * uu) * uu * D <= tt * eb -> eb <= Rabs e -> Rabs (e - X) < Rabs e.
Proof.
  intros e S X m0 D eb H1 H2 D0 H3 H4 H5. apply est_S in H1.
  assert (Rabs (e - X) <= Rabs (e - S) + Rabs (X - S)).
  { replace (e - X) with ((e - S) - (X - S)) by ring. unfold Rminus at 1. apply Rle_trans with (1 := Rabs_triang _ _). rewrite Rabs_Ropp. lra. }
  assert ((tt ^ 2 - 1) * m0 <= (tt ^ 2 - 1) * (tt * tt * D)) by (apply Rmult_le_compat_l; auto; unfold tt, uu; lra).
  revert H H0 H1 H2 H4 H5. generalize (Rabs (e - X)) (Rabs (e - S)) (Rabs (X - S)) (Rabs e). unfold tt, ww, kap, uu. intros. lra.
Qed.
Lemma stage_c_real : forall e S T T' Q det m0 D ec er eb, Rabs (e - S) <= ww * Rabs S -> Rabs (T' - T) <= (tt ^ 3 - 1) * (tt ^ 3 * (2 * uu * m0)) ->
  Rabs Q <= uu * uu * m0 -> Rabs (e + T' - det) <= uu * Rabs det -> 0 < D -> 0 <= m0 <= tt * tt * D ->
  (9 + 64 * uu) * uu * uu * D <= tt * ec -> (3 + 8 * uu) * uu * Rabs e <= tt * er -> ec + er <= tt * eb -> eb <= Rabs det ->
  Rabs (det - (S + T + Q)) < Rabs det.
Proof.
  intros e S T T' Q det m0 D ec er eb H1 H2 H3 H4 D0 H5 H6 H7 H8 H9. apply est_S in H1. destruct H5 as [m0p H5].
  assert (Rabs (det - (S + T + Q)) <= Rabs (e - S) + Rabs (T' - T) + Rabs Q + Rabs (e + T' - det)).
  { replace (det - (S + T + Q)) with ((((e - S) + (T' - T)) + - Q) + - (e + T' - det)) by ring.
    apply Rle_trans with (1 := Rabs_triang _ _). rewrite Rabs_Ropp. apply Rplus_le_compat_r.
    apply Rle_trans with (1 := Rabs_triang _ _). rewrite Rabs_Ropp. apply Rplus_le_compat_r. apply Rabs_triang. }
  pose proof (Rabs_pos e).
  revert D0 m0p H5 H6 H8 H H0 H1 H2 H3 H4 H7 H9. generalize (Rabs (det - (S + T + Q))) (Rabs (e - S)) (Rabs (T' - T)) (Rabs Q) (Rabs (e + T' - det)) (Rabs e) (Rabs det).
  unfold tt, ww, kap, uu. clear. intros.
  lra.
Qed.

(** ** The stages of the program *)
Lemma diff_facts : forall a b, num (-180) 100 a -> num (-180) 100 b ->
  num (-180) 101 (fsub a b) /\ num (-180) 100 (two_diff_tail a b (fsub a b)) /\
  val (fsub a b) + val (two_diff_tail a b (fsub a b)) = val a - val b /\
  Rabs (val (two_diff_tail a b (fsub a b))) <= uu * Rabs (val (fsub a b)).
Proof.
  intros a b Na Nb. destruct (num_sub (-180) 100 a b Na Nb) as (N1 & V & N2 & E); try lia.
  split; auto. split; auto. split; auto.
  replace (val (two_diff_tail a b (fsub a b))) with ((val a - val b) - rn (val a - val b)) by lra. rewrite V.
  apply rn_rel2. apply mult_le with (-180)%Z; [lia|]. apply mult_sub; [apply Na|apply Nb].
Qed.
Lemma prod_le : forall x y a b u, 0 <= u -> Rabs x <= u * Rabs a -> Rabs y <= Rabs b -> Rabs (x * y) <= u * Rabs (a * b).
Proof.
  intros x y a b u Hu H1 H2. rewrite !Rabs_mult, <- Rmult_assoc. apply Rmult_le_compat; auto using Rabs_pos.
Qed.
Lemma tri4 : forall a b c d A B C D, Rabs a <= A -> Rabs b <= B -> Rabs c <= C -> Rabs d <= D -> Rabs (a + b - (c + d)) <= A + B + C + D.
Proof.
  intros. unfold Rminus. apply Rle_trans with (1 := Rabs_triang _ _). rewrite Rabs_Ropp.
  pose proof (Rabs_triang a b). pose proof (Rabs_triang c d). lra.
Qed.
Lemma appr_exact : forall g m x, num g m x -> appr g m 0 x (val x) (fabs x).
Proof.
  intros g m x N. split; auto. split; [apply num_abs; auto|]. rewrite fabs_val. split; [lra|].
  rewrite Rminus_diag_eq, Rabs_R0 by auto. simpl. lra.
Qed.
(** The first order correction of stage C. *)
Lemma corr_ok : forall a b c d at_ bt ct dt, num (-180) 101 a -> num (-180) 101 b -> num (-180) 101 c -> num (-180) 101 d ->
  num (-180) 100 at_ -> num (-180) 100 bt -> num (-180) 100 ct -> num (-180) 100 dt ->
  Rabs (val at_) <= uu * Rabs (val a) -> Rabs (val bt) <= uu * Rabs (val b) -> Rabs (val ct) <= uu * Rabs (val c) -> Rabs (val dt) <= uu * Rabs (val d) ->
  let T' := fsub (fadd (fmul a bt) (fmul b at_)) (fadd (fmul c dt) (fmul d ct)) in
  num (-360) 205 T' /\
  Rabs (val T' - (val a * val bt + val b * val at_ - (val c * val dt + val d * val ct))) <=
    (tt ^ 3 - 1) * (tt ^ 3 * (2 * uu * (Rabs (val a * val b) + Rabs (val c * val d)))).
Proof.
  intros a b c d at_ bt ct dt Na Nb Nc Nd Nat_ Nbt Nct Ndt Ha Hb Hc Hd T'.
  apply (num_weak _ _ (-180) 101) in Nat_; [|lia|lia].
  apply (num_weak _ _ (-180) 101) in Nbt; [|lia|lia].
  apply (num_weak _ _ (-180) 101) in Nct; [|lia|lia].
  apply (num_weak _ _ (-180) 101) in Ndt; [|lia|lia].
  assert (A := fun x y Nx Ny => appr_prod _ _ _ _ _ _ _ _ _ _ (appr_exact (-180) 101 x Nx) (appr_exact (-180) 101 y Ny) ltac:(lia) ltac:(lia)).
  assert (U : forall x y, num (-180) 101 x -> num (-180) 101 y -> num (-360) 202 (fabs (fmul x y)) /\ 0 <= val (fabs (fmul x y)) <= tt * Rabs (val x * val y)).
  { intros x y Nx Ny. destruct (num_fmul _ _ _ _ _ _ Nx Ny) as (N & V); try lia. split; [apply num_abs, N|]. rewrite fabs_val, V.
    split; [apply Rabs_pos|].
    assert (Mv : mult (-1074) (val x * val y)) by (apply mult_le with (-180 + -180)%Z; [lia|]; apply mult_mul; [apply Nx|apply Ny]).
    pose proof (rn_rel _ Mv) as E. fold uu in E. replace (rn (val x * val y)) with (val x * val y - (val x * val y - rn (val x * val y))) by ring.
    unfold Rminus at 1. apply Rle_trans with (1 := Rabs_triang _ _). rewrite Rabs_Ropp. unfold tt. lra. }
  assert (H := appr_sub2 _ _ _ _ _ _ _ _ _ _ _ _
     (appr_add2 _ _ _ _ _ _ _ _ _ _ _ _ (A a bt Na Nbt) (A b at_ Nb Nat_) ltac:(lia) ltac:(lia))
     (appr_add2 _ _ _ _ _ _ _ _ _ _ _ _ (A c dt Nc Ndt) (A d ct Nd Nct) ltac:(lia) ltac:(lia)) ltac:(lia) ltac:(lia)).
  cbn [Nat.max Nat.add] in H. destruct H as (N & _ & _ & E). split; [apply num_weak with (1 := N); lia|].
  apply Rle_trans with (1 := E). apply Rmult_le_compat_l; [unfold tt, uu; lra|].
  destruct (U a bt Na Nbt) as (M1 & P1 & Q1). destruct (U b at_ Nb Nat_) as (M2 & P2 & Q2).
  destruct (U c dt Nc Ndt) as (M3 & P3 & Q3). destruct (U d ct Nd Nct) as (M4 & P4 & Q4).
  destruct (mass_add _ _ _ _ _ _ M1 M2 P1 P2) as (S1 & _ & R1 & L1); try lia.
  destruct (mass_add _ _ _ _ _ _ M3 M4 P3 P4) as (S2 & _ & R2 & L2); try lia.
  destruct (mass_add _ _ _ _ _ _ L1 L2 S1 S2) as (S3 & _ & R3 & L3); try lia.
  pose proof uu_pos as Up.
  assert (I1 : Rabs (val a * val bt) <= uu * Rabs (val a * val b)) by (rewrite Rmult_comm, (Rmult_comm (val a) (val b)); apply prod_le; auto; lra).
  assert (I2 : Rabs (val b * val at_) <= uu * Rabs (val a * val b)) by (rewrite Rmult_comm; apply prod_le; auto; lra).
  assert (I3 : Rabs (val c * val dt) <= uu * Rabs (val c * val d)) by (rewrite Rmult_comm, (Rmult_comm (val c) (val d)); apply prod_le; auto; lra).
  assert (I4 : Rabs (val d * val ct) <= uu * Rabs (val c * val d)) by (rewrite Rmult_comm; apply prod_le; auto; lra).
  pose proof tt_ge as T1.
  apply Rle_trans with (1 := R3). simpl pow. rewrite Rmult_1_r.
  replace (tt * (tt * tt) * (2 * uu * (Rabs (val a * val b) + Rabs (val c * val d)))) with
    (tt * (tt * (tt * (2 * uu * (Rabs (val a * val b) + Rabs (val c * val d)))))) by ring.
  apply Rmult_le_compat_l; [lra|].
  apply Rle_trans with (tt * (val (fabs (fmul a bt)) + val (fabs (fmul b at_)) + (val (fabs (fmul c dt)) + val (fabs (fmul d ct))))); [lra|].
  apply Rmult_le_compat_l; [lra|].
  apply Rle_trans with (tt * (Rabs (val a * val bt) + Rabs (val b * val at_) + (Rabs (val c * val dt) + Rabs (val d * val ct)))); [lra|].
  apply Rmult_le_compat_l; [lra|]. lra.
Qed.
Lemma err_prod2 : forall a b at_ bt, Rabs at_ <= uu * Rabs a -> Rabs bt <= uu * Rabs b ->
  Rabs ((a + at_) * (b + bt) - a * b) <= (tt ^ 2 - 1) * Rabs (a * b).
Proof.
  intros a b at_ bt Ha Hb. pose proof uu_pos.
  replace ((a + at_) * (b + bt) - a * b) with (a * bt + at_ * b + at_ * bt) by ring.
  pose proof (Rabs_triang (a * bt + at_ * b) (at_ * bt)). pose proof (Rabs_triang (a * bt) (at_ * b)).
  assert (Rabs (a * bt) <= uu * Rabs (a * b)) by (rewrite Rmult_comm, (Rmult_comm a b); apply prod_le; auto; lra).
  assert (Rabs (at_ * b) <= uu * Rabs (a * b)) by (apply prod_le; auto; lra).
  assert (Rabs (at_ * bt) <= uu * (uu * Rabs (a * b))).
  { rewrite !Rabs_mult. replace (uu * (uu * (Rabs a * Rabs b))) with ((uu * Rabs a) * (uu * Rabs b)) by ring. apply Rmult_le_compat; auto using Rabs_pos. }
  replace ((tt ^ 2 - 1) * Rabs (a * b)) with (uu * Rabs (a * b) + uu * Rabs (a * b) + uu * (uu * Rabs (a * b))) by (unfold tt; ring). lra.
Qed.
Lemma mass2 : forall a b, num (-180) 101 a -> num (-180) 101 b -> num (-360) 202 (fmul a b) /\ Rabs (val a * val b) <= tt * Rabs (val (fmul a b)).
Proof.
  intros a b Na Nb. destruct (num_fmul _ _ _ _ _ _ Na Nb) as (N & V); try lia. split; [exact N|].
  assert (Mv : mult (-1074) (val a * val b)) by (apply mult_le with (-180 + -180)%Z; [lia|]; apply mult_mul; [apply Na|apply Nb]).
  pose proof (rn_rel2 _ Mv) as E. rewrite <- V in E.
  replace (val a * val b) with (val (fmul a b) + (val a * val b - val (fmul a b))) at 1 by ring.
  apply Rle_trans with (1 := Rabs_triang _ _). unfold tt. lra.
Qed.
Lemma orient2d_adapt_full : forall ax ay bx by_ cx cy D,
  coord ax -> coord ay -> coord bx -> coord by_ -> coord cx -> coord cy ->
  num (-360) 204 D -> 0 < val D ->
  Rabs (val (fmul (fsub ax cx) (fsub by_ cy))) + Rabs (val (fmul (fsub ay cy) (fsub bx cx))) <= tt * val D ->
  exists r, orient2d_adapt ax ay bx by_ cx cy D = Some r /\
    same_sign r (orient2d_det (val ax) (val ay) (val bx) (val by_) (val cx) (val cy)).
Proof.
  intros ax ay bx by_ cx cy D Ax Ay Bx By Cx Cy ND D0 HD. apply coord_num in Ax, Ay, Bx, By, Cx, Cy.
  assert (X : orient2d_det (val ax) (val ay) (val bx) (val by_) (val cx) (val cy) =
              (val ax - val cx) * (val by_ - val cy) - (val ay - val cy) * (val bx - val cx)) by (det_unf; ring).
  unfold orient2d_adapt. cbv zeta.
  destruct (diff_facts ax cx Ax Cx) as (N1 & N1t & E1 & T1). destruct (diff_facts bx cx Bx Cx) as (N2 & N2t & E2 & T2).
  destruct (diff_facts ay cy Ay Cy) as (N3 & N3t & E3 & T3). destruct (diff_facts by_ cy By Cy) as (N4 & N4t & E4 & T4).
  rewrite <- E1, <- E2, <- E3, <- E4 in X. clear E1 E2 E3 E4.
  set (acx := fsub ax cx) in *. set (acxt := two_diff_tail ax cx acx) in *. clearbody acxt; clearbody acx.
  set (bcx := fsub bx cx) in *. set (bcxt := two_diff_tail bx cx bcx) in *. clearbody bcxt; clearbody bcx.
  set (acy := fsub ay cy) in *. set (acyt := two_diff_tail ay cy acy) in *. clearbody acyt; clearbody acy.
  set (bcy := fsub by_ cy) in *. set (bcyt := two_diff_tail by_ cy bcy) in *. clearbody bcyt; clearbody bcy.
  destruct (two_product acx bcy) as [x1 x0] eqn:P1. destruct (two_product acy bcx) as [y1 y0] eqn:P2.
  destruct (ttd_estimate _ _ _ _ _ _ _ _ N1 N4 N3 N2 P1 P2) as (Ne & He). fold ww in He.
  destruct (mass2 _ _ N1 N4) as (NL & ML). destruct (mass2 _ _ N3 N2) as (NR & MR).
  set (m0 := Rabs (val acx * val bcy) + Rabs (val acy * val bcx)).
  assert (Hm : 0 <= m0 <= tt * tt * val D).
  { unfold m0. pose proof (Rabs_pos (val acx * val bcy)). pose proof (Rabs_pos (val acy * val bcx)). split; [lra|].
    rewrite Rmult_assoc. apply Rle_trans with (tt * (Rabs (val (fmul acx bcy)) + Rabs (val (fmul acy bcx)))); [lra|].
    apply Rmult_le_compat_l; auto. pose proof tt_ge. lra. }
  do_quad. rename q into b. set (det := estimate b) in *.
  set (S0 := val acx * val bcy - val acy * val bcx) in *.
  pose proof (Rlt_le _ _ D0) as D0'.
  destruct (beyond det (fmul ccw_err_boundb D)) eqn:EB.
  { exists det. split; [reflexivity|]. apply same_sign_close; [apply Ne|]. rewrite X.
    destruct ccw_boundb as (NK & VK).
    destruct (mass_mul _ _ _ _ _ _ NK ND) as (_ & Q & NE); [rewrite VK; unfold uu; lra|auto|lia|lia|].
    rewrite VK in Q. apply (stage_b_real (val det) S0 _ m0 (val D) (val (fmul ccw_err_boundb D))); auto; try apply Hm.
    - pose proof (err_prod2 _ _ _ _ T1 T4) as R1. pose proof (err_prod2 _ _ _ _ T3 T2) as R2. unfold S0, m0.
      match goal with |- Rabs (?p - ?q - (?r - ?s)) <= _ => replace (p - q - (r - s)) with ((p - r) - (q - s)) by ring end.
      unfold Rminus at 1. apply Rle_trans with (1 := Rabs_triang _ _). rewrite Rabs_Ropp. lra.
    - apply beyond_val; auto; [apply Ne|apply NE]. }
  destruct (_ && _) eqn:ET.
  { exists det; split; [reflexivity|]. zero_tails.
    match goal with H : rep _ _ _ b _ |- _ => apply (est_same _ _ _ _ _ _ H); [znum ..|] end.
    rewrite X. subst v. repeat match goal with H : val ?t = 0 |- _ => rewrite H; clear H end. unfold S0. ring. }
  clear ET. match goal with |- context [if beyond ?a ?b then _ else _] => destruct (beyond a b) eqn:EC end.
  { destruct (corr_ok acx bcy acy bcx acxt bcyt acyt bcxt) as (NT & HT); auto.
    set (T' := fsub (fadd (fmul acx bcyt) (fmul bcy acxt)) (fadd (fmul acy bcxt) (fmul bcx acyt))) in *.
    destruct (num_fadd _ _ _ _ _ _ Ne NT) as (Nd & Vd); try lia.
    eexists. split; [reflexivity|]. apply same_sign_close; [apply Nd|]. rewrite X.
    destruct ccw_boundc as (NK & VK). destruct result_bound as (NK' & VK').
    destruct (mass_mul _ _ _ _ _ _ NK ND) as (Pc & Q & NE); [rewrite VK; unfold uu; lra|auto|lia|lia|].
    assert (Na : num (-360) 210 (fabs det)) by (apply num_abs; auto).
    assert (Pa : 0 <= val (fabs det)) by (rewrite fabs_val; apply Rabs_pos).
    destruct (mass_mul _ _ _ _ _ _ NK' Na) as (Pr & Q' & NE'); [rewrite VK'; unfold uu; lra|auto|lia|lia|].
    destruct (mass_add _ _ _ _ _ _ NE NE' Pc Pr) as (_ & Q'' & _ & NE''); try lia.
    rewrite VK in Q. rewrite VK', fabs_val in Q'.
    set (T0 := val acx * val bcyt + val bcy * val acxt - (val acy * val bcxt + val bcx * val acyt)) in *.
    set (Q0 := val acxt * val bcyt - val acyt * val bcxt).
    replace ((val acx + val acxt) * (val bcy + val bcyt) - (val acy + val acyt) * (val bcx + val bcxt)) with (S0 + T0 + Q0) by (unfold S0, T0, Q0; ring).
    eapply (stage_c_real (val det) S0 T0 (val T') Q0 _ m0 (val D)); [exact He|exact HT| | |exact D0|exact Hm|exact Q|exact Q'|exact Q''|].
    - assert (PP : forall a b at_ bt, Rabs at_ <= uu * Rabs a -> Rabs bt <= uu * Rabs b -> Rabs (at_ * bt) <= uu * uu * Rabs (a * b)).
      { intros a b' at_ bt Ha Hb. rewrite !Rabs_mult. replace (uu * uu * (Rabs a * Rabs b')) with ((uu * Rabs a) * (uu * Rabs b')) by ring.
        apply Rmult_le_compat; auto using Rabs_pos. }
      unfold Q0, m0. unfold Rminus. apply Rle_trans with (1 := Rabs_triang _ _). rewrite Rabs_Ropp.
      pose proof (PP _ _ _ _ T1 T4). pose proof (PP _ _ _ _ T3 T2). lra.
    - rewrite Vd. apply rn_rel2. apply mult_add; [apply mult_le with (-360)%Z; [lia|apply Ne]|apply mult_le with (-360)%Z; [lia|apply NT]].
    - apply beyond_val; auto; [apply Nd|apply NE'']. }
  clear EB EC. unfold orient2d_last. repeat (do_prod; do_prod; cbv zeta; do_quad; do_op).
  match goal with H : rep _ _ _ ?l _, X : expn ?l |- exists r, last_opt ?l = _ /\ _ =>
   edestruct (last_same _ _ _ _ _ (orient2d_det (val ax) (val ay) (val bx) (val by_) (val cx) (val cy)) H X) as (r & F1 & F2); [|exists r; auto] end.
  rewrite X. subst. unfold S0. ring.
Qed.
Lemma rn_pos_iff : forall v, mult (-1074) v -> (0 < rn v <-> 0 < v).
Proof.
  intros v M. pose proof (rn_rel2 v M) as H. pose proof uu_pos as U. assert (uu < 1) by (unfold uu; lra). split; intros P.
  - rewrite (Rabs_pos_eq (rn v)) in H by lra. pose proof (Rle_abs (- (v - rn v))) as Q. rewrite Rabs_Ropp in Q.
    assert (uu * rn v < 1 * rn v) by (apply Rmult_lt_compat_r; lra). lra.
  - assert (0 <= rn v) by (rewrite <- rn_0; apply rn_le_mono; lra).
    destruct (Req_dec (rn v) 0) as [E|]; [|lra]. rewrite E, Rabs_R0, Rmult_0_r in H. pose proof (Rle_abs (v - 0)). lra.
Qed.
Lemma rn_neg_iff : forall v, mult (-1074) v -> (rn v < 0 <-> v < 0).
Proof. intros v M. pose proof (rn_pos_iff (- v) (mult_opp _ _ M)) as H. rewrite rn_opp in H. lra. Qed.
(** A computed product of two differences has the sign of the exact one. *)
Lemma prod_sign : forall a b c d, num (-180) 100 a -> num (-180) 100 b -> num (-180) 100 c -> num (-180) 100 d ->
  (0 < val (fmul (fsub a b) (fsub c d)) <-> 0 < (val a - val b) * (val c - val d)) /\
  (val (fmul (fsub a b) (fsub c d)) < 0 <-> (val a - val b) * (val c - val d) < 0).
Proof.
  intros a b c d Na Nb Nc Nd.
  destruct (num_sub (-180) 100 a b Na Nb) as (N1 & V1 & _); try lia. destruct (num_sub (-180) 100 c d Nc Nd) as (N2 & V2 & _); try lia.
  destruct (num_fmul _ _ _ _ _ _ N1 N2) as (N & V); try lia. rewrite V.
  assert (Mv : mult (-1074) (val (fsub a b) * val (fsub c d))) by (apply mult_le with (-180 + -180)%Z; [lia|]; apply mult_mul; [apply N1|apply N2]).
  rewrite rn_pos_iff, rn_neg_iff by auto. rewrite V1, V2.
  assert (M1 : mult (-1074) (val a - val b)) by (apply mult_le with (-180)%Z; [lia|]; apply mult_sub; [apply Na|apply Nb]).
  assert (M2 : mult (-1074) (val c - val d)) by (apply mult_le with (-180)%Z; [lia|]; apply mult_sub; [apply Nc|apply Nd]).
  pose proof (rn_pos_iff _ M1) as P1. pose proof (rn_neg_iff _ M1) as P2. pose proof (rn_pos_iff _ M2) as P3. pose proof (rn_neg_iff _ M2) as P4.
  set (x := val a - val b) in *. set (y := val c - val d) in *. set (rx := rn x) in *. set (ry := rn y) in *. clearbody rx ry x y.
  assert (S : forall p q, (0 < p * q <-> (0 < p /\ 0 < q) \/ (p < 0 /\ q < 0)) /\ (p * q < 0 <-> (0 < p /\ q < 0) \/ (p < 0 /\ 0 < q))).
  { clear. intros p q. destruct (Rtotal_order p 0) as [P|[->|P]]; destruct (Rtotal_order q 0) as [Q|[->|Q]]; rewrite ?Rmult_0_l, ?Rmult_0_r;
    try (split; split; intros; exfalso; lra); split; split; intros; try lra; nra. }
  destruct (S x y) as (S1 & S2). destruct (S rx ry) as (S3 & S4). rewrite S1, S2, S3, S4. rewrite P1, P2, P3, P4. tauto.
Qed.
Lemma flt_iff : forall a b, fin a = true -> fin b = true -> flt a b = true <-> val a < val b.
Proof. intros a b Fa Fb. unfold flt. rewrite Bltb_correct by auto. case Rlt_bool_spec; split; intros; auto; try lra; discriminate. Qed.
Lemma fle_iff : forall a b, fin a = true -> fin b = true -> fle a b = true <-> val a <= val b.
Proof. intros a b Fa Fb. unfold fle. rewrite Bleb_correct by auto. case Rle_bool_spec; split; intros; auto; try lra; discriminate. Qed.
Lemma orient2d_full : forall ax ay bx by_ cx cy,
  coord ax -> coord ay -> coord bx -> coord by_ -> coord cx -> coord cy ->
  exists r, orient2d ax ay bx by_ cx cy = Some r /\
    same_sign r (orient2d_det (val ax) (val ay) (val bx) (val by_) (val cx) (val cy)).
Proof.
  intros ax ay bx by_ cx cy Ax Ay Bx By Cx Cy.
  assert (X : orient2d_det (val ax) (val ay) (val bx) (val by_) (val cx) (val cy) =
              (val ax - val cx) * (val by_ - val cy) - (val ay - val cy) * (val bx - val cx)) by (det_unf; ring).
  pose proof (fun D => orient2d_adapt_full ax ay bx by_ cx cy D Ax Ay Bx By Cx Cy) as HA.
  apply coord_num in Ax, Ay, Bx, By, Cx, Cy.
  destruct (prod_sign ax cx by_ cy Ax Cx By Cy) as (L1 & L2). destruct (prod_sign ay cy bx cx Ay Cy Bx Cx) as (R1 & R2).
  pose proof (appr_prod _ _ _ _ _ _ _ _ _ _ (appr_diff _ _ _ _ Ax Cx ltac:(lia) ltac:(lia)) (appr_diff _ _ _ _ By Cy ltac:(lia) ltac:(lia)) ltac:(lia) ltac:(lia)) as AL.
  pose proof (appr_prod _ _ _ _ _ _ _ _ _ _ (appr_diff _ _ _ _ Ay Cy ltac:(lia) ltac:(lia)) (appr_diff _ _ _ _ Bx Cx ltac:(lia) ltac:(lia)) ltac:(lia) ltac:(lia)) as AR.
  cbn [Nat.add] in AL, AR.
  unfold orient2d. cbv zeta.
  set (dl := fmul (fsub ax cx) (fsub by_ cy)) in *. set (dr := fmul (fsub ay cy) (fsub bx cx)) in *.
  set (PL := (val ax - val cx) * (val by_ - val cy)) in *. set (PR := (val ay - val cy) * (val bx - val cx)) in *.
  clearbody dl dr PL PR.
  destruct AL as (NL & _ & _ & EL). destruct AR as (NR & _ & _ & ER). rewrite fabs_val in EL, ER.
  apply (num_weak _ _ (-360) 202) in NL; [|lia|lia]. apply (num_weak _ _ (-360) 202) in NR; [|lia|lia].
  destruct (num_fsub _ _ _ _ _ _ NL NR) as (Nd & Vd); try lia.
  assert (Md : mult (-1074) (val dl - val dr)) by (apply mult_le with (-360)%Z; [lia|]; apply mult_sub; [apply NL|apply NR]).
  assert (SG : (0 < val (fsub dl dr) <-> 0 < val dl - val dr) /\ (val (fsub dl dr) < 0 <-> val dl - val dr < 0)).
  { rewrite Vd. split; [apply rn_pos_iff; auto|apply rn_neg_iff; auto]. }
  assert (F0 : fin fzero = true) by reflexivity. assert (V0 : val fzero = 0) by reflexivity.
  destruct (NL) as (Fl & _). destruct (NR) as (Fr & _). destruct (Nd) as (Fd & _).
  assert (ADAPT : forall D, num (-360) 204 D -> val D = rn (Rabs (val dl) + Rabs (val dr)) -> 0 < Rabs (val dl) -> 
     exists r, (if beyond (fsub dl dr) (fmul ccw_err_bounda D) then Some (fsub dl dr) else orient2d_adapt ax ay bx by_ cx cy D) = Some r /\
       same_sign r (orient2d_det (val ax) (val ay) (val bx) (val by_) (val cx) (val cy))).
  { intros D ND VD P. pose proof (Rabs_pos (val dr)).
    assert (MD : mult (-1074) (Rabs (val dl) + Rabs (val dr))).
    { apply mult_le with (-360)%Z; [lia|]. apply mult_add; apply mult_abs; [apply NL|apply NR]. }
    assert (D0 : 0 < val D) by (rewrite VD; apply rn_pos_iff; auto; lra).
    assert (HD : Rabs (val dl) + Rabs (val dr) <= tt * val D).
    { pose proof (rn_rel2 _ MD) as Q. rewrite <- VD in Q. rewrite (Rabs_pos_eq (val D)) in Q by lra.
      pose proof (Rle_abs (Rabs (val dl) + Rabs (val dr) - val D)). unfold tt. lra. }
    destruct (beyond (fsub dl dr) (fmul ccw_err_bounda D)) eqn:E; [|apply HA; auto].
    eexists. split; [reflexivity|]. apply same_sign_close; auto. rewrite X.
    destruct ccw_bounda as (NK & VK).
    destruct (mass_mul _ _ _ _ _ _ NK ND) as (_ & Q & NE); [rewrite VK; unfold uu; lra|lra|lia|lia|]. rewrite VK in Q.
    apply (stage_a_real (val dl - val dr) _ _ (Rabs (val dl) + Rabs (val dr)) (val D) (val (fmul ccw_err_bounda D))); auto.
    - replace (val dl - val dr - (PL - PR)) with ((val dl - PL) - (val dr - PR)) by ring.
      unfold Rminus at 1. apply Rle_trans with (1 := Rabs_triang _ _). rewrite Rabs_Ropp. lra.
    - rewrite Vd. apply rn_rel2; auto.
    - apply beyond_val; auto. apply NE. }
  destruct (flt fzero dl) eqn:C1.
  { apply flt_iff in C1; auto. rewrite V0 in C1. destruct (fle dr fzero) eqn:C2.
    - apply fle_iff in C2; auto. rewrite V0 in C2. eexists. split; [reflexivity|]. split; auto. rewrite X. destruct SG as (-> & ->). lra.
    - assert (P : 0 < val dr). { destruct (Rlt_or_le 0 (val dr)) as [|C]; auto. rewrite <- V0 in C. apply fle_iff in C; auto. congruence. }
      destruct (num_fadd _ _ _ _ _ _ NL NR) as (NS & VS); try lia. apply ADAPT.
      + apply num_weak with (1 := NS); lia.
      + rewrite VS, !Rabs_pos_eq by lra. auto.
      + rewrite Rabs_pos_eq; lra. }
  destruct (flt dl fzero) eqn:C2.
  { apply flt_iff in C2; auto. rewrite V0 in C2. destruct (fle fzero dr) eqn:C3.
    - apply fle_iff in C3; auto. rewrite V0 in C3. eexists. split; [reflexivity|]. split; auto. rewrite X. destruct SG as (-> & ->). lra.
    - assert (P : val dr < 0). { destruct (Rlt_or_le (val dr) 0) as [|C]; auto. rewrite <- V0 in C. apply fle_iff in C; auto. congruence. }
      destruct (num_fsub _ _ _ _ _ _ (num_neg _ _ _ NL) NR) as (NS & VS); try lia. apply ADAPT.
      + apply num_weak with (1 := NS); lia.
      + rewrite VS, fneg_val, !Rabs_left by lra. auto.
      + rewrite Rabs_left; lra. }
  assert (Z : val dl = 0).
  { destruct (Rtotal_order (val dl) 0) as [H|[H|H]]; auto; rewrite <- V0 in H; apply flt_iff in H; auto; congruence. }
  eexists. split; [reflexivity|]. split; auto. rewrite X. destruct SG as (-> & ->). lra.
Qed.
