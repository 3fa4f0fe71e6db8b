(** The rounding error of [estimate] on an expansion. *)
From Coq Require Import ZArith Reals List Bool Lia Lra.
From Flocq Require Import Core BinarySingleNaN.
From Verif Require Import F64 F64Facts Expansion Explicit ExpReal ExpFloat ExpZero.
Import ListNotations.
Local Open Scope R_scope.

Definition uu : R := / 9007199254740992.
Definition kap : R := 1 + / 1099511627776.
(** Summing from the end (the list has its largest component first). *)
Fixpoint est (o : list R) : R := match o with [] => 0 | x :: o => rn (est o + x) end.
(** The magnitudes of all partial sums, added up. *)
Fixpoint As (o : list R) : R := match o with [] => 0 | x :: o => Rabs (x + sumR o) + As o end.

Lemma K_half : forall x h o k, K (x :: h :: o) -> lsb k x -> Rabs h <= / 2 * B k.
Proof.
  intros x h o k (_ & Fx & (Nh & Fh & Ko & Jh) & Jx) L. destruct (Jx k L) as [Hj Hb]. simpl in Hb.
  destruct Hj as [Hj|[Hj _]]; [|lra]. simpl in Hj.
  destruct (fmt_lsb_ex h Fh Nh) as (j & Lj & _).
  destruct (Rle_or_lt (Rabs h) (/ 2 * B k)) as [|Hlt]; auto. exfalso.
  assert (B j < B k) by (pose proof (lsb_ge _ _ Lj); lra).
  assert (jk : (j < k)%Z) by (apply B_lt_inv; auto).
  assert (G : / 2 * B k + B j <= Rabs h).
  { rewrite <- B_pred in *. apply mult_gap; auto; [apply mult_B; lia|]. apply mult_abs, lsb_mult; auto. }
  destruct (Jh j Lj) as [Jj _]. pose proof (J_34 _ _ Jj). pose proof (B_pos j).
  assert (Rabs h <= Rabs (h + sumR o) + Rabs (sumR o)).
  { replace h with ((h + sumR o) + - sumR o) at 1 by lra. apply Rle_trans with (1 := Rabs_triang _ _). rewrite Rabs_Ropp. lra. }
  lra.
Qed.
Lemma As_pos : forall o, 0 <= As o.
Proof. induction o; simpl; [lra|]. pose proof (Rabs_pos (a + sumR o)). lra. Qed.
Lemma As_K : forall o x k, K (x :: o) -> lsb k x -> As o <= 3 / 2 * B k.
Proof.
  induction o as [|h o IH]; intros x k HK L; pose proof (B_pos k); [simpl; lra|].
  pose proof (K_half _ _ _ _ HK L) as Hh.
  destruct HK as (_ & Fx & Ko & Jx). destruct (Jx k L) as [Hj _]. apply J_34 in Hj.
  assert (Ko' := Ko). destruct Ko as (Nh & Fh & Ko & Jh). destruct (fmt_lsb_ex h Fh Nh) as (j & Lj & _).
  pose proof (IH h j Ko' Lj). pose proof (lsb_ge _ _ Lj). simpl in *. lra.
Qed.
Lemma As_KN : forall o x k, KN (x :: o) -> lsb k x -> As o <= / 2 * B k.
Proof.
  induction o as [|h o IH]; intros x k HK L; pose proof (B_pos k); [simpl; lra|].
  destruct HK as (_ & Fx & Ko & Jx). destruct (Jx k L) as [_ Hh].
  assert (Ko' := Ko). destruct Ko as (Nh & Fh & Ko & Jh). destruct (fmt_lsb_ex h Fh Nh) as (j & Lj & _).
  pose proof (IH h j Ko' Lj). destruct (Jh j Lj) as [Jj _]. unfold Jn in Jj.
  assert (B j < B (k - 1)) by (pose proof (lsb_ge _ _ Lj); rewrite B_pred; lra).
  assert (jk : (j < k - 1)%Z) by (apply B_lt_inv; auto).
  assert (G : Rabs h + B j <= / 2 * B k).
  { rewrite <- B_pred in *. apply mult_gap; auto; [|apply mult_B; lia]. apply mult_abs, lsb_mult; auto. }
  simpl. pose proof (Rabs_triang h (sumR o)). lra.
Qed.

Lemma est_fmt : forall o, fmt (est o).
Proof. destruct o; [apply generic_format_0|apply rn_fmt]. Qed.
Lemma est_err : forall l, K l -> Rabs (est l - sumR l) <= kap * uu * As l.
Proof.
  induction l as [|x o IH]; intros HK; [simpl; rewrite Rminus_0_r, Rabs_R0; lra|].
  assert (HK' := HK). destruct HK as (Nx & Fx & Ko & Jx). specialize (IH Ko).
  destruct (fmt_lsb_ex x Fx Nx) as (k & L & _). pose proof (As_K _ _ _ HK' L) as HA. pose proof (lsb_ge _ _ L).
  pose proof (K_sum_lt _ _ HK') as HS. simpl est. simpl sumR. simpl As.
  set (e := est o) in *. set (s := sumR o) in *.
  assert (M : mult (-1074) (e + x)) by (apply mult_add; apply fmt_min; auto; apply est_fmt).
  pose proof (rn_rel _ M) as R. fold uu in R.
  assert (U : 0 < uu) by (unfold uu; lra).
  assert (D : Rabs (e - s) <= kap * uu * (6 * Rabs (x + s))).
  { apply Rle_trans with (1 := IH). apply Rmult_le_compat_l; [unfold kap, uu; lra|].
    assert (Rabs x <= Rabs (x + s) + Rabs s).
    { replace x with ((x + s) + - s) at 1 by lra. apply Rle_trans with (1 := Rabs_triang _ _). rewrite Rabs_Ropp. lra. }
    lra. }
  assert (V : Rabs (e + x) <= Rabs (x + s) + Rabs (e - s)).
  { replace (e + x) with ((x + s) + (e - s)) by lra. apply Rabs_triang. }
  assert (T : Rabs (rn (e + x) - (x + s)) <= Rabs (e + x - rn (e + x)) + Rabs (e - s)).
  { replace (rn (e + x) - (x + s)) with (- (e + x - rn (e + x)) + (e - s)) by lra.
    apply Rle_trans with (1 := Rabs_triang _ _). rewrite Rabs_Ropp. lra. }
  set (t := Rabs (x + s)) in *.
  assert (Rabs (e + x - rn (e + x)) <= uu * (t + kap * uu * (6 * t))).
  { apply Rle_trans with (1 := R). apply Rmult_le_compat_l; lra. }
  assert (0 <= t) by apply Rabs_pos.
  assert (uu * (t + kap * uu * (6 * t)) <= kap * uu * t); [|lra].
  replace (uu * (t + kap * uu * (6 * t))) with (uu * (1 + 6 * kap * uu) * t) by ring.
  apply Rmult_le_compat_r; auto. rewrite (Rmult_comm kap). apply Rmult_le_compat_l; [lra|]. unfold kap, uu. lra.
Qed.
Lemma est_rel_KN : forall l, KN l -> Rabs (est l - sumR l) <= 2 * kap * uu * Rabs (sumR l).
Proof.
  intros l H. pose proof (est_err l (KN_K _ H)) as E. destruct l as [|x o].
  - simpl in *. rewrite Rabs_R0. rewrite Rmult_0_r in *. auto.
  - assert (H' := H). destruct H as (Nx & Fx & Ko & Jx). destruct (fmt_lsb_ex x Fx Nx) as (k & L & _).
    pose proof (As_KN _ _ _ H' L). destruct (Jx k L) as [Jj _]. unfold Jn in Jj. pose proof (lsb_ge _ _ L).
    simpl As in E. simpl sumR in *. apply Rle_trans with (1 := E).
    assert (Rabs x <= Rabs (x + sumR o) + Rabs (sumR o)).
    { replace x with ((x + sumR o) + - sumR o) at 1 by lra. apply Rle_trans with (1 := Rabs_triang _ _). rewrite Rabs_Ropp. lra. }
    replace (2 * kap * uu * Rabs (x + sumR o)) with (kap * uu * (2 * Rabs (x + sumR o))) by ring.
    apply Rmult_le_compat_l; [unfold kap, uu; lra|]. lra.
Qed.
Lemma est_rel_K : forall l, K l -> Rabs (est l - sumR l) <= 7 * kap * uu * Rabs (sumR l).
Proof.
  intros l H. pose proof (est_err l H) as E. destruct l as [|x o].
  - simpl in *. rewrite Rabs_R0. rewrite Rmult_0_r in *. auto.
  - assert (H' := H). destruct H as (Nx & Fx & Ko & Jx). destruct (fmt_lsb_ex x Fx Nx) as (k & L & _).
    pose proof (As_K _ _ _ H' L). pose proof (K_sum_lt _ _ H') as Jj. pose proof (lsb_ge _ _ L).
    simpl As in E. simpl sumR in *. apply Rle_trans with (1 := E).
    assert (Rabs x <= Rabs (x + sumR o) + Rabs (sumR o)).
    { replace x with ((x + sumR o) + - sumR o) at 1 by lra. apply Rle_trans with (1 := Rabs_triang _ _). rewrite Rabs_Ropp. lra. }
    replace (7 * kap * uu * Rabs (x + sumR o)) with (kap * uu * (7 * Rabs (x + sumR o))) by ring.
    apply Rmult_le_compat_l; [unfold kap, uu; lra|]. lra.
Qed.

(** The float program. *)
Lemma est_nz : forall o, est (nzR o) = est o.
Proof.
  induction o as [|x o IH]; auto. unfold nzR in *. simpl. destruct (Req_EM_T x 0) as [->|]; simpl.
  - rewrite Rplus_0_r, IH. symmetry. apply rn_id, est_fmt.
  - rewrite IH. auto.
Qed.
Lemma estimate_snoc : forall l a, estimate (l ++ [a]) = fadd (estimate l) a.
Proof. intros. unfold estimate. rewrite fold_left_app. reflexivity. Qed.
Lemma estimate_val : forall m j l, (-1074 <= m)%Z -> (0 <= j <= 53)%Z -> (m + j <= 1018)%Z -> allfin l -> bd m l ->
  (Z.of_nat (length l) <= 2 ^ j)%Z ->
  fin (estimate l) = true /\ val (estimate l) = est (rev (vals l)) /\ Rabs (val (estimate l)) <= IZR (Z.of_nat (length l)) * B m.
Proof.
  intros m j l Tm Tj Tmj. induction l as [|a l IH] using rev_ind; intros F Bd Len.
  - simpl. split; auto. split; auto. rewrite Rabs_R0. lra.
  - apply allfin_app in F. destruct F as [F Fa]. apply bd_app in Bd. destruct Bd as [Bl Ba].
    rewrite app_length in Len. simpl in Len. destruct (IH F Bl) as (Fe & Ve & Be); [lia|].
    inversion Fa; subst. inversion Ba; subst. rewrite estimate_snoc.
    assert (P53 : (2 ^ j <= 2 ^ 53)%Z) by (apply Z.pow_le_mono_r; lia).
    assert (E : (Z.of_nat (length (l ++ [a])) = Z.of_nat (length l) + 1)%Z) by (rewrite app_length; simpl; lia).
    assert (Q : Rabs (val (estimate l) + val a) <= IZR (Z.of_nat (length l) + 1) * B m).
    { apply Rle_trans with (1 := Rabs_triang _ _). rewrite plus_IZR. lra. }
    destruct (fadd_bound (m + j) (estimate l) a Fe ltac:(assumption)) as (F1 & _); [lia| |].
    { apply Rle_trans with (1 := Q). apply k_le; lia. }
    split; auto. destruct (fadd_ok _ _ F1) as (_ & _ & V). rewrite V. rewrite E.
    split; [|apply rn_le; lia || auto].
    rewrite vals_app, rev_app_distr. simpl. rewrite Ve. reflexivity.
Qed.
Lemma rep_estimate : forall g m n l v, rep g m n l v -> (-1074 <= m)%Z -> (m + Z.log2_up n <= 1018)%Z -> (Z.log2_up n <= 53)%Z ->
  fin (estimate l) = true /\ Rabs (val (estimate l) - v) <= 7 * kap * uu * Rabs v /\ Rabs (val (estimate l)) <= IZR n * B m.
Proof.
  intros g m n l v ((F & N & HK) & V & G & M & Ln) T1 T2 T3.
  assert (L1 : (1 <= Z.of_nat (length l))%Z) by (destruct l; [tauto|simpl; lia]).
  destruct (estimate_val m (Z.log2_up n) l) as (Fe & Ve & Be); auto.
  { split; [apply Z.log2_up_nonneg|auto]. }
  { apply Z.le_trans with (1 := Ln). destruct (Z.eq_dec n 1) as [->|]; [simpl; lia|]. apply Z.log2_up_spec. lia. }
  split; auto. split.
  - rewrite Ve, <- est_nz, nzR_rev, <- nz_vals, <- V by auto. rewrite <- (nz_value l F). unfold value. rewrite <- sumR_rev.
    apply est_rel_K; auto.
  - apply Rle_trans with (1 := Be). apply Rmult_le_compat_r; [left; apply B_pos|]. apply IZR_le. auto.
Qed.
Lemma rep_estimate_sign : forall g m n l v, rep g m n l v -> (-1074 <= m)%Z -> (m + Z.log2_up n <= 1018)%Z -> (Z.log2_up n <= 53)%Z ->
  fin (estimate l) = true /\ (0 < val (estimate l) <-> 0 < v) /\ (val (estimate l) < 0 <-> v < 0).
Proof.
  intros g m n l v R T1 T2 T3. destruct (rep_estimate g m n l v R T1 T2 T3) as (F & E & _). split; auto.
  assert (H : Rabs (val (estimate l) - v) <= / 2 * Rabs v).
  { apply Rle_trans with (1 := E). apply Rmult_le_compat_r; [apply Rabs_pos|]. unfold kap, uu. lra. }
  revert H. unfold Rabs. destruct (Rcase_abs (val (estimate l) - v)); destruct (Rcase_abs v); intros; split; split; lra.
Qed.
