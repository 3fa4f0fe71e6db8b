(** Rounding error of short float programs, measured against a companion
    program that computes with absolute values (the "permanent"). *)
From Coq Require Import ZArith Reals List Bool Lia Lra Psatz.
From Flocq Require Import Core BinarySingleNaN.
From Verif Require Import Lib F64 F64Facts Expansion Explicit ExpReal ExpFloat ExpZero ExpEst ExpSpec ExplicitSpec.
Import ListNotations.
Local Open Scope R_scope.

Definition tt : R := 1 + uu.
Lemma uu_pos : 0 < uu.
Proof. unfold uu. lra. Qed.
Lemma tt_ge : 1 <= tt.
Proof. unfold tt. pose proof uu_pos. lra. Qed.
Lemma ttk_ge : forall k, 1 <= tt ^ k.
Proof. intros. apply pow_R1_Rle. apply tt_ge. Qed.
Lemma ttk_mono : forall j k, (j <= k)%nat -> tt ^ j <= tt ^ k.
Proof. intros. apply Rle_pow; auto. apply tt_ge. Qed.

Lemma rn_le_mono : forall x y, x <= y -> rn x <= rn y.
Proof. intros. apply round_le; auto; typeclasses eauto. Qed.
Lemma rn_abs : forall x, rn (Rabs x) = Rabs (rn x).
Proof. intros. apply round_NE_abs. typeclasses eauto. Qed.
Lemma rn_rel2 : forall v, mult (-1074) v -> Rabs (v - rn v) <= uu * Rabs (rn v).
Proof.
  intros v M. destruct (rn_cases (-1074) v M) as [H|(w & U & [V1 _] & _ & A)]; [lia| |].
  - rewrite H, Rabs_R0. pose proof (Rabs_pos (rn v)). pose proof uu_pos. apply Rmult_le_pos; lra.
  - assert (Q : B (w + 52) <= Rabs (rn v)).
    { rewrite <- rn_abs. rewrite <- (rn_id (B (w + 52))); [apply rn_le_mono; auto|].
      apply generic_format_bpow. unfold fexp64, FLT_exp. lia. }
    rewrite B_52 in Q. pose proof (B_pos (-1074)). pose proof (B_pos w). unfold uu.
    destruct A as [[_ A]|[_ A]]; lra.
Qed.
Lemma fabs_val : forall a, val (fabs a) = Rabs (val a).
Proof. intros. apply B2R_Babs. Qed.
Lemma fabs_fin : forall a : f64, fin (fabs a) = fin a.
Proof. intros. apply is_finite_Babs. Qed.
Lemma num_abs : forall g m a, num g m a -> num g m (fabs a).
Proof. intros g m a (F & M & Ba). split; [rewrite fabs_fin; auto|]. rewrite fabs_val. split; [apply mult_abs; auto|]. rewrite Rabs_Rabsolu. auto. Qed.

Lemma num_fadd : forall g m g' m' a b, num g m a -> num g' m' b -> (-1074 <= Z.min g g')%Z -> (-1074 <= Z.max m m' < 1023)%Z ->
  num (Z.min g g') (Z.max m m' + 1) (fadd a b) /\ val (fadd a b) = rn (val a + val b).
Proof.
  intros g m g' m' a b Na Nb G T.
  apply (num_weak _ _ (Z.min g g') (Z.max m m')) in Na; [|lia|lia]. apply (num_weak _ _ (Z.min g g') (Z.max m m')) in Nb; [|lia|lia].
  destruct Na as (Fa & Ma & Va), Nb as (Fb & Mb & Vb).
  destruct (fadd_b (Z.max m m') a b) as (F & V); auto; try lia. destruct (fadd_ok _ _ F) as (_ & _ & E).
  split; auto. split; auto. split; auto. rewrite E. apply rn_mult; auto. apply mult_add; auto.
Qed.
Lemma num_fsub : forall g m g' m' a b, num g m a -> num g' m' b -> (-1074 <= Z.min g g')%Z -> (-1074 <= Z.max m m' < 1023)%Z ->
  num (Z.min g g') (Z.max m m' + 1) (fsub a b) /\ val (fsub a b) = rn (val a - val b).
Proof.
  intros g m g' m' a b Na Nb G T.
  apply (num_weak _ _ (Z.min g g') (Z.max m m')) in Na; [|lia|lia]. apply (num_weak _ _ (Z.min g g') (Z.max m m')) in Nb; [|lia|lia].
  destruct Na as (Fa & Ma & Va), Nb as (Fb & Mb & Vb).
  destruct (fsub_b (Z.max m m') a b) as (F & V); auto; try lia. destruct (fsub_ok _ _ F) as (_ & _ & E).
  split; auto. split; auto. split; auto. rewrite E. apply rn_mult; auto. apply mult_sub; auto.
Qed.
Lemma mult_mul : forall g g' x y, mult g x -> mult g' y -> mult (g + g') (x * y).
Proof. intros g g' x y (a & ->) (b & ->). exists (a * b)%Z. rewrite mult_IZR, B_plus. ring. Qed.
Lemma num_fmul : forall g m g' m' a b, num g m a -> num g' m' b -> (-1074 <= g + g')%Z -> (-1074 <= m + m' < 1024)%Z ->
  num (g + g') (m + m') (fmul a b) /\ val (fmul a b) = rn (val a * val b).
Proof.
  intros g m g' m' a b (Fa & Ma & Va) (Fb & Mb & Vb) G T.
  destruct (fmul_b m m' a b) as (F & V); auto. destruct (fmul_ok _ _ F) as (_ & _ & E).
  split; auto. split; auto. split; auto. rewrite E. apply rn_mult; auto. apply mult_mul; auto.
Qed.

(** [x] approximates [X], with at most [k] roundings, on the mass [p]. *)
Definition appr (g m : Z) (k : nat) (x : f64) (X : R) (p : f64) : Prop :=
  num g m x /\ num g m p /\ Rabs (val x) <= val p /\ Rabs (val x - X) <= (tt ^ k - 1) * val p.

Lemma appr_diff : forall g m a b, num g m a -> num g m b -> (-1074 <= g)%Z -> (-1074 <= m <= 1016)%Z ->
  appr g (m + 1) 1 (fsub a b) (val a - val b) (fabs (fsub a b)).
Proof.
  intros g m a b Na Nb G T. destruct (num_sub g m a b Na Nb G T) as (N & V & _).
  split; auto. split; [apply num_abs; auto|]. rewrite fabs_val. split; [apply Rle_refl|].
  rewrite V. rewrite Rabs_minus_sym. replace (tt ^ 1 - 1) with uu by (unfold tt; simpl; lra). apply rn_rel2.
  apply mult_le with g; auto. apply mult_sub; [apply Na|apply Nb].
Qed.
Lemma appr_weak : forall g m k x X p k', appr g m k x X p -> (k <= k')%nat -> appr g m k' x X p.
Proof.
  intros g m k x X p k' (N & Np & H1 & H2) L. split; auto. split; auto. split; auto.
  apply Rle_trans with (1 := H2). apply Rmult_le_compat_r.
  - apply Rle_trans with (2 := H1). apply Rabs_pos.
  - pose proof (ttk_mono k k' L). lra.
Qed.
Lemma appr_p : forall g m k x X p p', appr g m k x X p -> val p = val p' -> fin p' = true -> appr g m k x X p'.
Proof.
  intros g m k x X p p' (N & (F & M & Bp) & H1 & H2) E F'. split; auto. rewrite E in *. split; auto. split; auto.
Qed.
Lemma round_step : forall v X p c, mult (-1074) v -> Rabs v <= p -> 0 <= c -> Rabs (v - X) <= c * p -> mult (-1074) p ->
  Rabs (rn v) <= rn p /\ Rabs (rn v - X) <= ((1 + c) * tt - 1) * rn p.
Proof.
  intros v X p c Mv Hv Hc HX Mp.
  assert (H1 : Rabs (rn v) <= rn p) by (rewrite <- rn_abs; apply rn_le_mono; auto).
  split; auto.
  pose proof (rn_rel2 v Mv) as E1. pose proof (rn_rel2 p Mp) as E2.
  assert (P0 : 0 <= rn p) by (apply Rle_trans with (2 := H1); apply Rabs_pos).
  rewrite (Rabs_pos_eq (rn p)) in E2 by auto.
  assert (E3 : p <= tt * rn p).
  { assert (p - rn p <= uu * rn p) by (apply Rle_trans with (2 := E2); apply Rle_abs). unfold tt. lra. }
  assert (E4 : Rabs (v - rn v) <= uu * rn p).
  { apply Rle_trans with (1 := E1). apply Rmult_le_compat_l; auto. pose proof uu_pos; lra. }
  replace (rn v - X) with ((v - X) - (v - rn v)) by lra.
  apply Rle_trans with (Rabs (v - X) + Rabs (v - rn v)).
  { unfold Rminus at 1. apply Rle_trans with (1 := Rabs_triang _ _). rewrite Rabs_Ropp. lra. }
  assert (c * p <= c * (tt * rn p)) by (apply Rmult_le_compat_l; auto).
  replace (((1 + c) * tt - 1) * rn p) with (c * (tt * rn p) + uu * rn p) by (unfold tt; ring). lra.
Qed.
Lemma appr_mul : forall g m k x X p g' m' k' y Y q, appr g m k x X p -> appr g' m' k' y Y q ->
  (-1074 <= g + g')%Z -> (-1074 <= m + m' < 1024)%Z ->
  appr (g + g') (m + m') (S (k + k')) (fmul x y) (X * Y) (fmul p q).
Proof.
  intros g m k x X p g' m' k' y Y q (Nx & Np & H1 & H2) (Ny & Nq & H3 & H4) G T.
  destruct (num_fmul _ _ _ _ _ _ Nx Ny G T) as (N & V). destruct (num_fmul _ _ _ _ _ _ Np Nq G T) as (N' & V').
  split; auto. split; auto. rewrite V, V'.
  assert (Mv : mult (-1074) (val x * val y)) by (apply mult_le with (g + g')%Z; auto; apply mult_mul; [apply Nx|apply Ny]).
  assert (Mp : mult (-1074) (val p * val q)) by (apply mult_le with (g + g')%Z; auto; apply mult_mul; [apply Np|apply Nq]).
  pose proof (ttk_ge k). pose proof (ttk_ge k'). pose proof (ttk_ge (k + k')).
  assert (P0 : 0 <= val p) by (apply Rle_trans with (2 := H1); apply Rabs_pos).
  assert (Q0 : 0 <= val q) by (apply Rle_trans with (2 := H3); apply Rabs_pos).
  destruct (round_step (val x * val y) (X * Y) (val p * val q) (tt ^ (k + k') - 1) Mv) as (R1 & R2); auto.
  - rewrite Rabs_mult. apply Rmult_le_compat; auto; apply Rabs_pos.
  - lra.
  - replace (val x * val y - X * Y) with (val x * (val y - Y) + val y * (val x - X) - (val x - X) * (val y - Y)) by ring.
    apply Rle_trans with (Rabs (val x) * Rabs (val y - Y) + Rabs (val y) * Rabs (val x - X) + Rabs (val x - X) * Rabs (val y - Y)).
    { unfold Rminus at 1. apply Rle_trans with (1 := Rabs_triang _ _). rewrite Rabs_Ropp, Rabs_mult.
      apply Rplus_le_compat_r. apply Rle_trans with (1 := Rabs_triang _ _). rewrite !Rabs_mult. lra. }
    rewrite pow_add.
    replace ((tt ^ k * tt ^ k' - 1) * (val p * val q)) with
      (val p * ((tt ^ k' - 1) * val q) + val q * ((tt ^ k - 1) * val p) + ((tt ^ k - 1) * val p) * ((tt ^ k' - 1) * val q)) by ring.
    repeat apply Rplus_le_compat; apply Rmult_le_compat; auto; apply Rabs_pos.
  - split; auto. replace (tt ^ S (k + k') - 1) with ((1 + (tt ^ (k + k') - 1)) * tt - 1) by (simpl; ring). auto.
Qed.
Lemma appr_add : forall g m k x X p g' m' y Y q, appr g m k x X p -> appr g' m' k y Y q ->
  (-1074 <= Z.min g g')%Z -> (-1074 <= Z.max m m' < 1023)%Z ->
  appr (Z.min g g') (Z.max m m' + 1) (S k) (fadd x y) (X + Y) (fadd p q).
Proof.
  intros g m k x X p g' m' y Y q (Nx & Np & H1 & H2) (Ny & Nq & H3 & H4) G T.
  destruct (num_fadd _ _ _ _ _ _ Nx Ny G T) as (N & V). destruct (num_fadd _ _ _ _ _ _ Np Nq G T) as (N' & V').
  split; auto. split; auto. rewrite V, V'.
  assert (Ma : forall a b, num g m a -> num g' m' b -> mult (-1074) (val a + val b)).
  { intros a b Na Nb. apply mult_add; [apply mult_le with g; [lia|apply Na]|apply mult_le with g'; [lia|apply Nb]]. }
  pose proof (ttk_ge k).
  destruct (round_step (val x + val y) (X + Y) (val p + val q) (tt ^ k - 1)) as (R1 & R2); auto.
  - apply Rle_trans with (1 := Rabs_triang _ _). lra.
  - lra.
  - replace (val x + val y - (X + Y)) with ((val x - X) + (val y - Y)) by ring. apply Rle_trans with (1 := Rabs_triang _ _). lra.
  - split; auto. replace (tt ^ S k - 1) with ((1 + (tt ^ k - 1)) * tt - 1) by (simpl; ring). auto.
Qed.
Lemma appr_neg : forall g m k x X p, appr g m k x X p -> appr g m k (fneg x) (- X) p.
Proof.
  intros g m k x X p (Nx & Np & H1 & H2). split; [apply num_neg; auto|]. split; auto. rewrite fneg_val.
  split; [rewrite Rabs_Ropp; auto|]. replace (- val x - - X) with (- (val x - X)) by ring. rewrite Rabs_Ropp. auto.
Qed.
Lemma appr_sub : forall g m k x X p g' m' y Y q, appr g m k x X p -> appr g' m' k y Y q ->
  (-1074 <= Z.min g g')%Z -> (-1074 <= Z.max m m' < 1023)%Z ->
  appr (Z.min g g') (Z.max m m' + 1) (S k) (fsub x y) (X - Y) (fadd p q).
Proof.
  intros g m k x X p g' m' y Y q (Nx & Np & H1 & H2) (Ny & Nq & H3 & H4) G T.
  destruct (num_fsub _ _ _ _ _ _ Nx Ny G T) as (N & V). destruct (num_fadd _ _ _ _ _ _ Np Nq G T) as (N' & V').
  split; auto. split; auto. rewrite V, V'.
  assert (Ma : forall a b, num g m a -> num g' m' b -> mult (-1074) (val a + val b)).
  { intros a b Na Nb. apply mult_add; [apply mult_le with g; [lia|apply Na]|apply mult_le with g'; [lia|apply Nb]]. }
  assert (Ms : forall a b, num g m a -> num g' m' b -> mult (-1074) (val a - val b)).
  { intros a b Na Nb. apply mult_sub; [apply mult_le with g; [lia|apply Na]|apply mult_le with g'; [lia|apply Nb]]. }
  pose proof (ttk_ge k).
  destruct (round_step (val x - val y) (X - Y) (val p + val q) (tt ^ k - 1)) as (R1 & R2); auto.
  - unfold Rminus. apply Rle_trans with (1 := Rabs_triang _ _). rewrite Rabs_Ropp. lra.
  - lra.
  - replace (val x - val y - (X - Y)) with ((val x - X) - (val y - Y)) by ring. unfold Rminus at 1. apply Rle_trans with (1 := Rabs_triang _ _). rewrite Rabs_Ropp. lra.
  - split; auto. replace (tt ^ S k - 1) with ((1 + (tt ^ k - 1)) * tt - 1) by (simpl; ring). auto.
Qed.

(** The comparisons. *)
Lemma flt_val : forall a b, fin a = true -> fin b = true -> flt a b = true -> val a < val b.
Proof. intros a b Fa Fb H. unfold flt in H. rewrite Bltb_correct in H; auto. revert H. case Rlt_bool_spec; auto. discriminate. Qed.
Lemma fle_val : forall a b, fin a = true -> fin b = true -> fle a b = true -> val a <= val b.
Proof. intros a b Fa Fb H. unfold fle in H. rewrite Bleb_correct in H; auto. revert H. case Rle_bool_spec; auto. discriminate. Qed.
(** A bound that holds: for any float [e] at least [c (p + q) tt] large. *)
Lemma strict_pos : forall v X c p e, Rabs (v - X) <= c * p -> fmt e -> c * p <= e -> e < rn v -> 0 < X.
Proof.
  intros v X c p e H F L E.
  assert (e < v).
  { destruct (Rlt_or_le e v) as [|C]; auto. apply rn_le_mono in C. rewrite (rn_id e F) in C. lra. }
  pose proof (Rle_abs (v - X)). lra.
Qed.
(** One more sum, then the strict comparison against [K] times the mass. *)
Lemma filter_add : forall g m k x X p g' m' y Y q K gk mk, appr g m k x X p -> appr g' m' k y Y q ->
  (-1074 <= Z.min g g')%Z -> (-1074 <= Z.max m m' < 1023)%Z ->
  num gk mk K -> (-1074 <= gk + Z.min g g')%Z -> (-1074 <= mk + (Z.max m m' + 1) < 1024)%Z ->
  (tt ^ k - 1) * tt * tt <= val K ->
  beyond_strict (fadd x y) (fmul K (fadd p q)) = true -> same_sign (fadd x y) (X + Y).
Proof.
  intros g m k x X p g' m' y Y q K gk mk A1 A2 G T NK TG TM HK H.
  assert (A := appr_add _ _ _ _ _ _ _ _ _ _ _ A1 A2 G T). destruct A as (N & NP & HP & _).
  destruct A1 as (Nx & Np & H1 & H2). destruct A2 as (Ny & Nq & H3 & H4).
  destruct (num_fadd _ _ _ _ _ _ Nx Ny G T) as (_ & V). destruct (num_fadd _ _ _ _ _ _ Np Nq G T) as (_ & VP).
  destruct (num_fmul _ _ _ _ _ _ NK NP TG TM) as (NE & VE).
  set (P := val (fadd p q)) in *. set (e := val (fmul K (fadd p q))) in *.
  assert (P0 : 0 <= P) by (apply Rle_trans with (2 := HP); apply Rabs_pos).
  assert (Mp : mult (-1074) (val p + val q)).
  { apply mult_add; [apply mult_le with g; [lia|apply Np]|apply mult_le with g'; [lia|apply Nq]]. }
  pose proof (rn_rel2 _ Mp) as E1. rewrite <- VP in E1. rewrite (Rabs_pos_eq P) in E1 by auto.
  assert (E2 : val p + val q <= tt * P).
  { pose proof (Rle_abs (val p + val q - P)). unfold tt. lra. }
  assert (ME : mult (-1074) (val K * P)).
  { apply mult_le with (gk + Z.min g g')%Z; auto. apply mult_mul; [apply NK|apply NP]. }
  pose proof (rn_rel2 _ ME) as E3. rewrite <- VE in E3.
  pose proof (ttk_ge k) as Tk. pose proof tt_ge as T1.
  assert (K0 : 0 <= val K).
  { apply Rle_trans with (2 := HK). repeat apply Rmult_le_pos; lra. }
  assert (e0 : 0 <= e). { rewrite VE. rewrite <- (rn_0). apply rn_le_mono. apply Rmult_le_pos; auto. }
  rewrite (Rabs_pos_eq e) in E3 by auto.
  assert (E4 : val K * P <= tt * e). { pose proof (Rle_abs (val K * P - e)). unfold tt. lra. }
  assert (E5 : (tt ^ k - 1) * (val p + val q) <= e).
  { apply Rmult_le_reg_l with tt; [lra|]. apply Rle_trans with (2 := E4).
    apply Rle_trans with ((tt ^ k - 1) * tt * tt * P).
    - replace (tt * ((tt ^ k - 1) * (val p + val q))) with ((tt ^ k - 1) * tt * (val p + val q)) by ring.
      rewrite (Rmult_assoc ((tt ^ k - 1) * tt) tt P). apply Rmult_le_compat_l; auto. apply Rmult_le_pos; lra.
    - apply Rmult_le_compat_r; auto. }
  assert (HX : Rabs (val x + val y - (X + Y)) <= (tt ^ k - 1) * (val p + val q)).
  { replace (val x + val y - (X + Y)) with ((val x - X) + (val y - Y)) by ring. apply Rle_trans with (1 := Rabs_triang _ _). lra. }
  split; [apply N|].
  unfold beyond_strict in H. apply orb_true_iff in H. destruct H as [H|H]; apply flt_val in H; try apply NE; try apply N; try (rewrite fneg_fin; apply N).
  - fold e in H. rewrite V in *.
    assert (0 < X + Y) by (apply (strict_pos _ _ _ _ e HX); auto; apply val_fmt). split; split; lra.
  - rewrite fneg_val in H. fold e in H. rewrite V in *. rewrite <- rn_opp in H.
    assert (0 < - (X + Y)).
    { apply (strict_pos (- (val x + val y)) (- (X + Y)) (tt ^ k - 1) (val p + val q) e); auto; [|apply val_fmt].
      replace (- (val x + val y) - - (X + Y)) with (- (val x + val y - (X + Y))) by ring. rewrite Rabs_Ropp. auto. }
    rewrite rn_opp in H. split; split; lra.
Qed.

(** ** Variants for the masses as the code writes them *)
Lemma appr_add2 : forall g m k x X p g' m' k' y Y q, appr g m k x X p -> appr g' m' k' y Y q ->
  (-1074 <= Z.min g g')%Z -> (-1074 <= Z.max m m' < 1023)%Z ->
  appr (Z.min g g') (Z.max m m' + 1) (S (Nat.max k k')) (fadd x y) (X + Y) (fadd p q).
Proof. intros. eapply appr_add; eauto; eapply appr_weak; eauto; lia. Qed.
Lemma appr_sub2 : forall g m k x X p g' m' k' y Y q, appr g m k x X p -> appr g' m' k' y Y q ->
  (-1074 <= Z.min g g')%Z -> (-1074 <= Z.max m m' < 1023)%Z ->
  appr (Z.min g g') (Z.max m m' + 1) (S (Nat.max k k')) (fsub x y) (X - Y) (fadd p q).
Proof. intros. eapply appr_sub; eauto; eapply appr_weak; eauto; lia. Qed.
Lemma appr_addc : forall g m k x X p g' m' k' y Y q, appr g m k x X p -> appr g' m' k' y Y q ->
  (-1074 <= Z.min g g')%Z -> (-1074 <= Z.max m m' < 1023)%Z ->
  appr (Z.min g g') (Z.max m m' + 1) (S (Nat.max k k')) (fadd x y) (X + Y) (fadd q p).
Proof.
  intros g m k x X p g' m' k' y Y q A1 A2 G T. assert (A := appr_add2 _ _ _ _ _ _ _ _ _ _ _ _ A1 A2 G T).
  destruct A1 as (_ & Np & _). destruct A2 as (_ & Nq & _).
  destruct (num_fadd _ _ _ _ _ _ Np Nq G T) as (_ & V). destruct (num_fadd _ _ _ _ _ _ Nq Np) as (N' & V'); try lia.
  apply appr_p with (1 := A); [|apply N']. rewrite V, V'. f_equal. lra.
Qed.
Lemma appr_subc : forall g m k x X p g' m' k' y Y q, appr g m k x X p -> appr g' m' k' y Y q ->
  (-1074 <= Z.min g g')%Z -> (-1074 <= Z.max m m' < 1023)%Z ->
  appr (Z.min g g') (Z.max m m' + 1) (S (Nat.max k k')) (fsub x y) (X - Y) (fadd q p).
Proof.
  intros g m k x X p g' m' k' y Y q A1 A2 G T. assert (A := appr_sub2 _ _ _ _ _ _ _ _ _ _ _ _ A1 A2 G T).
  destruct A1 as (_ & Np & _). destruct A2 as (_ & Nq & _).
  destruct (num_fadd _ _ _ _ _ _ Np Nq G T) as (_ & V). destruct (num_fadd _ _ _ _ _ _ Nq Np) as (N' & V'); try lia.
  apply appr_p with (1 := A); [|apply N']. rewrite V, V'. f_equal. lra.
Qed.
Lemma appr_mulc : forall g m k x X p g' m' k' y Y q, appr g m k x X p -> appr g' m' k' y Y q ->
  (-1074 <= g + g')%Z -> (-1074 <= m + m' < 1024)%Z ->
  appr (g + g') (m + m') (S (k + k')) (fmul x y) (X * Y) (fmul q p).
Proof.
  intros g m k x X p g' m' k' y Y q A1 A2 G T. assert (A := appr_mul _ _ _ _ _ _ _ _ _ _ _ _ A1 A2 G T).
  destruct A1 as (_ & Np & _). destruct A2 as (_ & Nq & _).
  destruct (num_fmul _ _ _ _ _ _ Np Nq G T) as (_ & V). destruct (num_fmul _ _ _ _ _ _ Nq Np) as (N' & V'); try lia.
  apply appr_p with (1 := A); [|apply N']. rewrite V, V'. f_equal. lra.
Qed.
Lemma appr_prod : forall g m k x X g' m' k' y Y, appr g m k x X (fabs x) -> appr g' m' k' y Y (fabs y) ->
  (-1074 <= g + g')%Z -> (-1074 <= m + m' < 1024)%Z ->
  appr (g + g') (m + m') (S (k + k')) (fmul x y) (X * Y) (fabs (fmul x y)).
Proof.
  intros g m k x X g' m' k' y Y A1 A2 G T. assert (A := appr_mul _ _ _ _ _ _ _ _ _ _ _ _ A1 A2 G T).
  destruct A1 as (Nx & Np & _). destruct A2 as (Ny & Nq & _).
  destruct (num_fmul _ _ _ _ _ _ Np Nq G T) as (_ & V). destruct (num_fmul _ _ _ _ _ _ Nx Ny G T) as (N' & V').
  apply appr_p with (1 := A); [|rewrite fabs_fin; apply N']. rewrite V, !fabs_val, V', <- Rabs_mult. apply rn_abs.
Qed.
Lemma appr_sq : forall g m k x X, appr g m k x X (fabs x) -> (-1074 <= g + g)%Z -> (-1074 <= m + m < 1024)%Z ->
  appr (g + g) (m + m) (S (k + k)) (fmul x x) (X * X) (fmul x x).
Proof.
  intros g m k x X A G T. assert (A' := appr_prod _ _ _ _ _ _ _ _ _ _ A A G T).
  apply appr_p with (1 := A'); [|apply A']. destruct A as (N & _). destruct (num_fmul _ _ _ _ _ _ N N G T) as (_ & V).
  rewrite fabs_val, V. apply Rabs_pos_eq. rewrite <- rn_0. apply rn_le_mono. apply Rle_0_sqr.
Qed.
(** Walks down a program and its mass together. *)
Ltac do_appr :=
  lazymatch goal with
  | |- appr _ _ _ (fmul ?x ?x) _ (fmul ?x ?x) => eapply appr_sq; [do_appr|lia|lia]
  | |- appr _ _ _ (fmul _ _) _ (fabs (fmul _ _)) => eapply appr_prod; [do_appr|do_appr|lia|lia]
  | |- appr _ _ _ (fmul _ _) _ (fmul _ _) =>
      first [eapply appr_mulc; [do_appr|do_appr|lia|lia] | eapply appr_mul; [do_appr|do_appr|lia|lia]]
  | |- appr _ _ _ (fsub _ _) _ (fabs (fsub _ _)) => eapply appr_diff; [eassumption|eassumption|lia|lia]
  | |- appr _ _ _ (fadd _ _) _ (fadd _ _) =>
      first [eapply appr_add2; [do_appr|do_appr|lia|lia] | eapply appr_addc; [do_appr|do_appr|lia|lia]]
  | |- appr _ _ _ (fsub _ _) _ (fadd _ _) =>
      first [eapply appr_sub2; [do_appr|do_appr|lia|lia] | eapply appr_subc; [do_appr|do_appr|lia|lia]]
  end.
(** The final comparison against any float [e] that is large enough. *)
Lemma filter_gen : forall g m k x X p g' m' k' y Y q e, appr g m k x X p -> appr g' m' k' y Y q ->
  (-1074 <= Z.min g g')%Z -> (-1074 <= Z.max m m' < 1023)%Z ->
  fin e = true -> (tt ^ Nat.max k k' - 1) * (val p + val q) <= val e ->
  beyond_strict (fadd x y) e = true -> same_sign (fadd x y) (X + Y).
Proof.
  intros g m k x X p g' m' k' y Y q e A1 A2 G T Fe E5 H.
  apply (appr_weak _ _ _ _ _ _ (Nat.max k k')) in A1; [|lia]. apply (appr_weak _ _ _ _ _ _ (Nat.max k k')) in A2; [|lia].
  revert A1 A2 E5. generalize (Nat.max k k'). clear k k'. intros k A1 A2 E5.
  assert (A := appr_add _ _ _ _ _ _ _ _ _ _ _ A1 A2 G T). destruct A as (N & NP & HP & _).
  destruct A1 as (Nx & Np & H1 & H2). destruct A2 as (Ny & Nq & H3 & H4).
  destruct (num_fadd _ _ _ _ _ _ Nx Ny G T) as (_ & V).
  pose proof (ttk_ge k) as Tk.
  assert (HX : Rabs (val x + val y - (X + Y)) <= (tt ^ k - 1) * (val p + val q)).
  { replace (val x + val y - (X + Y)) with ((val x - X) + (val y - Y)) by ring. apply Rle_trans with (1 := Rabs_triang _ _). lra. }
  assert (e0 : 0 <= val e). { apply Rle_trans with (2 := E5). apply Rle_trans with (2 := HX). apply Rabs_pos. }
  split; [apply N|].
  unfold beyond_strict in H. apply orb_true_iff in H. destruct H as [H|H]; apply flt_val in H; auto; try apply N; try (rewrite fneg_fin; apply N).
  - rewrite V in *. assert (0 < X + Y) by (apply (strict_pos _ _ _ _ (val e) HX); auto; apply val_fmt). split; split; lra.
  - rewrite fneg_val in H. rewrite V in *. rewrite <- rn_opp in H.
    assert (0 < - (X + Y)).
    { apply (strict_pos (- (val x + val y)) (- (X + Y)) (tt ^ k - 1) (val p + val q) (val e)); auto; [|apply val_fmt].
      replace (- (val x + val y) - - (X + Y)) with (- (val x + val y - (X + Y))) by ring. rewrite Rabs_Ropp. auto. }
    rewrite rn_opp in H. split; split; lra.
Qed.
(** Sums and products of masses. *)
Lemma mass_add : forall g m p g' m' q, num g m p -> num g' m' q -> 0 <= val p -> 0 <= val q ->
  (-1074 <= Z.min g g')%Z -> (-1074 <= Z.max m m' < 1023)%Z ->
  0 <= val (fadd p q) /\ val p + val q <= tt * val (fadd p q) /\ val (fadd p q) <= tt * (val p + val q) /\
  num (Z.min g g') (Z.max m m' + 1) (fadd p q).
Proof.
  intros g m p g' m' q Np Nq P0 Q0 G T. destruct (num_fadd _ _ _ _ _ _ Np Nq G T) as (N & V).
  assert (Mp : mult (-1074) (val p + val q)).
  { apply mult_add; [apply mult_le with g; [lia|apply Np]|apply mult_le with g'; [lia|apply Nq]]. }
  assert (R0 : 0 <= val (fadd p q)). { rewrite V, <- rn_0. apply rn_le_mono. lra. }
  pose proof (rn_rel2 _ Mp) as E1. rewrite <- V in E1. rewrite (Rabs_pos_eq (val (fadd p q))) in E1 by auto.
  pose proof (rn_rel _ Mp) as E2. rewrite <- V in E2. rewrite (Rabs_pos_eq (val p + val q)) in E2 by lra. fold uu in E2.
  pose proof (Rle_abs (val p + val q - val (fadd p q))). pose proof (Rle_abs (- (val p + val q - val (fadd p q)))) as H1. rewrite Rabs_Ropp in H1.
  unfold tt. split; auto. split; [lra|]. split; [lra|]. auto.
Qed.
Lemma mass_mul : forall g m p g' m' q, num g m p -> num g' m' q -> 0 <= val p -> 0 <= val q ->
  (-1074 <= g + g')%Z -> (-1074 <= m + m' < 1024)%Z ->
  0 <= val (fmul p q) /\ val p * val q <= tt * val (fmul p q) /\ num (g + g') (m + m') (fmul p q).
Proof.
  intros g m p g' m' q Np Nq P0 Q0 G T. destruct (num_fmul _ _ _ _ _ _ Np Nq G T) as (N & V).
  assert (Mp : mult (-1074) (val p * val q)).
  { apply mult_le with (g + g')%Z; auto. apply mult_mul; [apply Np|apply Nq]. }
  assert (PQ : 0 <= val p * val q) by (apply Rmult_le_pos; auto).
  assert (R0 : 0 <= val (fmul p q)). { rewrite V, <- rn_0. apply rn_le_mono. lra. }
  pose proof (rn_rel2 _ Mp) as E1. rewrite <- V in E1. rewrite (Rabs_pos_eq (val (fmul p q))) in E1 by auto.
  pose proof (Rle_abs (val p * val q - val (fmul p q))).
  unfold tt. split; auto. split; [lra|]. auto.
Qed.
Lemma same_sign_eq : forall x v w, same_sign x v -> v = w -> same_sign x w.
Proof. intros; subst; auto. Qed.
(** The constants. *)
Lemma feq_val : forall a b, fin a = true -> fin b = true -> feq a b = true -> val a = val b.
Proof. intros a b Fa Fb H. unfold feq in H. rewrite Beqb_correct in H; auto. revert H. case Req_bool_spec; auto. discriminate. Qed.
Lemma fl_val : forall z e, (Z.abs z <= 2 ^ 53)%Z -> (-1074 <= e <= 900)%Z -> fin (fl z e) = true /\ val (fl z e) = IZR z * B e.
Proof.
  intros z e Hz He. pose proof (binary_normalize_correct prec emax eq_refl eq_refl mode_NE z e false) as C. cbv zeta in C.
  change (binary_normalize prec emax eq_refl eq_refl mode_NE z e false) with (fl z e) in C.
  assert (Fm : fmt (IZR z * B e)).
  { apply fmt_mult with e; [exists z; reflexivity|lia|]. rewrite Rabs_mult, (Rabs_pos_eq (B e)) by (left; apply B_pos).
    replace (e + 53)%Z with (53 + e)%Z by lia. rewrite (B_plus 53). apply Rmult_le_compat_r; [left; apply B_pos|].
    rewrite <- abs_IZR. change (B 53) with (IZR (2 ^ 53)). apply IZR_le. auto. }
  change (F2R {| Fnum := z; Fexp := e |}) with (IZR z * B e) in C.
  rewrite round_generic in C; [|apply valid_rnd_N|exact Fm].
  rewrite Rlt_bool_true in C.
  - destruct C as (V & F & _). split; auto.
  - rewrite Rabs_mult, (Rabs_pos_eq (B e)) by (left; apply B_pos). rewrite <- abs_IZR.
    apply Rle_lt_trans with (B 53 * B e).
    + apply Rmult_le_compat_r; [left; apply B_pos|]. change (B 53) with (IZR (2 ^ 53)). apply IZR_le. auto.
    + rewrite <- B_plus. apply bpow_lt. unfold emax. lia.
Qed.
Lemma const_val : forall c z e, feq c (fl z e) && fin c = true -> (Z.abs z <= 2 ^ 53)%Z -> (-1074 <= e <= 900)%Z ->
  fin c = true /\ val c = IZR z * B e /\ num e (e + 53) c.
Proof.
  intros c z e H Hz He. apply andb_true_iff in H. destruct H as [H F]. destruct (fl_val z e Hz He) as (F' & V').
  apply feq_val in H; auto. rewrite V' in H. split; auto. split; auto. split; auto. rewrite H. split; [exists z; auto|].
  rewrite Rabs_mult, (Rabs_pos_eq (B e)) by (left; apply B_pos). rewrite <- abs_IZR.
  replace (e + 53)%Z with (53 + e)%Z by lia. rewrite (B_plus 53). apply Rmult_le_compat_r; [left; apply B_pos|].
  change (B 53) with (IZR (2 ^ 53)). apply IZR_le. auto.
Qed.
Lemma bound1_ok : forall c a b z j, feq c (fl z (j - 106)) && fin c = true -> (Z.abs z <= 2 ^ 53)%Z -> (0 <= j <= 50)%Z ->
  (z * 2 ^ j = a * 2 ^ 53 + b)%Z -> num (-106) (-3) c /\ val c = (IZR a + IZR b * uu) * uu.
Proof.
  intros c a b z j H Hz J E. destruct (const_val c z (j - 106) H Hz ltac:(lia)) as (F & V & N).
  split; [apply num_weak with (1 := N); lia|].
  rewrite V. unfold Zminus. rewrite B_plus, <- Rmult_assoc. change (B j) with (bpow radix2 j). rewrite <- (IZR_Zpower radix2) by lia. rewrite <- mult_IZR.
  change (radix_val radix2) with 2%Z. rewrite E, plus_IZR, mult_IZR. change (IZR (2 ^ 53)) with 9007199254740992.
  change (B (- (106))) with (/ IZR (2 ^ 106)). unfold uu. change (IZR (2 ^ 106)) with 81129638414606681695789005144064. field.
Qed.
Lemma o3d_bounda : num (-106) (-3) o3d_err_bounda /\ val o3d_err_bounda = (7 + 56 * uu) * uu.
Proof. exact (bound1_ok o3d_err_bounda 7 56 (7 * 2 ^ 50 + 7) 3 ltac:(vm_compute; reflexivity) ltac:(lia) ltac:(lia) eq_refl). Qed.
Lemma icc_bounda : num (-106) (-3) icc_err_bounda /\ val icc_err_bounda = (10 + 96 * uu) * uu.
Proof. exact (bound1_ok icc_err_bounda 10 96 (10 * 2 ^ 48 + 3) 5 ltac:(vm_compute; reflexivity) ltac:(lia) ltac:(lia) eq_refl). Qed.
Lemma isp_bounda : num (-106) (-3) isp_err_bounda /\ val isp_err_bounda = (16 + 224 * uu) * uu.
Proof. exact (bound1_ok isp_err_bounda 16 224 (16 * 2 ^ 48 + 7) 5 ltac:(vm_compute; reflexivity) ltac:(lia) ltac:(lia) eq_refl). Qed.
Lemma ccw_bounda : num (-106) (-3) ccw_err_bounda /\ val ccw_err_bounda = (3 + 16 * uu) * uu.
Proof. exact (bound1_ok ccw_err_bounda 3 16 (3 * 2 ^ 50 + 2) 3 ltac:(vm_compute; reflexivity) ltac:(lia) ltac:(lia) eq_refl). Qed.
Lemma ccw_boundb : num (-106) (-3) ccw_err_boundb /\ val ccw_err_boundb = (2 + 12 * uu) * uu.
Proof. exact (bound1_ok ccw_err_boundb 2 12 (2 * 2 ^ 51 + 3) 2 ltac:(vm_compute; reflexivity) ltac:(lia) ltac:(lia) eq_refl). Qed.
Lemma result_bound : num (-106) (-3) result_err_bound /\ val result_err_bound = (3 + 8 * uu) * uu.
Proof. exact (bound1_ok result_err_bound 3 8 (3 * 2 ^ 50 + 1) 3 ltac:(vm_compute; reflexivity) ltac:(lia) ltac:(lia) eq_refl). Qed.
Lemma ccw_boundc : num (-159) (-3) ccw_err_boundc /\ val ccw_err_boundc = (9 + 64 * uu) * uu * uu.
Proof.
  destruct (const_val ccw_err_boundc (9 * 2 ^ 47 + 1) (6 - 159) ltac:(vm_compute; reflexivity) ltac:(lia) ltac:(lia)) as (F & V & N).
  split; [apply num_weak with (1 := N); lia|]. rewrite V. change (B (6 - 159)) with (/ IZR (2 ^ 153)). unfold uu.
  change (IZR (2 ^ 153)) with 11417981541647679048466287755595961091061972992. change (IZR (9 * 2 ^ 47 + 1)) with 1266637395197953. field.
Qed.
