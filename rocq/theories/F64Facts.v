(** Facts about the f64 operations of F64.v, from Flocq. *)
From Coq Require Import ZArith Reals List Bool Lia Lra Psatz.
From Flocq Require Import Core BinarySingleNaN.
From Verif Require Import F64 Interval IntervalSpec.
Local Open Scope R_scope.

Notation "'val' a" := (B2R (prec:=prec) (emax:=emax) a) (at level 9, a at next level).

Lemma below_fin : forall x a, is_finite a = true -> below x a <-> x <= B2R a.
Proof. intros x [s|s| |s m e h]; simpl; try discriminate; intros; tauto. Qed.

Global Instance fexp_valid : Valid_exp b64exp.
Proof. exact (fexp_correct prec emax _). Qed.

Lemma B2SF_inf : forall (a : f64) s, B2SF a = SpecFloat.S754_infinity s -> a = B754_infinity s.
Proof. intros [s|s| |s m e h] s0; simpl; intros E; try discriminate; inversion E; reflexivity. Qed.

Lemma overflow_NE : forall s, binary_overflow prec emax mode_NE s = SpecFloat.S754_infinity s.
Proof. intros []; reflexivity. Qed.

Lemma val_le_max : forall a : f64, Rabs (B2R a) <= bpow radix2 emax - bpow radix2 (emax - prec).
Proof. intros a. apply (abs_B2R_le_emax_minus_prec prec emax _ a). Qed.

(** next_up of -inf is the most negative finite value. *)
Lemma next_up_minf : is_finite (next_up (B754_infinity true)) = true /\
  val (next_up (B754_infinity true)) = - (bpow radix2 emax - bpow radix2 (emax - prec)).
Proof.
  split; [reflexivity|].
  change (val (next_up (B754_infinity true))) with (F2R (Float radix2 (-9007199254740991) 971)).
  unfold F2R. simpl Fnum. simpl Fexp. change (emax - prec)%Z with 971%Z.
  replace (bpow radix2 emax) with (bpow radix2 53 * bpow radix2 971) by (rewrite <- bpow_plus; reflexivity).
  change (bpow radix2 53) with 9007199254740992.
  lra.
Qed.

Lemma max_format : generic_format radix2 b64exp (bpow radix2 emax - bpow radix2 (emax - prec)).
Proof.
  destruct next_up_minf as [_ H].
  replace (bpow radix2 emax - bpow radix2 (emax - prec))
    with (- (val (next_up (B754_infinity true)))) by (rewrite H; lra).
  apply generic_format_opp. apply generic_format_B2R.
Qed.

Lemma max_lt_emax : bpow radix2 emax - bpow radix2 (emax - prec) < bpow radix2 emax.
Proof. pose proof (bpow_gt_0 radix2 (emax - prec)). lra. Qed.

(** A real that rounds past the largest finite value is past it. *)
Lemma round_overflow_neg : forall S, bpow radix2 emax <= Rabs (rnd64 S) -> S <= 0 ->
  S <= - (bpow radix2 emax - bpow radix2 (emax - prec)).
Proof.
  intros S H HS.
  destruct (Rle_lt_dec S (- (bpow radix2 emax - bpow radix2 (emax - prec)))) as [L|L]; auto.
  exfalso.
  assert (A : - (bpow radix2 emax - bpow radix2 (emax - prec)) <= rnd64 S).
  { apply round_ge_generic; try typeclasses eauto.
    - apply generic_format_opp, max_format.
    - lra. }
  assert (B : rnd64 S <= 0).
  { apply round_le_generic; try typeclasses eauto.
    - apply generic_format_0.
    - lra. }
  rewrite Rabs_left1 in H by auto.
  pose proof max_lt_emax. lra.
Qed.

Definition good (z : R) (r : f64) : Prop := below z r /\ (0 <= z -> sign_neg r = false).

(** next_up of a rounded exact value bounds the exact value. *)
Lemma good_next_up : forall z P (r : f64),
  z <= P -> is_finite r = true -> val r = rnd64 P -> good z (next_up r).
Proof.
  intros z P r L F E.
  pose proof (Bsucc_correct prec emax _ _ r F) as H.
  unfold next_up. revert H.
  case Rlt_bool_spec; intros C.
  - intros (V & F1 & Sg). split.
    + apply below_fin; auto. rewrite V, E.
      apply Rle_trans with P; auto.
      apply succ_round_ge_id; try typeclasses eauto.
    + intros Z. unfold sign_neg. rewrite Sg.
      destruct r as [s|s| |s m e h]; simpl in *; try discriminate; try apply andb_false_r.
      destruct s; auto. exfalso.
      assert (0 <= rnd64 P).
      { apply round_ge_generic; try typeclasses eauto.
        - apply generic_format_0. - lra. }
      assert (F2R (Float radix2 (Zneg m) e) < 0) by (apply F2R_lt_0; simpl; lia).
      simpl in E. lra.
  - intros I. apply B2SF_inf in I. rewrite I. split; simpl; auto.
Qed.

Lemma good_minf : forall z P, z <= P -> P <= 0 -> bpow radix2 emax <= Rabs (rnd64 P) ->
  good z (next_up (B754_infinity true)).
Proof.
  intros z P L N O. apply round_overflow_neg in O; auto.
  destruct next_up_minf as [F V]. split.
  - apply below_fin; auto. rewrite V. lra.
  - intros Z. pose proof max_lt_emax.
    assert (0 < bpow radix2 emax - bpow radix2 (emax - prec)).
    { assert (bpow radix2 (emax - prec) < bpow radix2 emax) by (apply bpow_lt; reflexivity). lra. }
    lra.
Qed.

Lemma good_inf : forall z, good z (next_up (B754_infinity false)).
Proof. intros z. split; reflexivity. Qed.

Lemma good_nan : forall z, good z (next_up B754_nan).
Proof. intros z. split; simpl; auto. Qed.

Lemma sign_val : forall a : f64, is_finite a = true ->
  if sign_neg a then val a <= 0 else 0 <= val a.
Proof.
  intros [s|s| |s m e h]; simpl; try discriminate; intros _.
  - destruct s; lra.
  - destruct s; simpl.
    + apply F2R_le_0; simpl; lia.
    + apply F2R_ge_0; simpl; lia.
Qed.

Lemma good_add : forall x y (a b : f64), below x a -> below y b ->
  good (x + y) (next_up (fadd a b)).
Proof.
  intros x y a b Ha Hb.
  destruct (is_finite a) eqn:Fa; [destruct (is_finite b) eqn:Fb|].
  - apply below_fin in Ha; auto. apply below_fin in Hb; auto.
    pose proof (Bplus_correct prec emax _ _ mode_NE a b Fa Fb) as H. simpl round_mode in H.
    unfold fadd. revert H. case Rlt_bool_spec; intros C.
    + intros (V & F & _). apply good_next_up with (P := val a + val b); auto. lra.
    + intros (O & Sg). rewrite overflow_NE in O. apply B2SF_inf in O. rewrite O.
      pose proof (sign_val a Fa) as SA. pose proof (sign_val b Fb) as SB.
      unfold sign_neg in *. rewrite <- Sg in SB.
      destruct (Bsign a).
      * apply good_minf with (P := val a + val b); auto; lra.
      * apply good_inf.
  - destruct a as [s|s| |s m e h], b as [t|t| |t m' e' h']; simpl in *; try discriminate;
      subst; try apply good_inf; try apply good_nan.
  - destruct a as [s|s| |s m e h], b as [t|t| |t m' e' h']; simpl in *; try discriminate;
      subst; try apply good_inf; try apply good_nan.
Qed.

Lemma good_mul : forall z (a b : f64),
  is_nan a = false -> is_nan b = false ->
  (is_finite a = true -> is_finite b = true -> z <= val a * val b) ->
  (is_finite a && is_finite b = false -> sign_neg a = sign_neg b \/ val a = 0 /\ is_finite a = true \/ val b = 0 /\ is_finite b = true) ->
  good z (next_up (fmul a b)).
Proof.
  intros z a b Na Nb Hf Hi.
  destruct (is_finite a && is_finite b) eqn:F.
  - apply andb_prop in F. destruct F as [Fa Fb].
    pose proof (Bmult_correct prec emax _ _ mode_NE a b) as H. simpl round_mode in H.
    unfold fmul. revert H. case Rlt_bool_spec; intros C.
    + intros (V & F & _). rewrite Fa, Fb in F. apply good_next_up with (P := val a * val b); auto.
    + intros O. rewrite overflow_NE in O. apply B2SF_inf in O. rewrite O.
      pose proof (sign_val a Fa) as SA. pose proof (sign_val b Fb) as SB.
      unfold sign_neg in *.
      destruct (Bsign a), (Bsign b); simpl; try apply good_inf.
      * apply good_minf with (P := val a * val b); auto. nra.
      * apply good_minf with (P := val a * val b); auto. nra.
  - specialize (Hi eq_refl).
    assert (Hz : forall s m e (h : SpecFloat.bounded prec emax m e = true), val (B754_finite s m e h) = 0 -> False).
    { intros s m e h E. simpl in E. apply eq_0_F2R in E. destruct s; discriminate. }
    destruct a as [s|s| |s m e h], b as [t|t| |t m' e' h']; simpl in F, Na, Nb; try discriminate;
      simpl fmul; try apply good_nan;
      (destruct Hi as [Hi|[[Hi Hi2]|[Hi Hi2]]];
       [ simpl in Hi; subst; unfold fmul; simpl; rewrite xorb_nilpotent; apply good_inf
       | simpl in Hi2; try discriminate; exfalso; eapply Hz; exact Hi
       | simpl in Hi2; try discriminate; exfalso; eapply Hz; exact Hi ]).
Qed.
