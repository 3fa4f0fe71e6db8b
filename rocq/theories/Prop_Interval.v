(** C25-C28: interval arithmetic encloses, except where it does not. *)
From Coq Require Import ZArith Reals List Bool Lia Lra Psatz.
From Flocq Require Import Core BinarySingleNaN.
From Verif Require Import F64 Interval IntervalSpec F64Facts.
Import ListNotations.
Local Open Scope R_scope.

(** * C25: from, +, -, negation *)

Lemma below_neg : forall (v : f64), is_finite v = true -> below (- val v) (fneg v).
Proof.
  intros v F. apply below_fin.
  - unfold fneg. rewrite is_finite_Bopp; auto.
  - unfold fneg. rewrite B2R_Bopp. lra.
Qed.

Theorem iv_of_contains : forall v : f64, is_finite v = true -> contains (val v) (iv_of v).
Proof. intros v F. split; simpl; [apply below_fin; auto; lra | apply below_neg; auto]. Qed.

(** The interval built from a finite float has no other member. *)
Theorem iv_of_exact : forall (v : f64) x, is_finite v = true -> contains x (iv_of v) -> x = val v.
Proof.
  intros v x F [A B]. simpl in *. apply below_fin in A; auto.
  apply below_fin in B; [|unfold fneg; rewrite is_finite_Bopp; auto].
  unfold fneg in B. rewrite B2R_Bopp in B. lra.
Qed.

Theorem iv_add_contains : forall x y a b, contains x a -> contains y b -> contains (x + y) (iv_add a b).
Proof.
  intros x y a b [A1 A2] [B1 B2]. split; simpl.
  - apply (good_add x y); auto.
  - replace (- (x + y)) with (- x + - y) by lra. apply (good_add (-x) (-y)); auto.
Qed.

Theorem iv_sub_contains : forall x y a b, contains x a -> contains y b -> contains (x - y) (iv_sub a b).
Proof.
  intros x y a b [A1 A2] [B1 B2]. split; simpl.
  - replace (x - y) with (- y + x) by lra. apply (good_add (-y) x); auto.
  - replace (- (x - y)) with (y + - x) by lra. apply (good_add y (-x)); auto.
Qed.

Theorem iv_neg_contains : forall x a, contains x a <-> contains (- x) (iv_neg a).
Proof.
  intros x a. unfold contains, iv_neg, rev2; simpl. rewrite Ropp_involutive. tauto.
Qed.

(** * C26: multiplication *)

Definition mask (a b : ival) : nat := 4 * bitmask a + bitmask b.

(** The nine masks that do not panic. *)
Lemma signs_ok_bitmask : forall a, signs_ok a -> bitmask a = 0%nat \/ bitmask a = 1%nat \/ bitmask a = 2%nat.
Proof. intros a. unfold signs_ok, bitmask. destruct (sign_neg (hi a)), (sign_neg (nlo a)); simpl; auto; discriminate. Qed.

Theorem iv_mul_total : forall a b, signs_ok a -> signs_ok b -> exists c, iv_mul a b = Some c.
Proof.
  intros a b A B. apply signs_ok_bitmask in A. apply signs_ok_bitmask in B.
  unfold iv_mul. destruct A as [A|[A|A]], B as [B|[B|B]]; rewrite A, B; simpl; eauto.
Qed.

Lemma Rmul_le1 : forall u A v B, u <= A -> 0 <= A -> 0 <= v -> v <= B -> u * v <= A * B.
Proof.
  intros. apply Rle_trans with (A * v).
  - apply Rmult_le_compat_r; auto.
  - apply Rmult_le_compat_l; auto.
Qed.
Lemma Rmul_le2 : forall u A v B, u <= A -> A <= 0 -> 0 <= B -> B <= v -> u * v <= A * B.
Proof.
  intros. apply Rle_trans with (A * v).
  - apply Rmult_le_compat_r; lra.
  - apply Rmult_le_compat_neg_l; auto.
Qed.

Lemma below_pos_sign : forall v (B : f64), is_nan B = false -> 0 <= v -> below v B ->
  sign_neg B = true -> is_finite B = true /\ val B = 0.
Proof.
  intros v [s|s| |s m e h] N V H S; simpl in *; try discriminate; subst; try discriminate; simpl in *; auto.
  exfalso. assert (F2R (Float radix2 (Zneg m) e) < 0) by (apply F2R_lt_0; simpl; lia). lra.
Qed.

(** lane bounds whose product is used as it is *)
Lemma lane1 : forall u v (A B : f64),
  is_nan A = false -> is_nan B = false ->
  below u A -> sign_neg A = false -> 0 <= v -> below v B ->
  good (u * v) (next_up (fmul A B)) /\ good (u * v) (next_up (fmul B A)).
Proof.
  intros u v A B NA NB HA SA V HB.
  assert (G : is_finite A = true -> is_finite B = true -> u * v <= val A * val B).
  { intros FA FB. apply below_fin in HA; auto. apply below_fin in HB; auto.
    pose proof (sign_val A FA) as P. rewrite SA in P. apply Rmul_le1; auto. }
  assert (I : sign_neg A = sign_neg B \/ val B = 0 /\ is_finite B = true).
  { destruct (sign_neg B) eqn:SB; [|left; congruence].
    destruct (below_pos_sign v B NB V HB SB); auto. }
  split; apply good_mul; auto.
  - intros _. destruct I as [I|I]; [left; congruence|tauto].
  - intros F1 F2. rewrite (Rmult_comm (val B)).  auto.
  - intros _. destruct I as [I|I]; [left; congruence|tauto].
Qed.

(** a non-positive upper bound times a non-negative lower bound *)
Lemma lane2 : forall u v (A B : f64),
  below u A -> sign_neg A = true -> is_nan A = false -> is_nan B = false -> 
  below (- v) B -> sign_neg B = true ->
  good (u * v) (next_up (fmul A (fneg B))) /\ good (u * v) (next_up (fmul (fneg B) A)).
Proof.
  intros u v A B HA SA NA NB HB SB.
  assert (FA : is_finite A = true).
  { destruct A as [s|s| |s m e h]; simpl in *; subst; auto; discriminate. }
  assert (FB : is_finite B = true).
  { destruct B as [s|s| |s m e h]; simpl in *; subst; auto; discriminate. }
  assert (FB' : is_finite (fneg B) = true) by (unfold fneg; rewrite is_finite_Bopp; auto).
  assert (NB' : is_nan (fneg B) = false) by (destruct B; auto; discriminate).
  assert (G : u * v <= val A * val (fneg B)).
  { apply below_fin in HA; auto. apply below_fin in HB; auto.
    pose proof (sign_val A FA) as P. rewrite SA in P.
    pose proof (sign_val B FB) as Q. rewrite SB in Q.
    unfold fneg. rewrite B2R_Bopp. apply Rmul_le2; lra. }
  split; apply good_mul; auto.
  - rewrite FA, FB'. discriminate.
  - intros _ _. rewrite (Rmult_comm (val (fneg B))). auto.
  - rewrite FA, FB'. discriminate.
Qed.

(** In seven of the nine cases the product interval holds every product. *)
Lemma sign_neg_le : forall x (A : f64), is_nan A = false -> below x A -> sign_neg A = true -> x <= 0.
Proof.
  intros x [s|s| |s m e h] N H S; simpl in *; try discriminate; subst; try discriminate; simpl in *; auto.
  assert (F2R (Float radix2 (Zneg m) e) < 0) by (apply F2R_lt_0; simpl; lia). lra.
Qed.

Definition flipped (a b : ival) : bool := Nat.eqb (mask a b) 0 || Nat.eqb (mask a b) 8.

Definition goodi (z : R) (c : ival) : Prop := good z (hi c) /\ good (- z) (nlo c).

Lemma goodi_contains : forall z c, goodi z c -> contains z c /\ signs_ok c.
Proof.
  intros z c [[A1 A2] [B1 B2]]. split; [split; auto|].
  unfold signs_ok. destruct (Rle_or_lt 0 z).
  - rewrite A2; auto.
  - rewrite (B2 ltac:(lra)). apply andb_false_r.
Qed.

Lemma next_up_le : forall z (p r : f64), is_finite p = true -> is_finite r = true ->
  val p <= val r -> sign_neg r = false -> good z (next_up p) -> good z (next_up r).
Proof.
  intros z p r Fp Fr L S [G1 G2].
  pose proof (Bsucc_correct prec emax _ _ p Fp) as Hp.
  pose proof (Bsucc_correct prec emax _ _ r Fr) as Hr.
  unfold next_up in *. revert Hr. case Rlt_bool_spec; intros C.
  - intros (V & F & Sg). split.
    + apply below_fin; auto. rewrite V.
      assert (M : succ radix2 b64exp (val p) <= succ radix2 b64exp (val r)).
      { apply succ_le; auto; try apply fexp_valid; apply generic_format_B2R. }
      rewrite Rlt_bool_true in Hp by lra. destruct Hp as (Vp & Fp' & _).
      apply below_fin in G1; auto. lra.
    + intros _. unfold sign_neg in *. rewrite Sg, S. reflexivity.
  - intros I. apply B2SF_inf in I. rewrite I. split; simpl; auto.
Qed.

Lemma fmul_sign_pos : forall A B : f64, is_finite A = true -> is_finite B = true ->
  sign_neg A = false -> sign_neg B = false ->
  is_nan (fmul A B) = false /\ sign_neg (fmul A B) = false.
Proof.
  intros A B FA FB SA SB.
  pose proof (Bmult_correct prec emax _ _ mode_NE A B) as H. unfold fmul. revert H.
  unfold sign_neg in *.
  case Rlt_bool_spec; intros _.
  - rewrite SA, SB, FA, FB. intros (_ & F & S).
    destruct (Bmult mode_NE A B); simpl in *; auto; discriminate.
  - intros O. rewrite overflow_NE in O. apply B2SF_inf in O. rewrite O, SA, SB. auto.
Qed.

Lemma good_max : forall z (p q : f64), is_nan p = false -> is_nan q = false ->
  sign_neg p = false -> sign_neg q = false ->
  good z (next_up p) \/ good z (next_up q) -> good z (next_up (fmax p q)).
Proof.
  intros z p q Np Nq Sp Sq G. unfold fmax. rewrite Np, Nq. unfold flt.
  destruct (is_finite p) eqn:Fp.
  - destruct (is_finite q) eqn:Fq.
    + rewrite Bltb_correct; auto. case Rlt_bool_spec; intros L.
      * destruct G as [G|G]; auto. apply next_up_le with p; auto; lra.
      * destruct G as [G|G]; auto. apply next_up_le with q; auto; lra.
    + destruct q as [t|t| |t m e h]; try discriminate. simpl in Sq. subst t.
      destruct p as [t|t| |[] m e h]; try discriminate; apply good_inf.
  - destruct p as [t|t| |t m e h]; try discriminate. simpl in Sp. subst t.
    destruct q as [t|t| |t m e h]; try discriminate; try (destruct t; try discriminate); apply good_inf.
Qed.

Ltac bits H := unfold bitmask in H;
  match type of H with context [sign_neg ?a] => destruct (sign_neg a) eqn:?S end;
  match type of H with context [sign_neg ?a] => destruct (sign_neg a) eqn:?S end;
  simpl in H; try discriminate H.

Ltac lane1 :=
  first [ solve [refine (proj1 (lane1 _ _ _ _ _ _ _ _ _ _)); auto; lra]
        | solve [refine (proj2 (lane1 _ _ _ _ _ _ _ _ _ _)); auto; lra] ].
Ltac lane2 :=
  first [ solve [refine (proj1 (lane2 _ _ _ _ _ _ _ _ _ _)); auto; rewrite Ropp_involutive; auto]
        | solve [refine (proj2 (lane2 _ _ _ _ _ _ _ _ _ _)); auto; rewrite Ropp_involutive; auto] ].

Lemma iv_mul_good : forall x y a b, no_nan a -> no_nan b -> contains x a -> contains y b ->
  signs_ok a -> signs_ok b ->
  exists c, iv_mul a b = Some c /\
    (flipped a b = false -> goodi (x * y) c) /\
    (mask a b = 8%nat -> goodi (- (x * y)) c).
Proof.
  intros x y a b [NA1 NA2] [NB1 NB2] [A1 A2] [B1 B2] OA OB.
  apply signs_ok_bitmask in OA. apply signs_ok_bitmask in OB.
  unfold flipped, mask, iv_mul.
  destruct OA as [A|[A|A]], OB as [B|[B|B]]; rewrite A, B; simpl; eexists;
    (split; [reflexivity|]); (split; [intros E; try discriminate E|intros E; try discriminate E]);
    bits A; bits B; unfold goodi; simpl.
  - (* 1 *)
    assert (y <= 0) by (apply sign_neg_le with (hi b); auto).
    split.
    + replace (x * y) with (- x * - y) by ring. lane1.
    + replace (- (x * y)) with (x * - y) by ring. lane1.
  - (* 2 *)
    assert (- y <= 0) by (apply sign_neg_le with (nlo b); auto).
    split.
    + lane1.
    + replace (- (x * y)) with (- x * y) by ring. lane1.
  - (* 4 *)
    assert (x <= 0) by (apply sign_neg_le with (hi a); auto).
    split.
    + replace (x * y) with (- y * - x) by ring. lane1.
    + replace (- (x * y)) with (y * - x) by ring. lane1.
  - (* 5 *)
    assert (x <= 0) by (apply sign_neg_le with (hi a); auto).
    assert (y <= 0) by (apply sign_neg_le with (hi b); auto).
    split.
    + replace (x * y) with (- x * - y) by ring. lane1.
    + replace (- (x * y)) with (y * - x) by ring. lane2.
  - (* 6 *)
    assert (x <= 0) by (apply sign_neg_le with (hi a); auto).
    assert (- y <= 0) by (apply sign_neg_le with (nlo b); auto).
    split.
    + lane2.
    + replace (- (x * y)) with (- x * y) by ring. lane1.
  - (* 8 *)
    assert (- x <= 0) by (apply sign_neg_le with (nlo a); auto).
    split.
    + replace (- (x * y)) with (- y * x) by ring. lane1.
    + replace (- - (x * y)) with (y * x) by ring. lane1.
  - (* 9 *)
    assert (- x <= 0) by (apply sign_neg_le with (nlo a); auto).
    assert (y <= 0) by (apply sign_neg_le with (hi b); auto).
    split.
    + replace (x * y) with (y * x) by ring. lane2.
    + replace (- (x * y)) with (- y * x) by ring. lane1.
  - (* 10 *)
    assert (- x <= 0) by (apply sign_neg_le with (nlo a); auto).
    assert (- y <= 0) by (apply sign_neg_le with (nlo b); auto).
    split.
    + lane1.
    + replace (- (x * y)) with (- x * y) by ring. lane2.
Qed.

Lemma good_nonpos : forall z (q : f64), z <= 0 -> sign_neg q = false -> good z (next_up q).
Proof.
  intros z q Z S. destruct (is_finite q) eqn:F.
  - apply good_next_up with (P := val q); auto.
    + pose proof (sign_val q F) as P. rewrite S in P. lra.
    + rewrite round_generic; auto; try typeclasses eauto. apply generic_format_B2R.
  - destruct q as [t|t| |t m e h]; try discriminate.
    + simpl in S. subst t. apply good_inf.
    + apply good_nan.
Qed.

Lemma fmul_sign_pos' : forall A B : f64, is_nan A = false -> is_nan B = false ->
  sign_neg A = false -> sign_neg B = false -> sign_neg (fmul A B) = false.
Proof.
  intros A B NA NB SA SB.
  destruct (is_finite A) eqn:FA; [destruct (is_finite B) eqn:FB|].
  - apply fmul_sign_pos; auto.
  - destruct A as [s|s| |s m e h], B as [t|t| |t m' e' h']; simpl in *; try discriminate; subst; reflexivity.
  - destruct A as [s|s| |s m e h], B as [t|t| |t m' e' h']; simpl in *; try discriminate; subst; reflexivity.
Qed.

Lemma nan_prod : forall u v (A B : f64), is_nan A = false -> is_nan B = false ->
  below u A -> sign_neg A = false -> 0 <= v -> below v B ->
  is_nan (fmul A B) = true -> u * v <= 0.
Proof.
  intros u v A B NA NB HA SA V HB N.
  destruct (is_finite A && is_finite B) eqn:F.
  - exfalso. apply andb_prop in F. destruct F as [FA FB].
    pose proof (Bmult_correct prec emax _ _ mode_NE A B) as H. revert H.
    unfold fmul in N. case Rlt_bool_spec; intros _.
    + rewrite FA, FB. intros (_ & F & _). destruct (Bmult mode_NE A B); discriminate.
    + intros O. rewrite overflow_NE in O. apply B2SF_inf in O. rewrite O in N. discriminate.
  - destruct A as [s|s| |s m e h], B as [t|t| |t m' e' h']; simpl in *; try discriminate.
    + nra.
    + assert (v = 0) by lra. subst. lra.
Qed.

Lemma max_nan : forall p q : f64, is_nan p = true -> fmax p q = q.
Proof. intros p q H. unfold fmax. rewrite H. reflexivity. Qed.
Lemma max_nan_r : forall p q : f64, is_nan p = false -> is_nan q = true -> fmax p q = p.
Proof. intros p q H K. unfold fmax. rewrite H, K. reflexivity. Qed.

Lemma lane_max : forall u v (A B C D : f64),
  is_nan A = false -> is_nan B = false -> is_nan C = false -> is_nan D = false ->
  sign_neg A = false -> sign_neg B = false -> sign_neg C = false -> sign_neg D = false ->
  (below u A /\ 0 <= v /\ below v B) ->
  good (u * v) (next_up (fmax (fmul A B) (fmul C D))) /\
  good (u * v) (next_up (fmax (fmul C D) (fmul A B))).
Proof.
  intros u v A B C D NA NB NC ND SA SB SC SD (HA & V & HB).
  pose proof (proj1 (lane1 u v A B NA NB HA SA V HB)) as G.
  pose proof (fmul_sign_pos' A B NA NB SA SB) as SP.
  pose proof (fmul_sign_pos' C D NC ND SC SD) as SQ.
  destruct (is_nan (fmul A B)) eqn:N1; destruct (is_nan (fmul C D)) eqn:N2.
  - rewrite !max_nan; auto. split; auto. apply good_nonpos; auto. apply nan_prod with A B; auto.
  - rewrite max_nan, max_nan_r; auto. split; apply good_nonpos; auto; apply nan_prod with A B; auto.
  - rewrite max_nan_r, max_nan; auto.
  - split; apply good_max; auto.
Qed.

Lemma iv_mul_good0 : forall x y a b, no_nan a -> no_nan b -> contains x a -> contains y b ->
  mask a b = 0%nat -> exists c, iv_mul a b = Some c /\ goodi (- (x * y)) c.
Proof.
  intros x y a b [NA1 NA2] [NB1 NB2] [A1 A2] [B1 B2] M.
  unfold mask in M. assert (A : bitmask a = 0%nat) by lia. assert (B : bitmask b = 0%nat) by lia.
  unfold iv_mul. rewrite A, B. simpl. eexists. split; [reflexivity|].
  bits A; bits B. unfold goodi, reduce_max; simpl.
  destruct (Rle_or_lt 0 y) as [Y|Y].
  - split.
    + replace (- (x * y)) with (- x * y) by ring. refine (proj2 (lane_max _ _ _ _ _ _ _ _ _ _ _ _ _ _ _)); auto.
    + replace (- - (x * y)) with (x * y) by ring. refine (proj1 (lane_max _ _ _ _ _ _ _ _ _ _ _ _ _ _ _)); auto.
  - split.
    + replace (- (x * y)) with (x * - y) by ring. refine (proj1 (lane_max _ _ _ _ _ _ _ _ _ _ _ _ _ _ _)); auto.
      repeat split; auto; lra.
    + replace (- - (x * y)) with (- x * - y) by ring. refine (proj2 (lane_max _ _ _ _ _ _ _ _ _ _ _ _ _ _ _)); auto.
      repeat split; auto; lra.
Qed.

(** The two sign patterns in which the code returns the mirror image of the
    product interval: both factors have both sign bits clear (both straddle
    zero), or the first is non-negative and the second straddles zero.
    Written out on the lanes, without the code's mask. *)
Definition straddles (a : ival) : Prop := sign_neg (hi a) = false /\ sign_neg (nlo a) = false.
Definition nonneg (a : ival) : Prop := sign_neg (hi a) = false /\ sign_neg (nlo a) = true.
Definition mirrored (a b : ival) : Prop := straddles b /\ (straddles a \/ nonneg a).

Lemma flipped_mirrored : forall a b, signs_ok a -> signs_ok b -> (flipped a b = true <-> mirrored a b).
Proof.
  intros a b A B. unfold flipped, mirrored, straddles, nonneg, mask, bitmask, signs_ok in *.
  destruct (sign_neg (hi a)), (sign_neg (nlo a)), (sign_neg (hi b)), (sign_neg (nlo b)); simpl in *;
    try discriminate; intuition congruence.
Qed.

(** C26, for all but the two sign patterns of [mirrored]. *)
Theorem iv_mul_contains_partial : forall x y a b c, no_nan a -> no_nan b ->
  signs_ok a -> signs_ok b -> ~ mirrored a b ->
  contains x a -> contains y b -> iv_mul a b = Some c -> contains (x * y) c.
Proof.
  intros x y a b c NA NB OA OB M A B E.
  destruct (iv_mul_good x y a b NA NB A B OA OB) as (c' & E' & G & _).
  rewrite E in E'. injection E' as <-.
  apply goodi_contains, G. destruct (flipped a b) eqn:F; auto.
  exfalso. apply M. apply flipped_mirrored; auto.
Qed.

(** In those two patterns the result holds the negated products. *)
Theorem iv_mul_mirrored : forall x y a b c, no_nan a -> no_nan b -> mirrored a b ->
  contains x a -> contains y b -> iv_mul a b = Some c -> contains (- (x * y)) c.
Proof.
  intros x y a b c NA NB M A B E.
  assert (OA : signs_ok a) by (destruct M as [_ [[M1 M2]|[M1 M2]]]; unfold signs_ok; rewrite M1; auto).
  assert (OB : signs_ok b) by (destruct M as [[M1 M2] _]; unfold signs_ok; rewrite M1; auto).
  destruct M as [[M3 M4] [[M1 M2]|[M1 M2]]].
  - destruct (iv_mul_good0 x y a b NA NB A B) as (c' & E' & G).
    { unfold mask, bitmask. rewrite M1, M2, M3, M4. reflexivity. }
    rewrite E in E'. injection E' as <-. apply goodi_contains; auto.
  - destruct (iv_mul_good x y a b NA NB A B OA OB) as (c' & E' & _ & G).
    rewrite E in E'. injection E' as <-. apply goodi_contains, G.
    unfold mask, bitmask. rewrite M1, M2, M3, M4. reflexivity.
Qed.

(** The invariant that keeps [panic!("never")] away is kept by every operation. *)
Theorem iv_of_signs : forall v, is_nan v = false -> signs_ok (iv_of v) /\ no_nan (iv_of v).
Proof.
  intros v N. unfold signs_ok, no_nan, iv_of; simpl.
  split; [|destruct v; auto; discriminate].
  unfold sign_neg, fneg. rewrite Bsign_Bopp by auto. apply andb_negb_r.
Qed.

Theorem iv_add_signs : forall x y a b, contains x a -> contains y b -> signs_ok (iv_add a b).
Proof.
  intros x y a b [A1 A2] [B1 B2]. apply (goodi_contains (x + y)). split; simpl.
  - apply good_add; auto.
  - replace (- (x + y)) with (- x + - y) by lra. apply good_add; auto.
Qed.

Theorem iv_sub_signs : forall x y a b, contains x a -> contains y b -> signs_ok (iv_sub a b).
Proof.
  intros x y a b [A1 A2] [B1 B2]. apply (goodi_contains (x - y)). split; simpl.
  - replace (x - y) with (- y + x) by lra. apply good_add; auto.
  - replace (- (x - y)) with (y + - x) by lra. apply good_add; auto.
Qed.

Theorem iv_mul_signs : forall x y a b c, no_nan a -> no_nan b -> signs_ok a -> signs_ok b ->
  contains x a -> contains y b -> iv_mul a b = Some c -> signs_ok c.
Proof.
  intros x y a b c NA NB OA OB A B E.
  destruct (iv_mul_good x y a b NA NB A B OA OB) as (c' & E' & G & G8).
  rewrite E in E'. injection E' as <-.
  destruct (flipped a b) eqn:F.
  - unfold flipped in F. apply orb_prop in F. destruct F as [F|F]; apply Nat.eqb_eq in F.
    + destruct (iv_mul_good0 x y a b NA NB A B F) as (c' & E' & G0).
      rewrite E in E'. injection E' as <-. eapply goodi_contains; eauto.
    + eapply goodi_contains; eauto.
  - eapply goodi_contains; eauto.
Qed.

(** C26 as stated is false.  The product of [2,2] and [-3,1] should hold -6;
    the code returns (outwards rounded) [-2,6]. *)
Definition two : ival := iv_of (fl 2 0).
Definition m31 : ival := IV (fl 1 0) (fl 3 0).

Lemma vals : val (fl 1 0) = 1 /\ val (fl 2 0) = 2 /\ val (fl 3 0) = 3.
Proof. repeat split; vm_compute; lra. Qed.

Lemma two_mem : contains 2 two.
Proof. destruct vals as (_ & V & _). rewrite <- V at 1. apply iv_of_contains. reflexivity. Qed.

Lemma m31_mem : contains (-3) m31.
Proof.
  destruct vals as (V1 & _ & V3). unfold m31. split.
  - apply below_fin; [reflexivity|]. cbn [hi]. lra.
  - apply below_fin; [reflexivity|]. cbn [nlo]. lra.
Qed.

Theorem iv_mul_contains_refuted : exists x y a b c, no_nan a /\ no_nan b /\ signs_ok a /\ signs_ok b /\
  contains x a /\ contains y b /\ iv_mul a b = Some c /\ ~ contains (x * y) c.
Proof.
  exists 2, (-3), two, m31.
  assert (T : match iv_mul two m31 with
    | Some c => flt (nlo c) (fl 3 0) && is_finite (nlo c) | None => false end = true)
    by (vm_compute; reflexivity).
  destruct (iv_mul_total two m31 eq_refl eq_refl) as (c & E). rewrite E in T.
  apply andb_prop in T. destruct T as [K F].
  exists c. split; [split; reflexivity|]. split; [split; reflexivity|].
  split; [reflexivity|]. split; [reflexivity|].
  split; [exact two_mem|]. split; [exact m31_mem|]. split; [exact E|].
  intros [_ H]. unfold flt in K. rewrite Bltb_correct in K; auto.
  apply below_fin in H; auto.
  destruct vals as (_ & _ & V3). revert K. case Rlt_bool_spec; intros; [|discriminate]. lra.
Qed.

(** A case that meets the hypotheses of [iv_mul_contains_partial]: 3 * [-3,1]
    with the factors the other way round (mask 2). *)
Example ex_mul : no_nan m31 /\ no_nan two /\ signs_ok m31 /\ signs_ok two /\ ~ mirrored m31 two /\
  contains (-3) m31 /\ contains 2 two /\ exists c, iv_mul m31 two = Some c.
Proof.
  split; [split; reflexivity|]. split; [split; reflexivity|]. split; [reflexivity|]. split; [reflexivity|].
  split. { intros [[_ H] _]. discriminate. }
  split; [exact m31_mem|]. split; [exact two_mem|]. apply iv_mul_total; reflexivity.
Qed.

(** * C27: sign queries *)

Lemma flt_zero : forall (a : f64) x, flt a fzero = true -> below x a -> x < 0.
Proof.
  intros a x L B. destruct (is_finite a) eqn:F.
  - apply below_fin in B; auto. unfold flt, fzero in L. rewrite Bltb_correct in L; auto.
    revert L. case Rlt_bool_spec; intros; [|discriminate]. simpl in *. lra.
  - destruct a as [s|s| |s m e h]; simpl in *; try discriminate. subst. discriminate.
Qed.

(** not_zero: the interval has no zero. *)
Theorem iv_not_zero_sound : forall a x, iv_not_zero a = true -> contains x a -> x <> 0.
Proof.
  intros a x H [A B]. unfold iv_not_zero in H. apply orb_prop in H. destruct H as [H|H].
  - pose proof (flt_zero _ _ H A). lra.
  - pose proof (flt_zero _ _ H B). lra.
Qed.

(** positive() and negative() have their meanings exchanged. *)
Theorem iv_positive_means_negative : forall a x, iv_positive a = true -> contains x a -> x < 0.
Proof. intros a x H [A B]. exact (flt_zero _ _ H A). Qed.

Theorem iv_negative_means_positive : forall a x, iv_negative a = true -> contains x a -> 0 < x.
Proof. intros a x H [A B]. pose proof (flt_zero _ _ H B). lra. Qed.

Theorem iv_sign_queries_refuted :
  (exists a x, contains x a /\ iv_positive a = true /\ x < 0) /\
  (exists a x, contains x a /\ iv_negative a = true /\ 0 < x).
Proof.
  split.
  - exists (iv_neg two), (-2). split; [|split; [reflexivity|lra]].
    exact (proj1 (iv_neg_contains 2 two) two_mem).
  - exists two, 2. split; [apply two_mem|]. split; [reflexivity|lra].
Qed.

(** Completeness on finite lanes: an interval that excludes zero is seen. *)
Theorem iv_not_zero_complete : forall a, is_finite (hi a) = true -> is_finite (nlo a) = true ->
  (forall x, contains x a -> x <> 0) -> iv_not_zero a = true.
Proof.
  intros a F1 F2 H. unfold iv_not_zero, flt, fzero. rewrite !Bltb_correct by auto.
  case Rlt_bool_spec; intros L1; auto. case Rlt_bool_spec; intros L2; auto.
  exfalso. apply (H 0); auto. simpl in *. split; apply below_fin; auto. lra.
Qed.

(** * C28: IntervalNumber::new *)

(** new(low, high) denotes [-low, high], not [low, high]. *)
Theorem iv_new_denotes : forall (low high : f64) x, is_finite low = true -> is_finite high = true ->
  (contains x (iv_new low high) <-> - val low <= x <= val high).
Proof.
  intros low high x F1 F2. unfold contains, iv_new; simpl.
  rewrite !below_fin by auto. split; intros [? ?]; split; lra.
Qed.

Theorem iv_new_refuted : exists low high : f64, is_finite low = true /\ is_finite high = true /\
  val low <= val high /\
  ~ (forall x, contains x (iv_new low high) <-> val low <= x <= val high).
Proof.
  exists (fl 1 0), (fl 2 0). destruct vals as (V1 & V2 & _).
  split; [reflexivity|]. split; [reflexivity|]. split; [lra|].
  intros H. pose proof (proj1 (iv_new_denotes (fl 1 0) (fl 2 0) (-1) eq_refl eq_refl)) as K.
  specialize (H (-1)). rewrite iv_new_denotes in H by reflexivity. rewrite V1, V2 in H. lra.
Qed.

Print Assumptions iv_mul_contains_partial.
Print Assumptions iv_mul_contains_refuted.
