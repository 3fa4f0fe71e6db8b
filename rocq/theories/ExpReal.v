(** Expansions over the reals: grids (multiples of a power of two), least
    significant bits, rounding to nearest even on a grid, and the invariant
    kept by the zero-eliminating expansion sums and products.  No code here:
    these are the facts behind Prop_Expansion.v. *)
From Coq Require Import ZArith Reals List Bool Lia Lra Psatz.
From Flocq Require Import Core Plus_error.
Import ListNotations.
Local Open Scope R_scope.

Notation B := (bpow radix2).
Notation fexp64 := (FLT_exp (-1074) 53).
Notation fmt := (generic_format radix2 fexp64).
Notation rn := (round radix2 fexp64 ZnearestE).

Global Instance prec53 : Prec_gt_0 53 := eq_refl.

(** [x] is a multiple of 2^k *)
Definition mult (k : Z) (x : R) : Prop := exists n : Z, x = IZR n * B k.
(** 2^k is the least significant bit of [x] *)
Definition lsb (k : Z) (x : R) : Prop := exists n : Z, Z.odd n = true /\ x = IZR n * B k.

(** ** Powers of two *)
Lemma B_pos : forall k, 0 < B k.
Proof. intros. apply bpow_gt_0. Qed.
Lemma B_succ : forall k, B (k + 1) = 2 * B k.
Proof. intros. rewrite bpow_plus. change (B 1) with 2. lra. Qed.
Lemma B_plus2 : forall k, B (k + 2) = 4 * B k.
Proof. intros. rewrite bpow_plus. change (B 2) with 4. lra. Qed.
Lemma B_pred : forall k, B (k - 1) = / 2 * B k.
Proof. intros. replace k with ((k - 1) + 1)%Z at 2 by lia. rewrite B_succ. lra. Qed.
Lemma B_le : forall j k, (j <= k)%Z -> B j <= B k.
Proof. intros. apply bpow_le; auto. Qed.
Lemma B_le1 : forall j k, (j + 1 <= k)%Z -> 2 * B j <= B k.
Proof. intros. rewrite <- B_succ. apply bpow_le; auto. Qed.
Lemma B_le2 : forall j k, (j + 2 <= k)%Z -> 4 * B j <= B k.
Proof. intros. rewrite <- B_plus2. apply bpow_le; auto. Qed.
Lemma B_52 : forall k, B (k + 52) = 4503599627370496 * B k.
Proof. intros. rewrite bpow_plus. change (B 52) with 4503599627370496. lra. Qed.
Lemma B_53 : forall k, B (k + 53) = 9007199254740992 * B k.
Proof. intros. rewrite bpow_plus. change (B 53) with 9007199254740992. lra. Qed.
Lemma B_lt_inv : forall j k, B j < B k -> (j < k)%Z.
Proof. intros. eapply lt_bpow; eauto. Qed.

(** ** Multiples *)
Lemma mult_0 : forall k, mult k 0.
Proof. intros. exists 0%Z. simpl. lra. Qed.
Lemma mult_add : forall k x y, mult k x -> mult k y -> mult k (x + y).
Proof. intros k x y [n ->] [m ->]. exists (n + m)%Z. rewrite plus_IZR. lra. Qed.
Lemma mult_opp : forall k x, mult k x -> mult k (- x).
Proof. intros k x [n ->]. exists (- n)%Z. rewrite opp_IZR. lra. Qed.
Lemma mult_sub : forall k x y, mult k x -> mult k y -> mult k (x - y).
Proof. intros. apply mult_add; auto. apply mult_opp; auto. Qed.
Lemma mult_mul : forall j k x y, mult j x -> mult k y -> mult (j + k) (x * y).
Proof. intros j k x y [n ->] [m ->]. exists (n * m)%Z. rewrite mult_IZR, bpow_plus. lra. Qed.
Lemma B_IZR : forall k, (0 <= k)%Z -> B k = IZR (2 ^ k).
Proof. intros. symmetry. apply (IZR_Zpower radix2); auto. Qed.
Lemma mult_le : forall j k x, (j <= k)%Z -> mult k x -> mult j x.
Proof.
  intros j k x H [n ->]. exists (n * 2 ^ (k - j))%Z.
  rewrite mult_IZR, <- (B_IZR (k - j)) by lia.
  replace k with ((k - j) + j)%Z at 1 by lia. rewrite bpow_plus. lra.
Qed.
Lemma mult_B : forall j k, (j <= k)%Z -> mult j (B k).
Proof. intros. apply mult_le with k; auto. exists 1%Z. lra. Qed.
Lemma mult_abs : forall k x, mult k x -> mult k (Rabs x).
Proof. intros. unfold Rabs. destruct Rcase_abs; auto. apply mult_opp; auto. Qed.
Lemma mult_pos : forall k x, mult k x -> 0 < x -> B k <= x.
Proof.
  intros k x [n ->] H. pose proof (B_pos k).
  assert (0 < IZR n) by nra.
  assert (1 <= n)%Z by (apply lt_IZR in H1; lia).
  apply IZR_le in H2. nra.
Qed.
Lemma mult_nz : forall k x, mult k x -> x <> 0 -> B k <= Rabs x.
Proof. intros. apply mult_pos. apply mult_abs; auto. apply Rabs_pos_lt; auto. Qed.
Lemma mult_gap : forall k x y, mult k x -> mult k y -> x < y -> x + B k <= y.
Proof. intros. assert (B k <= y - x) by (apply mult_pos; [apply mult_sub; auto|lra]). lra. Qed.

Lemma lsb_mult : forall k x, lsb k x -> mult k x.
Proof. intros k x (n & _ & E). exists n; auto. Qed.
Lemma lsb_nz : forall k x, lsb k x -> x <> 0.
Proof.
  intros k x (n & O & ->) E. pose proof (B_pos k).
  apply Rmult_integral in E. destruct E as [E|E]; [|lra].
  apply eq_IZR in E. subst. discriminate.
Qed.
Lemma mult_lsb : forall j k x, mult j x -> lsb k x -> (j <= k)%Z.
Proof.
  intros j k x [m E] (n & O & ->).
  destruct (Z_le_gt_dec j k) as [L|L]; auto. exfalso.
  replace j with ((j - k) + k)%Z in E by lia. rewrite bpow_plus in E.
  rewrite (B_IZR (j - k)) in E by lia.
  assert (IZR n = IZR (m * 2 ^ (j - k))).
  { rewrite mult_IZR. pose proof (B_pos k). apply Rmult_eq_reg_r with (B k); lra. }
  apply eq_IZR in H. subst n.
  replace (j - k)%Z with (Z.succ (j - k - 1)) in O by lia.
  rewrite Z.pow_succ_r in O by lia.
  rewrite !Z.odd_mul in O. simpl in O. rewrite andb_false_r in O. discriminate.
Qed.
Lemma lsb_unique : forall j k x, lsb j x -> lsb k x -> j = k.
Proof.
  intros. assert (j <= k)%Z by (eapply mult_lsb; [apply lsb_mult|]; eauto).
  assert (k <= j)%Z by (eapply mult_lsb; [apply lsb_mult|]; eauto). lia.
Qed.
Lemma lsb_pos_ex : forall (p : positive), exists (n : Z) (i : Z), Z.odd n = true /\ (0 <= i)%Z /\ Zpos p = (n * 2 ^ i)%Z.
Proof.
  induction p.
  - exists (Zpos p~1), 0%Z. repeat split; try lia.
  - destruct IHp as (n & i & O & I & E). exists n, (Z.succ i). split; auto. split; [lia|].
    rewrite Z.pow_succ_r by lia. rewrite Pos2Z.inj_xO. lia.
  - exists 1%Z, 0%Z. repeat split; try lia.
Qed.
Lemma lsb_ex : forall j x, mult j x -> x <> 0 -> exists k, lsb k x /\ (j <= k)%Z.
Proof.
  intros j x [m ->] H.
  assert (m <> 0)%Z by (intro; subst; simpl in H; lra).
  assert (A : exists n i, Z.odd n = true /\ (0 <= i)%Z /\ m = (n * 2 ^ i)%Z).
  { destruct m as [|p|p]; [lia| |].
    - apply lsb_pos_ex.
    - destruct (lsb_pos_ex p) as (n & i & O & I & E). exists (- n)%Z, i.
      split; [rewrite Z.odd_opp; auto|]. split; auto. rewrite <- Pos2Z.opp_pos, E. lia. }
  destruct A as (n & i & O & I & ->).
  exists (i + j)%Z. split; [|lia]. exists n. split; auto.
  rewrite mult_IZR, bpow_plus, <- (B_IZR i) by lia. lra.
Qed.
Lemma lsb_opp : forall k x, lsb k x -> lsb k (- x).
Proof. intros k x (n & O & ->). exists (- n)%Z. rewrite Z.odd_opp, opp_IZR. split; auto. lra. Qed.
Lemma lsb_ge : forall k x, lsb k x -> B k <= Rabs x.
Proof. intros. apply mult_nz. apply lsb_mult; auto. eapply lsb_nz; eauto. Qed.
(** a number that is not plus or minus a power of two is at least 3 lsb *)
Lemma lsb_3 : forall k x, lsb k x -> Rabs x = B k \/ 3 * B k <= Rabs x.
Proof.
  intros k x (n & O & ->). pose proof (B_pos k).
  rewrite Rabs_mult, (Rabs_right (B k)) by lra. rewrite <- abs_IZR.
  assert (Z.odd (Z.abs n) = true) by (destruct n; auto).
  destruct (Z.eq_dec (Z.abs n) 1) as [->|N]; [left; lra|right].
  assert (3 <= Z.abs n)%Z.
  { assert (Z.abs n <> 0)%Z by (intro E; rewrite E in H0; discriminate).
    assert (Z.abs n <> 2)%Z by (intro E; rewrite E in H0; discriminate). lia. }
  apply IZR_le in H1. nra.
Qed.

(** ** The format *)
Lemma fmt_ex : forall x, fmt x -> exists m e : Z, x = IZR m * B e /\ (Z.abs m < 2 ^ 53)%Z /\ (-1074 <= e)%Z.
Proof.
  intros x H. apply FLT_format_generic in H; try typeclasses eauto.
  destruct H as [[m e] E M X]. exists m, e. split; [exact E|]. split; [exact M|exact X].
Qed.
Lemma fmt_min : forall x, fmt x -> mult (-1074) x.
Proof.
  intros x H. destruct (fmt_ex x H) as (m & e & -> & M & X).
  apply mult_le with e; auto. exists m; auto.
Qed.
Lemma fmt_lsb_ex : forall x, fmt x -> x <> 0 -> exists k, lsb k x /\ (-1074 <= k)%Z.
Proof. intros. apply lsb_ex; auto. apply fmt_min; auto. Qed.
Lemma fmt_lsb : forall k x, fmt x -> lsb k x -> (-1074 <= k)%Z /\ Rabs x <= B (k + 53) - B k.
Proof.
  intros k x F L. destruct (fmt_ex x F) as (m & e & E & M & X).
  assert (e <= k)%Z by (apply (mult_lsb e k x); auto; exists m; auto).
  split; [lia|].
  assert (Rabs x < B (e + 53)).
  { rewrite E, Rabs_mult, (Rabs_right (B e)) by (pose proof (B_pos e); lra).
    rewrite B_53, <- abs_IZR. apply Rmult_lt_compat_r; [apply B_pos|].
    change 9007199254740992 with (IZR (2 ^ 53)). apply IZR_lt; auto. }
  assert (B (e + 53) <= B (k + 53)) by (apply B_le; lia).
  assert (Rabs x + B k <= B (k + 53)); [|lra].
  apply mult_gap; [apply mult_abs, lsb_mult; auto|apply mult_B; lia|lra].
Qed.
Lemma fmt_mult : forall k x, mult k x -> (-1074 <= k)%Z -> Rabs x <= B (k + 53) -> fmt x.
Proof.
  intros k x [n E] K H.
  apply generic_format_FLT.
  destruct (Rle_lt_or_eq_dec _ _ H) as [L|L].
  - exists (Float radix2 n k); auto. simpl.
    assert (IZR (Z.abs n) < IZR (2 ^ 53)); [|apply lt_IZR; auto].
    rewrite E, Rabs_mult, (Rabs_right (B k)), <- abs_IZR in L by (pose proof (B_pos k); lra).
    rewrite B_53 in L. apply Rmult_lt_reg_r in L; [exact L|apply B_pos].
  - destruct (Rle_dec 0 x) as [P|P].
    + exists (Float radix2 1 (k + 53)); simpl; try lia.
      rewrite Rabs_right in L by lra. rewrite L. unfold F2R. simpl. lra.
    + exists (Float radix2 (-1) (k + 53)); simpl; try lia.
      rewrite Rabs_left in L by lra. unfold F2R. cbn [Fnum Fexp]. lra.
Qed.
Lemma fmt_opp : forall x, fmt x -> fmt (- x).
Proof. intros. apply generic_format_opp; auto. Qed.
Lemma rn_fmt : forall x, fmt (rn x).
Proof. intros. apply generic_format_round; typeclasses eauto. Qed.
Lemma rn_id : forall x, fmt x -> rn x = x.
Proof. intros. apply round_generic; auto; typeclasses eauto. Qed.
Lemma rn_opp : forall x, rn (- x) = - rn x.
Proof. intros. apply round_NE_opp. Qed.

(** ** Rounding to nearest even on a grid *)
Lemma ZnearestE_tie : forall z, Rabs (z - IZR (ZnearestE z)) = / 2 -> Z.even (ZnearestE z) = true.
Proof.
  intros z. unfold Znearest.
  destruct (Rcompare_spec (z - IZR (Zfloor z)) (/ 2)) as [L|E|G].
  - intros A. pose proof (Zfloor_lb z). rewrite Rabs_right in A by lra. lra.
  - intros _. assert (N : IZR (Zfloor z) <> z) by lra.
    rewrite Zceil_floor_neq by auto.
    destruct (Z.even (Zfloor z)) eqn:Ev; simpl; auto.
    rewrite Z.even_add, Ev. reflexivity.
  - intros A. assert (N : IZR (Zfloor z) <> z) by lra.
    rewrite Zceil_floor_neq in * by auto. rewrite plus_IZR in A.
    pose proof (Zfloor_ub z). rewrite Rabs_left in A by lra. lra.
Qed.

Lemma rn_cases : forall t v, mult t v -> (-1074 <= t)%Z ->
  v - rn v = 0 \/
  exists u, (t + 1 <= u)%Z /\ B (u + 52) <= Rabs v < B (u + 53) /\ mult t (v - rn v) /\
    ((mult u (rn v) /\ Rabs (v - rn v) <= / 2 * B u - B t) \/
     (mult (u + 1) (rn v) /\ Rabs (v - rn v) = / 2 * B u)).
Proof.
  intros t v M T.
  destruct (Req_dec v 0) as [->|N]; [left; rewrite round_0; try typeclasses eauto; lra|].
  set (e := mag radix2 v).
  assert (He : B (e - 1) <= Rabs v < B e) by (unfold e; destruct (mag radix2 v) as [e' He']; simpl; auto).
  set (u := (e - 53)%Z).
  destruct (Z_le_gt_dec u t) as [L|L].
  { left. rewrite rn_id; [lra|]. apply fmt_mult with t; auto.
    apply Rle_trans with (B e); [lra|]. apply B_le. unfold u in L. lia. }
  right. exists u. split; [lia|].
  split; [replace (u + 52)%Z with (e - 1)%Z by (unfold u; lia); replace (u + 53)%Z with (e : Z) by (unfold u; lia); auto|].
  assert (C : cexp radix2 fexp64 v = u).
  { unfold cexp, FLT_exp. fold e. unfold u in *. lia. }
  set (z := v * B (- u)).
  assert (Q : rn v = IZR (ZnearestE z) * B u).
  { unfold round, scaled_mantissa, F2R. rewrite C. reflexivity. }
  assert (V : v = z * B u).
  { unfold z. rewrite Rmult_assoc, <- bpow_plus. replace (- u + u)%Z with 0%Z by lia. simpl. lra. }
  assert (MQ : mult u (rn v)) by (exists (ZnearestE z); auto).
  assert (Mh : mult t (v - rn v)) by (apply mult_sub; auto; apply mult_le with u; auto; lia).
  split; auto.
  pose proof (Znearest_half (fun x => negb (Z.even x)) z) as H.
  pose proof (B_pos u) as Bu.
  assert (D : Rabs (v - rn v) = Rabs (z - IZR (ZnearestE z)) * B u).
  { rewrite Q. rewrite V at 1. rewrite <- Rmult_minus_distr_r, Rabs_mult, (Rabs_right (B u)) by lra. reflexivity. }
  destruct (Req_dec (Rabs (z - IZR (ZnearestE z))) (/ 2)) as [E|E].
  - right. split; [|rewrite D, E; reflexivity].
    apply ZnearestE_tie in E. apply Z.even_spec in E. destruct E as [m E].
    exists m. rewrite Q, E, mult_IZR, B_succ. lra.
  - left. split; auto.
    assert (Rabs (v - rn v) < B (u - 1)) by (rewrite D, B_pred; nra).
    assert (Rabs (v - rn v) + B t <= B (u - 1)); [|rewrite B_pred in *; lra].
    apply mult_gap; auto. apply mult_abs; auto. apply mult_B; lia.
Qed.

Lemma rn_mult : forall t v, mult t v -> (-1074 <= t)%Z -> mult t (rn v).
Proof.
  intros t v M T. destruct (rn_cases t v M T) as [E|(u & _ & _ & H & _)].
  - replace (rn v) with v by lra; auto.
  - replace (rn v) with (v - (v - rn v)) by lra. apply mult_sub; auto.
Qed.
Lemma err_mult : forall t v, mult t v -> (-1074 <= t)%Z -> mult t (v - rn v).
Proof. intros. apply mult_sub; auto. apply rn_mult; auto. Qed.
Lemma rn_nz : forall v, mult (-1074) v -> v <> 0 -> rn v <> 0.
Proof.
  intros v M N E.
  destruct (rn_cases (-1074) v M) as [H|(u & U & [V1 _] & _ & [[_ A]|[_ A]])]; [lia|lra| |].
  - rewrite E, Rminus_0_r in A. pose proof (B_pos u). pose proof (B_pos (-1074)). rewrite B_52 in V1. lra.
  - rewrite E, Rminus_0_r in A. pose proof (B_pos u). rewrite B_52 in V1. lra.
Qed.
Lemma err_fmt : forall x y, fmt x -> fmt y -> fmt (x + y - rn (x + y)).
Proof.
  intros x y Fx Fy. replace (x + y - rn (x + y)) with (- (rn (x + y) - (x + y))) by lra.
  apply fmt_opp. apply plus_error; auto; typeclasses eauto.
Qed.
(** relative error *)
Lemma rn_rel : forall v, mult (-1074) v -> Rabs (v - rn v) <= / 9007199254740992 * Rabs v.
Proof.
  intros v M. destruct (rn_cases (-1074) v M) as [H|(u & U & [V1 _] & _ & A)]; [lia| |].
  - rewrite H, Rabs_R0. pose proof (Rabs_pos v). lra.
  - rewrite B_52 in V1. pose proof (B_pos (-1074)). pose proof (B_pos u).
    destruct A as [[_ A]|[_ A]]; lra.
Qed.

(** ** The invariant on component lists (largest component first) *)
Definition sumR (l : list R) : R := fold_right Rplus 0 l.

(** [J o k]: the components [o] sum to less than half of 2^k, or the largest
    of them is half of 2^k and the others sum to less than a quarter. *)
Definition J (o : list R) (k : Z) : Prop :=
  Rabs (sumR o) < / 2 * B k \/
  match o with [] => False | h :: o' => Rabs h = / 2 * B k /\ Rabs (sumR o') < / 4 * B k end.
Definition Jn (o : list R) (k : Z) : Prop := Rabs (sumR o) < / 2 * B k.
Definition below_grid (o : list R) (k : Z) : Prop :=
  match o with [] => True | h :: _ => Rabs h < B k end.
Definition JJ o k := J o k /\ below_grid o k.

Fixpoint K (l : list R) : Prop :=
  match l with
  | [] => True
  | x :: o => x <> 0 /\ fmt x /\ K o /\ forall k, lsb k x -> JJ o k
  end.

Lemma J_34 : forall o k, J o k -> Rabs (sumR o) < / 4 * 3 * B k.
Proof.
  intros o k H. pose proof (B_pos k). destruct H as [H|H]; [lra|].
  destruct o as [|h o]; [tauto|]. destruct H as [H1 H2]. simpl.
  pose proof (Rabs_triang h (sumR o)). lra.
Qed.
Lemma Jn_J : forall o k, Jn o k -> J o k.
Proof. intros. left. auto. Qed.
Lemma J_lt : forall o j k, J o j -> (j < k)%Z -> Jn o k.
Proof.
  intros o j k H L. apply J_34 in H. unfold Jn.
  assert (2 * B j <= B k) by (apply B_le1; lia). pose proof (B_pos j). lra.
Qed.
Lemma J_lt2 : forall o j k, J o j -> (j + 1 < k)%Z -> Rabs (sumR o) < / 4 * B k.
Proof.
  intros o j k H L. apply J_34 in H.
  assert (4 * B j <= B k) by (apply B_le2; lia). pose proof (B_pos j). lra.
Qed.
Lemma J_le : forall o j k, J o j -> (j <= k)%Z -> J o k.
Proof.
  intros o j k H L. destruct (Z.eq_dec j k) as [->|N]; auto.
  apply Jn_J. apply J_lt with j; auto. lia.
Qed.
Lemma Jn_le : forall o j k, Jn o j -> (j <= k)%Z -> Jn o k.
Proof. intros o j k H L. unfold Jn in *. assert (B j <= B k) by (apply B_le; auto). lra. Qed.
Lemma below_le : forall o j k, below_grid o j -> (j <= k)%Z -> below_grid o k.
Proof.
  intros [|h o] j k H L; simpl in *; auto.
  assert (B j <= B k) by (apply B_le; auto). lra.
Qed.
Lemma JJ_le : forall o j k, JJ o j -> (j <= k)%Z -> JJ o k.
Proof. intros o j k [H1 H2] L. split; [eapply J_le|eapply below_le]; eauto. Qed.
Lemma JJ_nil : forall k, JJ [] k.
Proof. intros. split; simpl; auto. left. simpl. rewrite Rabs_R0. pose proof (B_pos k). lra. Qed.

(** ** One addition of the chain: [v] is rounded to [rn v], the error is
    emitted when it is not zero. *)
Lemma step_Q : forall o t v k, J o t -> (-1074 <= t)%Z -> mult t v ->
  v - rn v <> 0 -> lsb k (rn v) -> Jn (v - rn v :: o) k /\ below_grid (v - rn v :: o) k.
Proof.
  intros o t v k HJ T M N L. apply J_34 in HJ.
  destruct (rn_cases t v M T) as [E|(u & U & V & Mh & C)]; [tauto|].
  pose proof (B_le1 t u U). pose proof (B_pos t).
  unfold Jn. simpl. pose proof (Rabs_triang (v - rn v) (sumR o)).
  destruct C as [[MQ A]|[MQ A]].
  - assert (B u <= B k) by (apply B_le; eapply mult_lsb; eauto). lra.
  - assert (2 * B u <= B k) by (apply B_le1; eapply mult_lsb; eauto). lra.
Qed.

Lemma step_K : forall o t x y, K o -> JJ o t -> (-1074 <= t)%Z -> fmt x -> fmt y ->
  mult t x -> mult t y -> x + y - rn (x + y) <> 0 -> K (x + y - rn (x + y) :: o).
Proof.
  intros o t x y HK HJ T Fx Fy Mx My N. simpl. split; auto.
  split; [apply err_fmt; auto|]. split; auto.
  intros k L. apply JJ_le with t; auto.
  apply (mult_lsb t k (x + y - rn (x + y))); auto.
  apply err_mult; auto. apply mult_add; auto.
Qed.

(** the step seen from a component of lsb 2^L that is still to come *)
Lemma step_rem : forall o t v L, J o t -> (-1074 <= t)%Z -> mult t v ->
  (Jn o L \/ J o L /\ mult (L + 1) v) ->
  Rabs (sumR o + v) < B (L + 53) + / 2 * B L ->
  v - rn v <> 0 -> (-1074 <= L)%Z ->
  (Jn (v - rn v :: o) L /\ below_grid (v - rn v :: o) L) \/
  ((t < L)%Z /\ mult (L + 1) (rn v) /\ Rabs (v - rn v) = / 2 * B L /\ B (L + 52) <= Rabs v).
Proof.
  intros o t v L HJ T M HL S N T2.
  assert (HJ4 := J_34 _ _ HJ).
  destruct (rn_cases t v M T) as [E|(u & U & V & Mh & C)]; [tauto|].
  pose proof (B_le1 t u U). pose proof (B_pos t). pose proof (B_pos L).
  pose proof (Rabs_triang (v - rn v) (sumR o)) as TR.
  destruct (Z_le_gt_dec u L) as [UL|UL].
  - assert (B u <= B L) by (apply B_le; auto).
    destruct C as [[MQ A]|[MQ A]].
    + left. unfold Jn. simpl. lra.
    + destruct (Z.eq_dec u L) as [->|NE].
      * right. split; [lia|]. split; auto. split; auto. lra.
      * left. assert (2 * B u <= B L) by (apply B_le1; lia). unfold Jn; simpl. lra.
  - left.
    assert (V1 : B (L + 53) <= Rabs v).
    { apply Rle_trans with (B (u + 52)); [apply B_le; lia|lra]. }
    assert (V2 : Rabs v < B (L + 53) + / 2 * B L + Rabs (sumR o)).
    { replace v with (sumR o + v + - sumR o) at 1 by lra.
      pose proof (Rabs_triang (sumR o + v) (- sumR o)). rewrite Rabs_Ropp in *. lra. }
    assert (Jo : Jn o L).
    { destruct HL as [HL|[HL Mv]]; auto. exfalso.
      apply J_34 in HL.
      assert (Rabs v = B (L + 53)).
      { apply Rle_antisym; auto.
        destruct (Rle_lt_dec (Rabs v) (B (L + 53))) as [Z|Z]; auto. exfalso.
        assert (B (L + 53) + B (L + 1) <= Rabs v).
        { apply mult_gap; auto. apply mult_B; lia. apply mult_abs; auto. }
        rewrite B_succ in *. lra. }
      apply N. rewrite rn_id; [lra|]. apply fmt_mult with (L + 1)%Z; auto. lia.
      rewrite H2. apply B_le. lia. }
    unfold Jn in Jo.
    assert (Q : rn v = if Rle_dec 0 v then B (L + 53) else - B (L + 53)).
    { assert (P : forall w, B (L + 53) <= w < B (L + 53) + B L -> rn w = B (L + 53)).
      { intros w W.
        assert (X : mag radix2 w = (L + 54)%Z :> Z).
        { apply mag_unique. rewrite Rabs_right by (pose proof (B_pos (L + 53)); lra).
          replace (L + 54 - 1)%Z with (L + 53)%Z by lia.
          replace (L + 54)%Z with ((L + 53) + 1)%Z by lia. rewrite B_succ.
          assert (B L <= B (L + 53)) by (apply B_le; lia). lra. }
        assert (C' : cexp radix2 fexp64 w = (L + 1)%Z) by (unfold cexp, FLT_exp; rewrite X; lia).
        unfold round, F2R. simpl. unfold scaled_mantissa. rewrite C'.
        assert (Zn : ZnearestE (w * B (- (L + 1))) = (2 ^ 52)%Z).
        { apply Znearest_imp.
          replace (IZR (2 ^ 52)) with (B (L + 53) * B (- (L + 1))).
          - rewrite <- Rmult_minus_distr_r.
            assert (B L * B (- (L + 1)) = / 2).
            { rewrite <- bpow_plus. replace (L + - (L + 1))%Z with (-1)%Z by lia. reflexivity. }
            pose proof (B_pos (- (L + 1))).
            rewrite Rabs_right by nra.
            rewrite <- H2. apply Rmult_lt_compat_r; lra.
          - rewrite <- bpow_plus. replace (L + 53 + - (L + 1))%Z with 52%Z by lia. reflexivity. }
        rewrite Zn. replace (L + 53)%Z with (52 + (L + 1))%Z by lia.
        rewrite (bpow_plus radix2 52). reflexivity. }
      destruct (Rle_dec 0 v).
      - rewrite Rabs_right in * by lra. apply P. lra.
      - rewrite Rabs_left in * by lra.
        replace v with (- - v) by lra. rewrite rn_opp. f_equal. apply P. lra. }
    unfold Jn. simpl. rewrite Q.
    revert V1 V2 S Jo. clear - H1. intros.
    pose proof (B_pos (L + 53)).
    destruct (Rle_dec 0 v) as [P|P].
    + rewrite (Rabs_right v) in * by lra.
      assert (- (/ 2 * B L) < sumR o) by (unfold Rabs in Jo; destruct Rcase_abs in Jo; lra).
      assert (sumR o + v < B (L + 53) + / 2 * B L) by (pose proof (Rle_abs (sumR o + v)); lra).
      split; apply Rabs_def1; lra.
    + rewrite (Rabs_left v) in * by lra.
      assert (sumR o < / 2 * B L) by (pose proof (Rle_abs (sumR o)); lra).
      assert (- (sumR o + v) < B (L + 53) + / 2 * B L) by (pose proof (Rle_abs (- (sumR o + v))); rewrite Rabs_Ropp in *; lra).
      split; apply Rabs_def1; lra.
Qed.

(** ** Consequences of [K] *)
Lemma K_sum_lt : forall x o, K (x :: o) -> Rabs (sumR o) < / 4 * 3 * Rabs x.
Proof.
  intros x o (N & F & _ & H).
  destruct (fmt_lsb_ex x F N) as (k & L & _).
  destruct (H k L) as [HJ _]. apply J_34 in HJ. pose proof (lsb_ge _ _ L). lra.
Qed.
(** the largest component has the sign of the sum *)
Lemma K_sign : forall x o, K (x :: o) ->
  (0 < sumR (x :: o) <-> 0 < x) /\ (sumR (x :: o) < 0 <-> x < 0).
Proof.
  intros x o H. pose proof (K_sum_lt _ _ H) as S. destruct H as (N & _). simpl.
  unfold Rabs in S. destruct (Rcase_abs (sumR o)), (Rcase_abs x); lra.
Qed.
Lemma K_head : forall x y o k, K (x :: y :: o) -> lsb k x -> Rabs y < B k.
Proof. intros x y o k (_ & _ & _ & H) L. destruct (H k L) as [_ H2]. exact H2. Qed.
Lemma K_tail : forall l1 l2, K (l1 ++ l2) -> K l2.
Proof. induction l1; simpl; auto. intros l2 (_ & _ & H & _). auto. Qed.
Lemma K_fmt : forall l x, K l -> In x l -> fmt x /\ x <> 0.
Proof.
  induction l as [|y l IH]; simpl; [tauto|].
  intros x (N & F & HK & _) [->|I]; auto.
Qed.
Lemma K_sorted : forall x l y k, K (x :: l) -> lsb k x -> In y l -> Rabs y < B k.
Proof.
  intros x l. revert x. induction l as [|z l IH]; simpl; [tauto|].
  intros x y k H L [->|I].
  - apply (K_head x y l k H L).
  - pose proof (K_head x z l k H L) as Z.
    assert (HK : K (z :: l)) by apply H.
    destruct (fmt_lsb_ex z) as (j & Lj & _); [apply HK|apply HK|].
    assert (HK' : K (x :: z :: l)) by exact H.
    pose proof (IH z y j HK Lj I). pose proof (lsb_ge _ _ Lj). lra.
Qed.
Lemma sumR_app : forall a b, sumR (a ++ b) = sumR a + sumR b.
Proof. induction a; simpl; intros; [lra|]. rewrite IHa. lra. Qed.
Lemma K_partial : forall l1 x l2 k, K (l1 ++ x :: l2) -> lsb k x -> JJ l2 k.
Proof. intros l1 x l2 k H L. apply K_tail in H. destruct H as (_ & _ & _ & H). auto. Qed.

(** ** The chain of fast_expansion_sum_zeroelim
    [eo], [fo]: components already added, latest first; [er], [fr]: components
    still to come, next first; [o]: components emitted, latest first; [q]: the
    running sum. *)
Definition rem_in (er fr : list R) (t : R) : Prop := In t er \/ In t fr.

(** [o] is small with respect to the running sum and to what remains *)
Definition st_small (er fr o : list R) (q : R) : Prop :=
  (forall k, lsb k q -> Jn o k) /\ (forall t k, rem_in er fr t -> lsb k t -> Jn o k).
Definition st_tiny (er fr o : list R) : Prop :=
  forall t k, rem_in er fr t -> lsb k t -> Rabs (sumR o) < / 4 * B k.
(** all but the next component of [er] are on a coarser grid *)
Definition st_edge (er fr : list R) (q : R) : Prop :=
  exists t er' k, er = t :: er' /\ lsb k t /\ mult (k + 1) q /\
    forall x, rem_in er' fr x -> mult (k + 2) x.

Record Inv (eo er fo fr o : list R) (q : R) : Prop := {
  i_Ke : K (rev er ++ eo);
  i_Kf : K (rev fr ++ fo);
  i_ef : forall x y, In x eo -> In y fr -> Rabs x <= Rabs y;
  i_fe : forall x y, In x fo -> In y er -> Rabs x <= Rabs y;
  i_sum : sumR o + q = sumR eo + sumR fo;
  i_K : K o;
  i_q : fmt q;
  i_Jq : forall k, lsb k q -> JJ o k;
  i_Jr : forall t k, rem_in er fr t -> lsb k t -> JJ o k;
  i_st : st_small er fr o q \/ st_tiny er fr o \/ st_edge er fr q \/ st_edge fr er q }.

Lemma rem_sym : forall er fr t, rem_in er fr t <-> rem_in fr er t.
Proof. unfold rem_in. tauto. Qed.

Lemma Inv_sym : forall eo er fo fr o q, Inv eo er fo fr o q -> Inv fo fr eo er o q.
Proof.
  intros eo er fo fr o q [H1 H2 H3 H4 H5 H6 H7 H8 H9 H10].
  constructor; auto.
  - lra.
  - intros t k H. apply rem_sym in H. eauto.
  - destruct H10 as [[A C]|[A|[A|A]]]; auto.
    + left. split; auto. intros t k H. apply rem_sym in H. eauto.
    + right; left. intros t k H. apply rem_sym in H. eauto.
Qed.

Section Bounds.
Variables eo er fo fr : list R.
Hypothesis Ke : K (rev er ++ eo).
Hypothesis Kf : K (rev fr ++ fo).
Hypothesis fe : forall x y, In x fo -> In y er -> Rabs x <= Rabs y.

Lemma sub_before : forall l1 t l2, er = l1 ++ t :: l2 -> K (t :: rev l1 ++ eo).
Proof.
  intros l1 t l2 E. rewrite E in Ke. rewrite rev_app_distr in Ke. simpl in Ke.
  rewrite <- !app_assoc in Ke. simpl in Ke. apply K_tail in Ke. exact Ke.
Qed.

(** the part of [e] already added is below the grid of what remains of [e] *)
Lemma own_bound : forall t L, In t er -> lsb L t -> Rabs (sumR eo) < / 4 * 3 * B L.
Proof.
  intros t L I HL. destruct (in_split _ _ I) as (l1 & l2 & E).
  destruct l1 as [|x l1].
  - assert (HK := sub_before [] t l2 E). simpl in HK. destruct HK as (_ & _ & _ & H).
    destruct (H L HL) as [H1 _]. apply J_34; auto.
  - assert (HK := sub_before (x :: l1) t l2 E).
    assert (X : Rabs x < B L).
    { apply (K_sorted t (rev (x :: l1) ++ eo) x L HK HL). apply in_or_app. left. apply -> in_rev. left; auto. }
    assert (HX := sub_before [] x (l1 ++ t :: l2)). simpl in HX. specialize (HX E).
    pose proof (K_sum_lt _ _ HX). lra.
Qed.

Lemma other_bound2 : forall x, In x er -> Rabs (sumR fo) <= / 4 * 7 * Rabs x.
Proof.
  intros x I. destruct fo as [|f fo'] eqn:Efo.
  - simpl. rewrite Rabs_R0. pose proof (Rabs_pos x). lra.
  - assert (HK : K (f :: fo')) by (apply K_tail in Kf; exact Kf).
    assert (Rabs f <= Rabs x) by (apply fe; auto; left; auto).
    pose proof (K_sum_lt _ _ HK). simpl. pose proof (Rabs_triang f (sumR fo')). lra.
Qed.

Lemma in_er_fmt : forall t, In t er -> fmt t /\ t <> 0.
Proof. intros t I. apply (K_fmt _ t Ke). apply in_or_app. left. apply -> in_rev. auto. Qed.

Lemma other_bound : forall t L, In t er -> lsb L t -> Rabs (sumR fo) < B (L + 53) - / 4 * B L.
Proof.
  intros t L I HL. pose proof (B_pos L).
  destruct fo as [|f fo'] eqn:Efo.
  - simpl. rewrite Rabs_R0. rewrite B_53. lra.
  - assert (HK : K (f :: fo')) by (apply K_tail in Kf; exact Kf).
    assert (A : Rabs f <= Rabs t) by (apply fe; auto; left; auto).
    destruct (in_er_fmt t I) as [Ft _]. destruct (fmt_lsb L t Ft HL) as [_ T].
    destruct HK as (Nf & Ff & _ & HJ).
    destruct (fmt_lsb_ex f Ff Nf) as (k & Lk & Kk).
    destruct (HJ k Lk) as [HJk _]. apply J_34 in HJk.
    simpl. pose proof (Rabs_triang f (sumR fo')).
    destruct (Z_le_gt_dec k (L - 1)) as [C|C].
    + assert (2 * B k <= B L) by (apply B_le1; lia). lra.
    + assert (B L <= B k) by (apply B_le; lia).
      pose proof (lsb_ge k f Lk).
      assert (k < L + 53)%Z by (apply B_lt_inv; lra).
      assert (Rabs f + B k <= B (L + 53)).
      { apply mult_gap; [apply mult_abs, lsb_mult; auto|apply mult_B; lia|lra]. }
      lra.
Qed.

Lemma all_bound : forall t L, In t er -> lsb L t -> Rabs (sumR eo + sumR fo) < B (L + 53) + / 2 * B L.
Proof.
  intros t L I HL. pose proof (own_bound t L I HL). pose proof (other_bound t L I HL).
  pose proof (Rabs_triang (sumR eo) (sumR fo)). lra.
Qed.
End Bounds.

(** a component of lsb 2^L can only meet a running sum of 2^(L+52) when it is
    the next of its list and everything else is on a much coarser grid *)
Lemma edge_alone : forall eo er fo fr t L,
  K (rev er ++ eo) -> K (rev fr ++ fo) ->
  (forall x y, In x eo -> In y fr -> Rabs x <= Rabs y) ->
  (forall x y, In x fo -> In y er -> Rabs x <= Rabs y) ->
  In t er -> lsb L t -> B (L + 52) - B L <= Rabs (sumR eo + sumR fo) ->
  exists er', er = t :: er' /\ forall x, rem_in er' fr x -> mult (L + 2) x.
Proof.
  intros eo er fo fr t L Ke Kf ef fe I HL S.
  pose proof (Rabs_triang (sumR eo) (sumR fo)) as TR.
  pose proof (own_bound eo er Ke t L I HL) as OE. pose proof (B_pos L).
  rewrite B_52 in S.
  assert (G : forall x k, lsb k x -> B (L + 52) - B L < 4 * B k -> mult (L + 2) x).
  { intros x k Lk G. apply mult_le with k; [|apply lsb_mult; auto].
    destruct (Z_le_gt_dec (L + 2) k); auto. exfalso.
    assert (B k <= B (L + 1)) by (apply B_le; lia). rewrite B_succ in H0. rewrite B_52 in G. lra. }
  rewrite B_52 in G.
  destruct (in_split _ _ I) as (l1 & l2 & E). destruct l1 as [|x l1].
  - exists l2. split; [exact E|]. intros x [X|X].
    + assert (Ix : In x er) by (rewrite E; right; auto).
      destruct (in_er_fmt eo er Ke x Ix) as [Fx Nx].
      destruct (fmt_lsb_ex x Fx Nx) as (k & Lk & _).
      apply (G x k Lk).
      pose proof (other_bound2 er fo fr Kf fe t I) as OF.
      assert (T : Rabs t < B k).
      { destruct (in_split _ _ X) as (m1 & m2 & Em).
        assert (HK := sub_before eo er Ke (t :: m1) x m2). simpl in HK.
        rewrite E, Em in HK. specialize (HK eq_refl).
        apply (K_sorted _ _ t k HK Lk). apply in_or_app. left. apply in_or_app. right. left; auto. }
      pose proof (lsb_ge L t HL). lra.
    + destruct (in_er_fmt fo fr Kf x X) as [Fx Nx].
      destruct (fmt_lsb_ex x Fx Nx) as (k & Lk & _).
      apply (G x k Lk).
      pose proof (own_bound fo fr Kf x k X Lk). pose proof (B_pos k). lra.
  - exfalso.
    assert (HK := sub_before eo er Ke (x :: l1) t l2 E).
    assert (X : Rabs x < B L).
    { apply (K_sorted t (rev (x :: l1) ++ eo) x L HK HL). apply in_or_app. left. apply -> in_rev. left; auto. }
    assert (Ix : In x er) by (rewrite E; left; auto).
    pose proof (other_bound2 er fo fr Kf fe x Ix). lra.
Qed.

Lemma forall_or : forall (A : Type) (l : list A) (P Q : A -> Prop),
  (forall x, In x l -> P x \/ Q x) -> (forall x, In x l -> P x) \/ (exists x, In x l /\ Q x).
Proof.
  induction l as [|a l IH]; intros P Q H.
  - left. intros x [].
  - destruct (H a (or_introl eq_refl)) as [Pa|Qa].
    + destruct (IH P Q) as [A1|(x & I & Qx)].
      * intros x I. apply H. right; auto.
      * left. intros x [<-|I]; auto.
      * right. exists x. split; auto. right; auto.
    + right. exists a. split; auto. left; auto.
Qed.

Definition emit (h : R) (o : list R) : list R := if Req_EM_T h 0 then o else h :: o.

Lemma rev_cons_app : forall (g : R) er eo, rev (g :: er) ++ eo = rev er ++ g :: eo.
Proof. intros. simpl. rewrite <- app_assoc. reflexivity. Qed.

Lemma Inv_step : forall eo g er fo fr o q,
  Inv eo (g :: er) fo fr o q -> (forall y, In y fr -> Rabs g <= Rabs y) ->
  Inv (g :: eo) er fo fr (emit (q + g - rn (q + g)) o) (rn (q + g)).
Proof.
  intros eo g er fo fr o q I Hg.
  destruct I as [Ke Kf ef fe S HK Fq Jq Jr St].
  assert (Fg : fmt g /\ g <> 0) by (apply (in_er_fmt eo (g :: er) Ke); left; auto).
  destruct Fg as [Fg Ng].
  destruct (fmt_lsb_ex g Fg Ng) as (kg & Lg & Tg).
  rewrite rev_cons_app in Ke.
  assert (ef' : forall x y, In x (g :: eo) -> In y fr -> Rabs x <= Rabs y).
  { intros x y [<-|Hx] Hy; auto. }
  assert (fe' : forall x y, In x fo -> In y er -> Rabs x <= Rabs y).
  { intros x y Hx Hy. apply fe; auto. right; auto. }
  (* common grid *)
  assert (GR : exists t, (-1074 <= t)%Z /\ mult t q /\ mult t g /\ JJ o t /\
            (st_small (g :: er) fr o q -> Jn o t)).
  { destruct (Req_dec q 0) as [->|Nq].
    - exists kg. split; auto. split; [apply mult_0|]. split; [apply lsb_mult; auto|].
      split; [apply (Jr g kg); auto; left; left; auto|].
      intros [_ A]. apply (A g kg); auto. left; left; auto.
    - destruct (fmt_lsb_ex q Fq Nq) as (kq & Lq & Tq).
      destruct (Z_le_gt_dec kq kg) as [C|C].
      + exists kq. split; auto. split; [apply lsb_mult; auto|].
        split; [apply mult_le with kg; auto; apply lsb_mult; auto|].
        split; [apply Jq; auto|]. intros [A _]. apply A; auto.
      + exists kg. split; auto. split; [apply mult_le with kq; [lia|apply lsb_mult; auto]|].
        split; [apply lsb_mult; auto|].
        split; [apply (Jr g kg); auto; left; left; auto|].
        intros [_ A]. apply (A g kg); auto. left; left; auto. }
  destruct GR as (t & T & Mq & Mg & Jt & Sm).
  set (v := q + g) in *.
  assert (Mv : mult t v) by (apply mult_add; auto).
  assert (Sv : sumR o + v = sumR (g :: eo) + sumR fo) by (simpl; unfold v; lra).
  assert (Rsub : forall x, rem_in er fr x -> rem_in (g :: er) fr x).
  { intros x [X|X]; [left; right|right]; auto. }
  unfold emit. destruct (Req_EM_T (v - rn v) 0) as [E|N].
  - (* exact addition *)
    assert (Q : rn v = v) by lra. rewrite Q.
    constructor; auto.
    + rewrite <- Q. apply rn_fmt.
    + intros k Lk. apply JJ_le with t; auto. apply (mult_lsb t k v); auto.
    + intros x k X Lk. apply (Jr x k); auto.
    + destruct St as [Sm0|[Ti|[Ed|Ed]]].
      * left. split.
        -- intros k Lk. apply Jn_le with t; auto. apply (mult_lsb t k v); auto.
        -- intros x k X Lk. apply Sm0 with x; auto.
      * right; left. intros x k X Lk. apply Ti with x; auto.
      * destruct Ed as (t0 & er' & k0 & E0 & L0 & M0 & O0). inversion E0; subst t0 er'.
        right; left. intros x k X Lk.
        assert (JJ o k0) by (apply (Jr g k0); auto; left; left; auto).
        destruct H as [H _]. apply J_lt2 with k0; auto.
        assert (k0 + 2 <= k)%Z by (apply (mult_lsb (k0 + 2) k x); auto). lia.
      * destruct Ed as (t0 & fr' & k0 & E0 & L0 & M0 & O0).
        right; right; right. exists t0, fr', k0. split; auto. split; auto. split.
        -- apply mult_add; auto. apply mult_le with (k0 + 2)%Z; [lia|]. apply O0. right; left; auto.
        -- intros x [X|X]; apply O0; [left|right; right]; auto.
  - (* the error is emitted *)
    destruct Jt as [Jt Bt].
    (* what happens with each remaining component *)
    assert (R : forall x, In x (er ++ fr) ->
       (forall L, lsb L x -> Jn (v - rn v :: o) L /\ below_grid (v - rn v :: o) L) \/
       (exists L, lsb L x /\ (t < L)%Z /\ mult (L + 1) (rn v) /\ Rabs (v - rn v) = / 2 * B L /\
                  B (L + 52) <= Rabs v /\ Rabs (sumR o) < / 4 * B L)).
    { intros x Ix. apply in_app_or in Ix.
      assert (Fx : fmt x /\ x <> 0).
      { destruct Ix as [Ix|Ix].
        - apply (in_er_fmt (g :: eo) er Ke x Ix).
        - apply (in_er_fmt fo fr Kf x Ix). }
      destruct Fx as [Fx Nx]. destruct (fmt_lsb_ex x Fx Nx) as (L & LL & TL).
      assert (BD : Rabs (sumR o + v) < B (L + 53) + / 2 * B L).
      { rewrite Sv. destruct Ix as [Ix|Ix].
        - apply (all_bound (g :: eo) er fo fr Ke Kf fe' x L); auto.
        - rewrite Rplus_comm. apply (all_bound fo fr (g :: eo) er Kf Ke ef' x L); auto. }
      assert (HX : Jn o L \/ J o L /\ mult (L + 1) v).
      { destruct St as [[_ A]|[A|[A|A]]].
        - left. apply (A x L); auto.
        - left. unfold Jn. assert (rem_in (g :: er) fr x) by auto. specialize (A x L H LL).
          pose proof (B_pos L). lra.
        - destruct A as (t0 & er' & k0 & E0 & L0 & M0 & O0). inversion E0; subst t0 er'.
          left. destruct (Jr g k0 (or_introl (or_introl eq_refl)) L0) as [H _].
          apply J_lt with k0; auto.
          assert (k0 + 2 <= L)%Z by (apply (mult_lsb (k0 + 2) L x); auto). lia.
        - destruct A as (t0 & fr' & k0 & E0 & L0 & M0 & O0).
          assert (It : rem_in (g :: er) fr t0) by (right; rewrite E0; left; auto).
          destruct (Jr t0 k0 It L0) as [H _].
          destruct Ix as [Ix|Ix].
          + left. apply J_lt with k0; auto.
            assert (k0 + 2 <= L)%Z; [|lia]. apply (mult_lsb (k0 + 2) L x); auto. apply O0. right; right; auto.
          + rewrite E0 in Ix. destruct Ix as [->|Ix].
            * assert (k0 = L) by (apply (lsb_unique k0 L x); auto). subst k0.
              right. split; auto. apply mult_add; auto.
              apply mult_le with (L + 2)%Z; [lia|]. apply O0. right; left; auto.
            * left. apply J_lt with k0; auto.
              assert (k0 + 2 <= L)%Z; [|lia]. apply (mult_lsb (k0 + 2) L x); auto. apply O0. left; auto. }
      destruct (step_rem o t v L Jt T Mv HX BD N TL) as [C|(C1 & C2 & C3 & C4)].
      - left. intros L' LL'. replace L' with L; auto. apply (lsb_unique L L' x); auto.
      - right. exists L. split; auto. split; auto. split; auto. split; auto. split; auto.
        (* the emitted part is tiny *)
        destruct (Z_le_gt_dec (t + 2) L) as [T2|T2]; [apply J_lt2 with t; auto; lia|].
        assert (L = t + 1)%Z by lia. subst L. clear T2.
        destruct St as [A|[A|[A|A]]].
        + specialize (Sm A). unfold Jn in Sm. rewrite B_succ. lra.
        + apply (A x (t + 1)%Z); auto.
        + destruct A as (t0 & er' & k0 & E0 & L0 & M0 & O0). inversion E0; subst t0 er'.
          destruct (Jr g k0 (or_introl (or_introl eq_refl)) L0) as [H _].
          apply J_lt2 with k0; auto.
          assert (k0 + 2 <= t + 1)%Z by (apply (mult_lsb (k0 + 2) (t + 1) x); auto). lia.
        + destruct A as (t0 & fr' & k0 & E0 & L0 & M0 & O0).
          assert (It : rem_in (g :: er) fr t0) by (right; rewrite E0; left; auto).
          destruct (Jr t0 k0 It L0) as [H _].
          assert (Big : (k0 + 2 <= t + 1)%Z -> Rabs (sumR o) < / 4 * B (t + 1)).
          { intros. apply J_lt2 with k0; auto. lia. }
          destruct Ix as [Ix|Ix].
          * apply Big. apply (mult_lsb (k0 + 2) (t + 1) x); auto. apply O0. right; right; auto.
          * rewrite E0 in Ix. destruct Ix as [->|Ix].
            -- exfalso. assert (k0 = (t + 1)%Z) by (apply (lsb_unique k0 (t + 1) x); auto). subst k0.
               (* the error is a multiple of twice itself *)
               assert (Mh : mult (t + 1 + 1) (v - rn v)).
               { apply err_mult; [|lia]. apply mult_add; auto.
                 apply mult_le with (t + 1 + 2)%Z; [lia|]. apply O0. right; left; auto. }
               apply mult_nz in Mh; auto. rewrite C3, B_succ in Mh. pose proof (B_pos (t + 1)). lra.
            -- apply Big. apply (mult_lsb (k0 + 2) (t + 1) x); auto. apply O0. left; auto. }
    assert (JQ : forall k, lsb k (rn v) -> Jn (v - rn v :: o) k /\ below_grid (v - rn v :: o) k).
    { intros k Lk. apply step_Q with t; auto. }
    assert (Sr : sumR (v - rn v :: o) + rn v = sumR (g :: eo) + sumR fo) by (simpl in *; lra).
    constructor; auto.
    + apply step_K with t; auto. split; auto.
    + apply rn_fmt.
    + intros k Lk. destruct (JQ k Lk). split; auto. apply Jn_J; auto.
    + intros x k X Lk. destruct (R x) as [A|(L & A1 & A2 & A3 & A4 & A5 & A6)].
      * apply in_or_app. exact X.
      * destruct (A k Lk). split; auto. apply Jn_J; auto.
      * assert (L = k) by (apply (lsb_unique L k x); auto). subst L.
        split; [right; auto|]. simpl. rewrite A4. pose proof (B_pos k). lra.
    + destruct (forall_or _ (er ++ fr) _ _ R) as [A|(x & Ix & L & A1 & A2 & A3 & A4 & A5 & A6)].
      * left. split; [intros k Lk; apply JQ; auto|].
        intros x k X Lk. destruct (A x) with (L := k); auto. apply in_or_app. exact X.
      * assert (Big : B (L + 52) - B L <= Rabs (sumR (g :: eo) + sumR fo)).
        { rewrite <- Sv. replace v with (sumR o + v + - sumR o) in A5 by lra.
          pose proof (Rabs_triang (sumR o + v) (- sumR o)). rewrite Rabs_Ropp in H.
          pose proof (B_pos L). lra. }
        right; right. apply in_app_or in Ix. destruct Ix as [Ix|Ix].
        -- left. destruct (edge_alone (g :: eo) er fo fr x L Ke Kf ef' fe' Ix A1 Big) as (er' & E' & O').
           exists x, er', L. split; auto.
        -- right. rewrite Rplus_comm in Big.
           destruct (edge_alone fo fr (g :: eo) er x L Kf Ke fe' ef' Ix A1 Big) as (fr' & E' & O').
           exists x, fr', L. split; auto.
Qed.

(** ** Exact products *)
Section Product.
Variables (e b : R) (L l : Z).
Hypothesis Fe : fmt e.
Hypothesis Fb : fmt b.
Hypothesis Le : lsb L e.
Hypothesis Lb : lsb l b.
Hypothesis G : (-1074 <= L + l)%Z.

Lemma prod_mult : mult (L + l) (e * b).
Proof. apply mult_mul; apply lsb_mult; auto. Qed.
Lemma prod_nz : e * b <> 0.
Proof. apply Rmult_integral_contrapositive_currified; eapply lsb_nz; eauto. Qed.
Lemma Bl_le_b : B l <= Rabs b.
Proof. apply lsb_ge; auto. Qed.
Lemma b_bound : Rabs b <= B (l + 53) - B l.
Proof. apply (fmt_lsb l b Fb Lb). Qed.
Lemma abs_prod : Rabs (e * b) = Rabs e * Rabs b.
Proof. apply Rabs_mult. Qed.

Lemma prod_err : e * b - rn (e * b) = 0 \/
  exists u, (L + l + 1 <= u <= L + l + 53)%Z /\ mult u (rn (e * b)) /\
    Rabs (e * b - rn (e * b)) <= / 2 * B u.
Proof.
  destruct (rn_cases (L + l) (e * b) prod_mult G) as [E|(u & U & V & _ & C)]; auto.
  right. exists u.
  assert (u <= L + l + 53)%Z.
  { assert (B (u + 52) < B (L + l + 106)); [|apply B_lt_inv in H; lia].
    apply Rle_lt_trans with (1 := proj1 V). rewrite abs_prod.
    replace (L + l + 106)%Z with ((L + 53) + (l + 53))%Z by lia. rewrite bpow_plus.
    destruct (fmt_lsb L e Fe Le) as [_ He]. destruct (fmt_lsb l b Fb Lb) as [_ Hb].
    pose proof (B_pos L). pose proof (B_pos l).
    apply Rmult_le_0_lt_compat; try apply Rabs_pos; lra. }
  split; [lia|].
  pose proof (B_pos (L + l)).
  destruct C as [[M A]|[M A]]; split; try lra; auto.
  apply mult_le with (u + 1)%Z; auto. lia.
Qed.
Lemma prod_err_fmt : fmt (e * b - rn (e * b)).
Proof.
  destruct prod_err as [->|(u & U & _ & A)]; [apply generic_format_0|].
  apply fmt_mult with (L + l)%Z; auto.
  - apply err_mult; auto. apply prod_mult.
  - apply Rle_trans with (1 := A). assert (B u <= B (L + l + 53)) by (apply B_le; lia).
    pose proof (B_pos u). lra.
Qed.
(** the product by plus or minus a power of two is exact *)
Lemma prod_pow2 : Rabs e = B L -> rn (e * b) = e * b.
Proof.
  intros E. apply rn_id. apply fmt_mult with (L + l)%Z; auto. apply prod_mult.
  rewrite abs_prod, E. replace (L + l + 53)%Z with (L + (l + 53))%Z by lia. rewrite bpow_plus.
  apply Rmult_le_compat_l; [apply Rlt_le, B_pos|]. pose proof b_bound. pose proof (B_pos l). lra.
Qed.
End Product.

(** ** The chain of scale_expansion_zeroelim *)
Section Scale.
Variables (b : R) (l : Z).
Hypothesis Fb : fmt b.
Hypothesis Lb : lsb l b.

Record SInv (eo er o : list R) (q : R) : Prop := {
  s_Ke : K (rev er ++ eo);
  s_sum : sumR o + q = b * sumR eo;
  s_K : K o;
  s_q : fmt q;
  s_Jq : forall k, lsb k q -> JJ o k;
  s_Jr : forall e er' L, er = e :: er' -> lsb L e ->
           JJ o (L + l) /\ (Rabs (sumR eo) < / 2 * B L -> Jn o (L + l)) }.

Definition sc_s (e q : R) : R := rn (q + (e * b - rn (e * b))).
Definition sc_h1 (e q : R) : R := q + (e * b - rn (e * b)) - sc_s e q.
Definition sc_q (e q : R) : R := rn (rn (e * b) + sc_s e q).
Definition sc_h2 (e q : R) : R := rn (e * b) + sc_s e q - sc_q e q.

Lemma common_grid : forall o x y k, fmt x -> (forall j, lsb j x -> JJ o j) -> mult k y -> JJ o k -> (-1074 <= k)%Z ->
  exists t, (-1074 <= t)%Z /\ mult t x /\ mult t y /\ JJ o t.
Proof.
  intros o x y k Fx Jx My Jy T. destruct (Req_dec x 0) as [->|N].
  - exists k. split; auto. split; [apply mult_0|]. auto.
  - destruct (fmt_lsb_ex x Fx N) as (j & Lj & Tj).
    destruct (Z_le_gt_dec j k) as [C|C].
    + exists j. split; auto. split; [apply lsb_mult; auto|]. split; auto. apply mult_le with k; auto.
    + exists k. split; auto. split; [|auto]. apply mult_le with j; [lia|]. apply lsb_mult; auto.
Qed.

Lemma SInv_step : forall eo e er o q L, SInv eo (e :: er) o q -> lsb L e -> (-1074 <= L + l)%Z ->
  SInv (e :: eo) er (emit (sc_h2 e q) (emit (sc_h1 e q) o)) (sc_q e q) /\
  Rabs (sc_s e q) <= Rabs (rn (e * b)).
Proof.
  intros eo e er o q L [Ke S HK Fq Jq Jr] Le G.
  destruct (Jr e er L eq_refl Le) as [Jk Jh]. clear Jr.
  rewrite rev_cons_app in Ke.
  assert (KE : K (e :: eo)) by (apply K_tail in Ke; exact Ke).
  destruct KE as (Ne & Fe & Keo & KJ).
  destruct (KJ L Le) as [KL _]. pose proof (J_34 _ _ KL) as T34.
  set (k := (L + l)%Z) in *.
  set (p1 := rn (e * b)) in *. set (p0 := e * b - p1) in *.
  assert (Mp : mult k (e * b)) by (apply prod_mult; auto).
  assert (Mp1 : mult k p1) by (apply rn_mult; auto).
  assert (Mp0 : mult k p0) by (apply err_mult; auto).
  assert (Fp1 : fmt p1) by apply rn_fmt.
  assert (Fp0 : fmt p0) by (apply (prod_err_fmt e b L l); auto).
  assert (Np1 : p1 <> 0).
  { apply rn_nz; [apply mult_le with k; auto|]. apply (prod_nz e b L l); auto. }
  pose proof (B_pos L) as BL. pose proof (B_pos l) as Bl. pose proof (B_pos k) as Bk.
  assert (Ek : B k = B L * B l) by (unfold k; apply bpow_plus).
  assert (Ek53 : forall x, B (x + l + 53) = B x * B (l + 53)) by (intros; rewrite <- Z.add_assoc; apply bpow_plus).
  pose proof (Bl_le_b b l Lb) as b1. pose proof (b_bound b l Fb Lb) as b2.
  set (T := sumR eo) in *.
  assert (Ab : Rabs (b * T) = Rabs b * Rabs T) by apply Rabs_mult.
  assert (bT1 : Rabs (b * T) <= / 4 * 3 * (B L * Rabs b)).
  { rewrite Ab. pose proof (Rabs_pos b). nra. }
  assert (bT2 : Rabs (b * T) < / 4 * 3 * B (k + 53)).
  { unfold k. rewrite Ek53. assert (B L * Rabs b < B L * B (l + 53)) by (apply Rmult_lt_compat_l; lra). lra. }
  assert (BkX : B k <= B L * Rabs b) by (rewrite Ek; apply Rmult_le_compat_l; lra).
  assert (So : Rabs (sumR o) < / 4 * 3 * B k) by (apply J_34; apply Jk).
  assert (Qb : Rabs q <= Rabs (b * T) + Rabs (sumR o)).
  { replace q with (b * T + - sumR o) by lra. pose proof (Rabs_triang (b * T) (- sumR o)).
    rewrite Rabs_Ropp in H. lra. }
  assert (E1 : rn (e * b) = p1) by reflexivity.
  assert (E0 : e * b - rn (e * b) = p0) by reflexivity.
  unfold sc_h2, sc_q, sc_h1, sc_s. rewrite !E0, !E1. clear E0 E1.
  set (s := rn (q + p0)) in *.
  set (h1 := q + p0 - s) in *.
  set (o1 := emit h1 o).
  destruct (fmt_lsb_ex p1 Fp1 Np1) as (j & Lj & Tj).
  assert (kj : (k <= j)%Z) by (apply (mult_lsb k j p1); auto).
  (* first addition *)
  assert (ST1 : K o1 /\ fmt s /\ (forall i, lsb i s -> JJ o1 i) /\ JJ o1 j /\
    sumR o1 + s = b * T + p0 /\ Rabs s <= Rabs p1 /\
    (p0 = 0 -> o1 = o) /\
    (p0 <> 0 -> 3 * B L <= Rabs e)).
  { assert (Fs : fmt s) by apply rn_fmt.
    destruct (Req_dec p0 0) as [Z|NZ].
    - assert (Es : s = q) by (unfold s; rewrite Z, Rplus_0_r; apply rn_id; auto).
      assert (Eh : h1 = 0) by (unfold h1; rewrite Es, Z; lra).
      assert (Eo : o1 = o) by (unfold o1, emit; rewrite Eh; destruct (Req_EM_T 0 0); auto; lra).
      clear Eh. clearbody o1 h1 s. subst s o1. split; auto. split; auto. split; auto.
      split; [apply JJ_le with k; auto|]. split; [lra|].
      split; [|split; [auto|intros; tauto]].
      assert (Ep : p1 = e * b) by (unfold p0 in Z; lra).
      rewrite Ep, Rabs_mult.
      destruct (lsb_3 L e Le) as [Eb|E3].
      + rewrite Eb. set (X := B L * Rabs b) in *.
        destruct (Rle_lt_dec (Rabs q) X) as [C|C]; auto. exfalso.
        assert (MX : mult k X).
        { unfold X, k. apply mult_mul; [apply mult_B; lia|apply mult_abs, lsb_mult; auto]. }
        assert (Nq : q <> 0) by (intro; subst q; rewrite Rabs_R0 in C; lra).
        destruct (fmt_lsb_ex q Fq Nq) as (i & Li & Ti).
        destruct (Jq i Li) as [Ji _]. apply J_34 in Ji.
        pose proof (lsb_ge i q Li) as Gi.
        destruct (Z_le_gt_dec i k) as [D|D].
        * assert (X + B i <= Rabs q).
          { apply mult_gap; auto. apply mult_le with k; auto. apply mult_abs, lsb_mult; auto. }
          pose proof (B_pos i). lra.
        * assert (Mq : mult (k + 1) (Rabs q)).
          { apply mult_le with i; [lia|]. apply mult_abs, lsb_mult; auto. }
          assert (2 * B k <= B i) by (apply B_le1; lia).
          destruct (Rle_lt_dec (4 * B k) (Rabs q)) as [W|W]; [lra|].
          assert (Rabs q <= 2 * B k).
          { destruct (Rle_lt_dec (Rabs q) (2 * B k)) as [Y|Y]; auto. exfalso.
            assert (B (k + 1) + B (k + 1) <= Rabs q).
            { apply mult_gap; auto. apply mult_B; lia. rewrite B_succ; auto. }
            rewrite B_succ in H0. lra. }
          assert (X <= B k).
          { destruct (Rle_lt_dec X (B k)) as [Y|Y]; auto. exfalso.
            assert (B k + B k <= X) by (apply mult_gap; auto; apply mult_B; lia). lra. }
          lra.
      + assert (3 * (B L * Rabs b) <= Rabs e * Rabs b).
        { rewrite <- Rmult_assoc. apply Rmult_le_compat_r; [apply Rabs_pos|auto]. }
        lra.
    - assert (E3 : 3 * B L <= Rabs e).
      { destruct (lsb_3 L e Le) as [Eb|E3]; auto. exfalso. apply NZ. unfold p0, p1.
        rewrite (prod_pow2 e b L l); auto. lra. }
      assert (X3 : 3 * (B L * Rabs b) <= Rabs (e * b)).
      { rewrite Rabs_mult, <- Rmult_assoc. apply Rmult_le_compat_r; [apply Rabs_pos|auto]. }
      assert (P0 : Rabs p0 <= / 9007199254740992 * Rabs (e * b)).
      { apply rn_rel. apply mult_le with k; auto. }
      destruct (prod_err e b L l Fe Fb Le Lb G) as [E|(u & U & Mu & A)]; [tauto|].
      fold p1 in Mu, A. fold p0 in A.
      assert (uj : (u <= j)%Z) by (apply (mult_lsb u j p1); auto).
      assert (A' : Rabs p0 <= / 2 * B j) by (assert (B u <= B j) by (apply B_le; auto); lra).
      destruct (common_grid o q p0 k Fq Jq Mp0 Jk G) as (t & Tt & Mq & Mt & Jt).
      assert (Mv : mult t (q + p0)) by (apply mult_add; auto).
      assert (Sv : sumR o + (q + p0) = b * T + p0) by lra.
      assert (Ss : Rabs s <= Rabs p1).
      { pose proof (rn_rel (q + p0)) as R1. fold s in R1.
        assert (M1 : mult (-1074) (q + p0)) by (apply mult_le with t; auto). specialize (R1 M1).
        pose proof (Rabs_triang q p0).
        assert (Rabs s <= Rabs (q + p0) + Rabs (q + p0 - s)).
        { replace s with ((q + p0) + - (q + p0 - s)) at 1 by lra.
          pose proof (Rabs_triang (q + p0) (- (q + p0 - s))). rewrite Rabs_Ropp in H0. lra. }
        assert (Rabs (e * b) <= Rabs p1 + Rabs p0).
        { replace (e * b) with (p1 + p0) by (unfold p0; lra). apply Rabs_triang. }
        lra. }
      assert (Jnj : Jn o j) by (apply J_lt with k; [apply Jk|lia]).
      unfold o1, emit. destruct (Req_EM_T h1 0) as [Ez|Nz].
      + assert (Es : s = q + p0) by (unfold h1 in Ez; lra).
        split; auto. split; auto. split.
        { intros i Li. apply JJ_le with t; auto. apply (mult_lsb t i s); auto. rewrite Es; auto. }
        split; [apply JJ_le with k; auto|]. split; [lra|]. split; auto.
      + split; [apply step_K with t; auto|]. split; auto. split.
        { intros i Li. destruct (step_Q o t (q + p0) i) as [A1 A2]; auto; [apply Jt|].
          split; auto. apply Jn_J; auto. }
        split.
        { assert (BD : Rabs (sumR o + (q + p0)) < B (j + 53) + / 2 * B j).
          { rewrite Sv. pose proof (Rabs_triang (b * T) p0).
            assert (B (k + 53) <= B (j + 53)) by (apply B_le; lia). pose proof (B_pos (k + 53)). lra. }
          destruct (step_rem o t (q + p0) j (proj1 Jt) Tt Mv (or_introl Jnj) BD Nz Tj) as [[C1 C2]|(C1 & C2 & C3 & C4)].
          - split; auto. apply Jn_J; auto.
          - fold s in C3. fold h1 in C3. split; [right; split; auto|simpl; rewrite C3; pose proof (B_pos j); lra].
            destruct (Z_le_gt_dec (k + 2) j) as [D|D]; [apply J_lt2 with k; [apply Jk|lia]|].
            exfalso. assert (j = k + 1)%Z by lia. subst j.
            replace (k + 1 + 52)%Z with (k + 53)%Z in C4 by lia.
            pose proof (Rabs_triang q p0). rewrite B_succ in A'.
            rewrite B_53 in *. lra. }
        split; [simpl; unfold h1; lra|]. split; auto. split; [intros; tauto|intros; auto]. }
  destruct ST1 as (K1 & Fs & J1 & J1j & S1 & Ss & O0 & E3).
  split; [|exact Ss].
  (* second addition *)
  set (v := p1 + s) in *.
  set (q' := rn v) in *.
  destruct (common_grid o1 s p1 j Fs J1 (lsb_mult _ _ Lj) J1j Tj) as (t & Tt & Ms & Mt & Jt).
  assert (Mv : mult t v) by (apply mult_add; auto).
  assert (Sv : sumR o1 + v = b * (T + e)) by (unfold v, p0 in *; lra).
  constructor.
  - exact Ke.
  - unfold emit. destruct (Req_EM_T (v - q') 0); simpl; fold T; lra.
  - unfold emit. destruct (Req_EM_T (v - q') 0) as [Z|NZ]; auto. apply step_K with t; auto.
  - apply rn_fmt.
  - intros i Li. unfold emit. destruct (Req_EM_T (v - q') 0) as [Z|NZ].
    + apply JJ_le with t; auto. apply (mult_lsb t i q'); auto. unfold q'. apply rn_mult; auto.
    + destruct (step_Q o1 t v i (proj1 Jt) Tt Mv NZ Li) as [A1 A2]. split; auto. apply Jn_J; auto.
  - intros e' er' L' Eer Le'. subst er.
    set (k' := (L' + l)%Z).
    assert (HK' : K (e' :: e :: eo)).
    { simpl in Ke. rewrite <- app_assoc in Ke. apply K_tail in Ke. exact Ke. }
    destruct HK' as (_ & _ & _ & KJ'). destruct (KJ' L' Le') as [J' B'].
    simpl in B'. pose proof (lsb_ge L e Le) as eL.
    assert (LL : (L < L')%Z) by (apply B_lt_inv; lra).
    assert (kk : (k + 1 <= k')%Z) by (unfold k, k'; lia).
    assert (kB : 2 * B k <= B k') by (apply B_le1; auto).
    assert (Bk' := B_pos k').
    assert (Ek' : B k' = B L' * B l) by (unfold k'; apply bpow_plus).
    assert (Ek2 : B (k' + 53) = B L' * B (l + 53)) by (unfold k'; apply Ek53).
    pose proof (B_pos L') as BL'.
    assert (Sum : sumR (e :: eo) = T + e) by (simpl; fold T; lra).
    assert (Abs : Rabs (b * (T + e)) = Rabs b * Rabs (T + e)) by apply Rabs_mult.
    pose proof (J_34 _ _ (proj1 Jt)) as S1t.
    assert (V0 : Rabs v <= Rabs (b * (T + e)) + Rabs (sumR o1)).
    { replace v with (b * (T + e) + - sumR o1) by lra.
      pose proof (Rabs_triang (b * (T + e)) (- sumR o1)). rewrite Rabs_Ropp in H. lra. }
    assert (below_o : below_grid o k').
    { apply below_le with k; [apply Jk|lia]. }
    (* the first part of the claim, with the sum small *)
    assert (Main : Rabs (T + e) < / 2 * B L' -> Jn (emit (v - q') o1) k' /\ below_grid (emit (v - q') o1) k').
    { intros Hs.
      assert (I1 : Rabs (sumR o1) < / 2 * B k' /\ below_grid o1 k').
      { destruct (Req_dec p0 0) as [Z|NZ].
        - rewrite (O0 Z). split; auto. lra.
        - specialize (E3 NZ).
          assert (T4 : Rabs T < / 4 * Rabs e) by lra.
          assert (E4 : Rabs e <= / 3 * 4 * Rabs (T + e)).
          { assert (Rabs e <= Rabs (T + e) + Rabs T); [|lra].
            replace e with (T + e + - T) at 1 by lra.
            pose proof (Rabs_triang (T + e) (- T)). rewrite Rabs_Ropp in H. lra. }
          assert (L3 : (L + 3 <= L')%Z).
          { assert (B (L + 2) < B L'); [rewrite B_plus2; lra|apply B_lt_inv in H; lia]. }
          assert (k3 : 8 * B k <= B k').
          { replace 8 with (B 3) by reflexivity. rewrite <- bpow_plus. apply B_le. unfold k, k'. lia. }
          assert (L8 : 8 * B L <= B L').
          { replace 8 with (B 3) by reflexivity. rewrite <- bpow_plus. apply B_le. lia. }
          assert (bT3 : Rabs (b * T) <= / 32 * 3 * B (k' + 53)).
          { rewrite Ab, Ek2.
            assert (Rabs b * Rabs T <= B (l + 53) * (/ 32 * 3 * B L')); [|lra].
            apply Rmult_le_compat; try apply Rabs_pos; lra. }
          assert (P0 : Rabs p0 <= B k').
          { assert (Rabs p0 <= / 9007199254740992 * Rabs (e * b)) by (apply rn_rel; apply mult_le with k; auto).
            assert (Rabs (e * b) <= B (k' + 53)).
            { rewrite Rabs_mult, Ek2. apply Rmult_le_compat; try apply Rabs_pos; lra. }
            rewrite B_53 in *. lra. }
          assert (H1 : Rabs h1 <= / 8 * B k').
          { assert (M1 : mult (-1074) (q + p0)).
            { apply mult_add; apply fmt_min; auto. }
            pose proof (rn_rel (q + p0) M1) as R1. fold s in R1. fold h1 in R1.
            pose proof (Rabs_triang q p0). rewrite B_53 in *. lra. }
          unfold o1, emit. destruct (Req_EM_T h1 0).
          + split; auto. lra.
          + simpl. pose proof (Rabs_triang h1 (sumR o)). split; lra. }
      destruct I1 as [I1 I2].
      assert (V : Rabs v < B (k' + 52)).
      { assert (Rabs (b * (T + e)) <= / 2 * B (k' + 53) - / 2 * B k').
        { rewrite Abs, Ek2, Ek'.
          assert (Rabs b * Rabs (T + e) <= (B (l + 53) - B l) * (/ 2 * B L')); [|lra].
          apply Rmult_le_compat; try apply Rabs_pos; lra. }
        rewrite B_53 in *. rewrite B_52. lra. }
      unfold emit. destruct (Req_EM_T (v - q') 0) as [Z|NZ]; [split; auto|].
      destruct (rn_cases t v Mv Tt) as [E|(u & U & Vu & Mh & C)]; [tauto|].
      fold q' in C.
      assert (u < k')%Z by (assert (B (u + 52) < B (k' + 52)) by lra; apply B_lt_inv in H; lia).
      assert (2 * B u <= B k') by (apply B_le1; lia).
      pose proof (B_le1 t u U). pose proof (B_pos t). pose proof (B_pos u).
      unfold Jn. simpl. pose proof (Rabs_triang (v - q') (sumR o1)).
      destruct C as [[_ C]|[_ C]]; split; lra. }
    rewrite Sum. split; [|intros Hs; apply Main; auto].
    destruct (Rlt_le_dec (Rabs (T + e)) (/ 2 * B L')) as [D|D].
    { destruct (Main D). split; auto. apply Jn_J; auto. }
    destruct J' as [J'|[J1' J2']]; [rewrite Sum in J'; lra|].
    (* [e] is half of the grid of the next component *)
    assert (EL : L' = (L + 1)%Z).
    { assert (LL' : lsb (L' - 1) e).
      { unfold lsb. rewrite B_pred. unfold Rabs in J1'. destruct (Rcase_abs e).
        - exists (-1)%Z. split; auto. lra.
        - exists 1%Z. split; auto. lra. }
      pose proof (lsb_unique _ _ _ Le LL'). lia. }
    assert (Z : p0 = 0).
    { unfold p0, p1. rewrite (prod_pow2 e b L l); auto; [lra|]. rewrite J1', EL, B_succ. lra. }
    rewrite (O0 Z) in *. clear O0 E3.
    assert (S0 : Rabs (sumR o) < / 4 * B k').
    { assert (Jn o k) by (apply Jh; rewrite EL, B_succ in J2'; unfold T; lra).
      unfold Jn in H. lra. }
    unfold emit. destruct (Req_EM_T (v - q') 0) as [Zh|NZ].
    + split; auto. apply Jn_J. unfold Jn. lra.
    + destruct (rn_cases t v Mv Tt) as [E|(u & U & Vu & Mh & C)]; [tauto|].
      fold q' in C.
      assert (T3 : Rabs (T + e) <= / 4 * 3 * B L') by (pose proof (Rabs_triang T e); unfold T in *; lra).
      assert (V : Rabs v < B (k' + 53)).
      { assert (Rabs (b * (T + e)) <= / 4 * 3 * B (k' + 53)).
        { rewrite Abs, Ek2.
          assert (Rabs b * Rabs (T + e) <= B (l + 53) * (/ 4 * 3 * B L')); [|lra].
          apply Rmult_le_compat; try apply Rabs_pos; lra. }
        rewrite B_53 in *. lra. }
      assert (u <= k')%Z by (assert (B (u + 52) < B (k' + 53)) by lra; apply B_lt_inv in H; lia).
      assert (B u <= B k') by (apply B_le; auto).
      pose proof (B_le1 t u U). pose proof (B_pos t). pose proof (B_pos u).
      pose proof (Rabs_triang (v - q') (sumR o)).
      destruct C as [[_ C]|[_ C]].
      * split; [left; simpl; lra|simpl; lra].
      * split; [|simpl; lra].
        destruct (Z.eq_dec u k') as [->|N]; [right; simpl; split; auto|].
        left. assert (2 * B u <= B k') by (apply B_le1; lia). simpl. lra.
Qed.
End Scale.
