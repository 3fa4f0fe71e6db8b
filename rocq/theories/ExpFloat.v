(** The f64 expansion operations of Expansion.v follow the real chains of
    ExpReal.v: error-free transformations, finiteness, sums, scaling,
    products. *)
From Coq Require Import ZArith Reals List Bool Lia Lra Psatz.
From Flocq Require Import Core BinarySingleNaN Plus_error Pff.Pff2Flocq.
From Verif Require Import F64 F64Facts Expansion ExpReal ExpSpec.
Import ListNotations.
Local Open Scope R_scope.

Notation fin := is_finite.

Lemma val_fmt : forall a : f64, fmt (val a).
Proof. intros a. exact (generic_format_B2R prec emax a). Qed.

(** ** The operations on finite results *)
Lemma fadd_ok : forall a b, fin (fadd a b) = true ->
  fin a = true /\ fin b = true /\ val (fadd a b) = rn (val a + val b).
Proof.
  intros a b H.
  assert (F : fin a = true /\ fin b = true).
  { destruct a as [s|s| |s m e h], b as [s'|s'| |s' m' e' h']; simpl in *; auto; try discriminate.
    destruct (Bool.eqb s s'); discriminate. }
  destruct F as [Fa Fb]. split; auto. split; auto.
  pose proof (Bplus_correct prec emax _ _ mode_NE a b Fa Fb) as C. simpl round_mode in C.
  unfold fadd in *. destruct (Rlt_bool _ _).
  - destruct C as [C _]. exact C.
  - destruct C as [C _]. rewrite overflow_NE in C. apply B2SF_inf in C. discriminate (eq_trans (eq_sym H) (f_equal is_finite C)).
Qed.
Lemma fsub_ok : forall a b, fin (fsub a b) = true ->
  fin a = true /\ fin b = true /\ val (fsub a b) = rn (val a - val b).
Proof.
  intros a b H.
  assert (F : fin a = true /\ fin b = true).
  { destruct a as [s|s| |s m e h], b as [s'|s'| |s' m' e' h']; simpl in *; auto; try discriminate.
    destruct (Bool.eqb s (negb s')); discriminate. }
  destruct F as [Fa Fb]. split; auto. split; auto.
  pose proof (Bminus_correct prec emax _ _ mode_NE a b Fa Fb) as C. simpl round_mode in C.
  unfold fsub in *. destruct (Rlt_bool _ _).
  - destruct C as [C _]. exact C.
  - destruct C as [C _]. rewrite overflow_NE in C. apply B2SF_inf in C. discriminate (eq_trans (eq_sym H) (f_equal is_finite C)).
Qed.
Lemma fmul_ok : forall a b, fin (fmul a b) = true ->
  fin a = true /\ fin b = true /\ val (fmul a b) = rn (val a * val b).
Proof.
  intros a b H.
  assert (F : fin a = true /\ fin b = true).
  { destruct a as [s|s| |s m e h], b as [s'|s'| |s' m' e' h']; simpl in *; auto; try discriminate. }
  destruct F as [Fa Fb]. split; auto. split; auto.
  pose proof (Bmult_correct prec emax _ _ mode_NE a b) as C. simpl round_mode in C.
  unfold fmul in *. destruct (Rlt_bool _ _).
  - destruct C as [C _]. exact C.
  - rewrite overflow_NE in C. apply B2SF_inf in C. discriminate (eq_trans (eq_sym H) (f_equal is_finite C)).
Qed.
Lemma fneg_fin : forall a, fin (fneg a) = fin a.
Proof. intros a. apply is_finite_Bopp. Qed.
Lemma fneg_val : forall a, val (fneg a) = - val a.
Proof. intros a. apply B2R_Bopp. Qed.

Lemma rn_sub_sym : forall x y, rn (x - y) = - rn (y - x).
Proof. intros. rewrite <- rn_opp. f_equal. lra. Qed.

Lemma choice_E : forall x, (fun x => negb (Z.even x)) x = negb ((fun x => negb (Z.even x)) (- (x + 1))%Z).
Proof. intros x. simpl. rewrite negb_involutive, Z.even_opp, Z.even_add. simpl. destruct (Z.even x); auto. Qed.

(** ** two_sum and the like *)
Lemma two_sum_ok : forall a b, fin (snd (two_sum a b)) = true ->
  fin a = true /\ fin b = true /\ fin (fst (two_sum a b)) = true /\
  val (fst (two_sum a b)) = rn (val a + val b) /\
  val (snd (two_sum a b)) = val a + val b - rn (val a + val b).
Proof.
  intros a b H. simpl in *.
  destruct (fadd_ok _ _ H) as (F1 & F2 & V).
  destruct (fsub_ok _ _ F1) as (Fa & F3 & V1). destruct (fsub_ok _ _ F2) as (Fb & F4 & V2).
  destruct (fsub_ok _ _ F3) as (Fx & F5 & V3). destruct (fsub_ok _ _ F4) as (_ & _ & V4).
  destruct (fadd_ok _ _ Fx) as (_ & _ & Vx).
  split; auto. split; auto. split; auto. split; auto.
  pose proof (TwoSum_correct (-1074) 53 (fun x => negb (Z.even x)) eq_refl ltac:(lia) choice_E
    (val a) (val b) (val_fmt a) (val_fmt b)) as D.
  rewrite V, V1, V2, V3, V4, Vx. lra.
Qed.
Lemma fast_two_sum_ok : forall a b, fin (snd (fast_two_sum a b)) = true ->
  fin a = true /\ fin b = true /\ fin (fst (fast_two_sum a b)) = true /\
  val (fst (fast_two_sum a b)) = rn (val a + val b) /\
  (Rabs (val b) <= Rabs (val a) ->
   val (snd (fast_two_sum a b)) = val a + val b - rn (val a + val b)).
Proof.
  intros a b H. simpl in *.
  destruct (fsub_ok _ _ H) as (Fb & F2 & V).
  destruct (fsub_ok _ _ F2) as (Fx & Fa & V1). destruct (fadd_ok _ _ Fx) as (_ & _ & Vx).
  split; auto. split; auto. split; auto. split; auto. intros L.
  pose proof (Fast2Sum_correct (-1074) 53 (fun x => negb (Z.even x)) eq_refl ltac:(lia) choice_E
    (val a) (val b) (val_fmt a) (val_fmt b) L) as D.
  rewrite V, V1, Vx. rewrite (rn_sub_sym (rn (val a + val b))).
  replace (val b - - rn (val a - rn (val a + val b))) with (val b + rn (val a - rn (val a + val b))) by lra. lra.
Qed.
Lemma two_diff_ok : forall a b, fin (snd (two_diff a b)) = true ->
  fin a = true /\ fin b = true /\ fin (fst (two_diff a b)) = true /\
  val (fst (two_diff a b)) = rn (val a - val b) /\
  val (snd (two_diff a b)) = val a - val b - rn (val a - val b).
Proof.
  intros a b H. simpl in *.
  destruct (fadd_ok _ _ H) as (F1 & F2 & V).
  destruct (fsub_ok _ _ F1) as (Fa & F3 & V1). destruct (fsub_ok _ _ F2) as (F4 & Fb & V2).
  destruct (fadd_ok _ _ F3) as (Fx & F5 & V3). destruct (fsub_ok _ _ F4) as (_ & _ & V4).
  destruct (fsub_ok _ _ Fx) as (_ & _ & Vx).
  split; auto. split; auto. split; auto. split; auto.
  pose proof (TwoSum_correct (-1074) 53 (fun x => negb (Z.even x)) eq_refl ltac:(lia) choice_E
    (val a) (- val b) (val_fmt a) (fmt_opp _ (val_fmt b))) as D.
  change (val a + - val b) with (val a - val b) in D.
  rewrite V, V1, V2, V3, V4, Vx. rewrite !(rn_sub_sym (rn (val a - val b)) (val a)) in D.
  replace (rn (val a - val b) - - rn (val a - rn (val a - val b)))
    with (rn (val a - val b) + rn (val a - rn (val a - val b))) in D by lra.
  replace (- val b - - rn (val a - rn (val a - val b)))
    with (rn (val a - rn (val a - val b)) - val b) in D by lra.
  lra.
Qed.
Lemma fast_two_diff_ok : forall a b, fin (snd (fast_two_diff a b)) = true ->
  fin a = true /\ fin b = true /\ fin (fst (fast_two_diff a b)) = true /\
  val (fst (fast_two_diff a b)) = rn (val a - val b) /\
  (Rabs (val b) <= Rabs (val a) ->
   val (snd (fast_two_diff a b)) = val a - val b - rn (val a - val b)).
Proof.
  intros a b H. simpl in *.
  destruct (fsub_ok _ _ H) as (F2 & Fb & V).
  destruct (fsub_ok _ _ F2) as (Fa & Fx & V1). destruct (fsub_ok _ _ Fx) as (_ & _ & Vx).
  split; auto. split; auto. split; auto. split; auto. intros L.
  rewrite <- (Rabs_Ropp (val b)) in L.
  pose proof (Fast2Sum_correct (-1074) 53 (fun x => negb (Z.even x)) eq_refl ltac:(lia) choice_E
    (val a) (- val b) (val_fmt a) (fmt_opp _ (val_fmt b)) L) as D.
  change (val a + - val b) with (val a - val b) in D.
  rewrite V, V1, Vx.
  replace (- val b + rn (val a - rn (val a - val b))) with (rn (val a - rn (val a - val b)) - val b) in D by lra. lra.
Qed.

(** ** Rounding on the grid of the smallest subnormal does not depend on the
    exponent range *)
Lemma rn_emin : forall e v, (e <= -1074)%Z -> mult (-1074) v ->
  round radix2 (FLT_exp e 53) ZnearestE v = rn v.
Proof.
  intros e v E M.
  destruct (Z_le_gt_dec (-1074 + 53) (mag radix2 v)) as [C|C].
  - unfold round, scaled_mantissa, cexp, FLT_exp.
    replace (Z.max (mag radix2 v - 53) e) with (mag radix2 v - 53)%Z by lia.
    replace (Z.max (mag radix2 v - 53) (-1074)) with (mag radix2 v - 53)%Z by lia. reflexivity.
  - assert (V : Rabs v <= B (-1074 + 53)).
    { apply Rlt_le. destruct (Req_dec v 0) as [->|N]; [rewrite Rabs_R0; apply B_pos|].
      apply Rlt_le_trans with (B (mag radix2 v)).
      - destruct (mag radix2 v) as [x Hx]. simpl. apply Hx; auto.
      - apply B_le. lia. }
    pose proof (fmt_mult (-1074) v M ltac:(lia) V) as F. rewrite (rn_id v F).
    apply round_generic; try typeclasses eauto.
    revert F. apply generic_inclusion_mag. intros _. unfold FLT_exp. lia.
Qed.

Lemma splitter_val : val splitter = B 27 + 1.
Proof.
  change (val splitter) with (F2R (Float radix2 4503599660924928 (-25))).
  unfold F2R. simpl Fnum. simpl Fexp. change (B 27) with 134217728.
  replace 4503599660924928 with (134217729 * B 25) by (change (B 25) with 33554432; lra).
  rewrite Rmult_assoc, <- bpow_plus. simpl. lra.
Qed.

Section Dek.
Variables (x y : R) (L l : Z).
Hypothesis Fx : fmt x.
Hypothesis Fy : fmt y.
Hypothesis Mx : mult L x.
Hypothesis My : mult l y.
Hypothesis TL : (-1074 <= L)%Z.
Hypothesis Tl : (-1074 <= l)%Z.
Hypothesis G : (-1074 <= L + l)%Z.

Let hi z := rn (rn (z * (B 27 + 1)) - rn (rn (z * (B 27 + 1)) - z)).
Let lo z := rn (z - hi z).

Lemma C_mult : forall k z, mult k z -> mult k (z * (B 27 + 1)).
Proof.
  intros k z [n ->]. exists (n * 134217729)%Z. rewrite mult_IZR. change (B 27) with 134217728. lra.
Qed.
Lemma hi_mult : forall k z, (-1074 <= k)%Z -> mult k z -> mult k (hi z).
Proof.
  intros k z T M. unfold hi. repeat (apply rn_mult; auto; try apply mult_sub; auto); apply C_mult; auto.
Qed.
Lemma lo_mult : forall k z, (-1074 <= k)%Z -> mult k z -> mult k (lo z).
Proof. intros k z T M. unfold lo. apply rn_mult; auto. apply mult_sub; auto. apply hi_mult; auto. Qed.

Lemma dekker_grid :
  let r := rn (x * y) in
  let e1 := rn (r - rn (hi x * hi y)) in
  let e2 := rn (e1 - rn (lo x * hi y)) in
  let e3 := rn (e2 - rn (hi x * lo y)) in
  r + rn (rn (lo x * lo y) - e3) = x * y.
Proof.
  set (f := round radix2 (FLT_exp (-1300) 53) ZnearestE).
  assert (Ef : forall k z, (-1074 <= k)%Z -> mult k z -> f z = rn z).
  { intros k z T M. apply rn_emin; [lia|]. apply mult_le with k; auto. }
  assert (Fx' : generic_format radix2 (FLT_exp (-1300) 53) x).
  { revert Fx. apply generic_inclusion_mag. intros _. unfold FLT_exp. lia. }
  assert (Fy' : generic_format radix2 (FLT_exp (-1300) 53) y).
  { revert Fy. apply generic_inclusion_mag. intros _. unfold FLT_exp. lia. }
  assert (P53 : Prec_gt_0 53) by reflexivity.
  pose proof (@Dekker radix2 (-1300) 53 (fun x => negb (Z.even x)) ltac:(lia) ltac:(lia) y x Fy' Fx' (or_introl eq_refl)) as D.
  cbv zeta in D. destruct D as [D _]. change (round radix2 (FLT_exp (-1300) 53) ZnearestE) with f in D.
  change (53 - Z.div2 53)%Z with 27%Z in D.
  assert (Hh : forall k z, (-1074 <= k)%Z -> mult k z ->
     f (f (z - f (z * (B 27 + 1))) + f (z * (B 27 + 1))) = hi z).
  { intros k z T M. unfold hi.
    assert (C := C_mult k z M).
    rewrite !(Ef k (z * (B 27 + 1))) by auto.
    rewrite (Ef k (z - _)) by (auto; apply mult_sub; auto; apply rn_mult; auto).
    rewrite (Ef k) by (auto; apply mult_add; apply rn_mult; auto; apply mult_sub; auto; apply rn_mult; auto).
    f_equal. rewrite (rn_sub_sym z). lra. }
  rewrite (Hh L x TL Mx), (Hh l y Tl My) in D.
  assert (Hhx := hi_mult L x TL Mx). assert (Hhy := hi_mult l y Tl My).
  rewrite (Ef L (x - hi x)), (Ef l (y - hi y)) in D by (auto; apply mult_sub; auto).
  fold (lo x) (lo y) in D.
  assert (Hlx := lo_mult L x TL Mx). assert (Hly := lo_mult l y Tl My).
  set (g := (L + l)%Z) in *.
  assert (M1 : mult g (y * x)) by (rewrite Rmult_comm; apply mult_mul; auto).
  assert (M2 : mult g (hi y * hi x)) by (rewrite Rmult_comm; apply mult_mul; auto).
  assert (M3 : mult g (hi y * lo x)) by (rewrite Rmult_comm; apply mult_mul; auto).
  assert (M4 : mult g (lo y * hi x)) by (rewrite Rmult_comm; apply mult_mul; auto).
  assert (M5 : mult g (lo y * lo x)) by (rewrite Rmult_comm; apply mult_mul; auto).
  rewrite (Ef g _ G M1), (Ef g _ G M2), (Ef g _ G M3), (Ef g _ G M4), (Ef g _ G M5) in D.
  assert (N1 := rn_mult g _ M1 G). assert (N2 := rn_mult g _ M2 G). assert (N3 := rn_mult g _ M3 G).
  assert (N4 := rn_mult g _ M4 G). assert (N5 := rn_mult g _ M5 G).
  assert (O1 : mult g (- rn (y * x) + rn (hi y * hi x))) by (apply mult_add; auto; apply mult_opp; auto).
  rewrite (Ef g _ G O1) in D. assert (P1 := rn_mult g _ O1 G).
  assert (O2 : mult g (rn (- rn (y * x) + rn (hi y * hi x)) + rn (hi y * lo x))) by (apply mult_add; auto).
  rewrite (Ef g _ G O2) in D. assert (P2 := rn_mult g _ O2 G).
  match type of D with context [f (rn ?a + rn (lo y * hi x))] =>
    assert (O3 : mult g (rn a + rn (lo y * hi x))) by (apply mult_add; auto) end.
  rewrite (Ef g _ G O3) in D. assert (P3 := rn_mult g _ O3 G).
  match type of D with context [f (rn ?a + rn (lo y * lo x))] =>
    assert (O4 : mult g (rn a + rn (lo y * lo x))) by (apply mult_add; auto) end.
  rewrite (Ef g _ G O4) in D.
  cbv zeta. rewrite (Rmult_comm x y), (Rmult_comm (hi x)), (Rmult_comm (lo x) (hi y)), (Rmult_comm (hi x)), (Rmult_comm (lo x)).
  symmetry. etransitivity; [apply D|].
  2:{ f_equal.
    replace (- rn (y * x) + rn (hi y * hi x)) with (- (rn (y * x) - rn (hi y * hi x))) by lra.
    rewrite rn_opp.
    replace (- rn (rn (y * x) - rn (hi y * hi x)) + rn (hi y * lo x))
      with (- (rn (rn (y * x) - rn (hi y * hi x)) - rn (hi y * lo x))) by lra.
    rewrite rn_opp.
    match goal with |- rn (rn (- rn ?a + ?b) + _) = _ => replace (- rn a + b) with (- (rn a - b)) by lra end.
    rewrite rn_opp. f_equal. lra. }
  destruct (Req_dec (y * x) 0) as [Z|Z]; [left; auto|right].
    change (-1300 + 2 * 53 - 1)%Z with (-1195)%Z.
    apply Rle_trans with (B g); [apply B_le; lia|]. apply mult_nz; auto.
Qed.
End Dek.

(** ** Products *)
Lemma split_ok : forall a, fin (snd (split a)) = true ->
  fin a = true /\ fin (fst (split a)) = true /\
  val (fst (split a)) = rn (rn (val a * (B 27 + 1)) - rn (rn (val a * (B 27 + 1)) - val a)) /\
  val (snd (split a)) = rn (val a - val (fst (split a))).
Proof.
  intros a H. unfold split in *. cbv zeta in *. cbn [fst snd] in *.
  destruct (fsub_ok _ _ H) as (Fa & F1 & V). destruct (fsub_ok _ _ F1) as (F2 & F3 & V1).
  destruct (fsub_ok _ _ F3) as (_ & _ & V3). destruct (fmul_ok _ _ F2) as (_ & _ & V2).
  split; auto. split; auto. rewrite V, V1, V3, V2, splitter_val.
  rewrite (Rmult_comm (B 27 + 1)). auto.
Qed.

Definition pps a b := two_product_pre_split a b (fst (split b)) (snd (split b)).

Lemma pps_ok : forall a b, fin (snd (pps a b)) = true ->
  fin a = true /\ fin b = true /\ fin (fst (pps a b)) = true /\
  val (fst (pps a b)) = rn (val a * val b) /\
  (forall L l, mult L (val a) -> mult l (val b) -> (-1074 <= L)%Z -> (-1074 <= l)%Z -> (-1074 <= L + l)%Z ->
   val (snd (pps a b)) = val a * val b - rn (val a * val b)).
Proof.
  intros a b H. unfold pps, two_product_pre_split in *.
  destruct (split a) as [ahi alo] eqn:Ea. destruct (split b) as [bhi blo] eqn:Eb.
  cbn [fst snd] in *.
  destruct (fsub_ok _ _ H) as (F1 & F2 & V). destruct (fmul_ok _ _ F1) as (Fal & Fbl & V1).
  destruct (fsub_ok _ _ F2) as (F3 & F4 & V2). destruct (fmul_ok _ _ F4) as (Fah & _ & V4).
  destruct (fsub_ok _ _ F3) as (F5 & F6 & V3). destruct (fmul_ok _ _ F6) as (_ & Fbh & V6).
  destruct (fsub_ok _ _ F5) as (F7 & F8 & V5). destruct (fmul_ok _ _ F7) as (Fa & Fb & V7).
  destruct (fmul_ok _ _ F8) as (_ & _ & V8).
  split; auto. split; auto. split; auto. split; auto.
  intros L l Ma Mb TL Tl G.
  pose proof (split_ok a) as Sa. rewrite Ea in Sa. cbn [fst snd] in Sa. destruct (Sa Fal) as (_ & _ & A1 & A2).
  pose proof (split_ok b) as Sb. rewrite Eb in Sb. cbn [fst snd] in Sb. destruct (Sb Fbl) as (_ & _ & B1 & B2).
  pose proof (dekker_grid (val a) (val b) L l (val_fmt a) (val_fmt b) Ma Mb TL Tl G) as D.
  cbv zeta beta in D. rewrite <- A1, <- B1, <- A2, <- B2 in D.
  rewrite V, V1, V2, V4, V3, V6, V5, V7, V8. lra.
Qed.

Lemma two_product_pps : forall a b, two_product a b = pps a b.
Proof.
  intros. unfold two_product, pps, two_product_pre_split.
  destruct (split a), (split b). reflexivity.
Qed.

(** ** Lists of components *)
Definition vals (l : list f64) : list R := map (fun a : f64 => val a) l.
Definition allfin (l : list f64) : Prop := Forall (fun a : f64 => fin a = true) l.
Definition chain (gs : list R) (st : R * list R) : R * list R :=
  fold_left (fun '(q, o) g => (rn (q + g), emit (q + g - rn (q + g)) o)) gs st.
Definition fin_out (q : R) (o : list R) : list R :=
  if Req_EM_T q 0 then match o with [] => [0] | _ => o end else q :: o.

Lemma vals_app : forall a b, vals (a ++ b) = vals a ++ vals b.
Proof. intros. apply map_app. Qed.
Lemma allfin_app : forall a b, allfin (a ++ b) <-> allfin a /\ allfin b.
Proof. intros. apply Forall_app. Qed.

Lemma nonzero_false : forall h, nonzero h = false -> fin h = true /\ val h = 0.
Proof.
  intros h H. unfold nonzero in H. apply negb_false_iff in H.
  destruct h as [s|s| |s m e p]; simpl in *; auto; destruct s; discriminate.
Qed.
Lemma nonzero_true : forall h, fin h = true -> nonzero h = true -> val h <> 0.
Proof.
  intros h F H E. unfold nonzero in H. apply negb_true_iff in H.
  unfold feq in H. rewrite Beqb_correct in H; auto. simpl (B2R fzero) in H. rewrite E in H.
  rewrite Req_bool_true in H; [discriminate|reflexivity].
Qed.
Lemma nonzero_fin : forall h, fin h = true -> nonzero h = (if Req_EM_T (val h) 0 then false else true).
Proof.
  intros h F. destruct (nonzero h) eqn:E.
  - apply nonzero_true in E; auto. destruct (Req_EM_T (val h) 0); tauto.
  - apply nonzero_false in E. destruct E as [_ E]. destruct (Req_EM_T (val h) 0); tauto.
Qed.

Lemma push_ok : forall harr h, allfin (push_nz harr h) ->
  allfin harr /\ fin h = true /\ rev (vals (push_nz harr h)) = emit (val h) (rev (vals harr)).
Proof.
  intros harr h H. unfold push_nz in *. destruct (nonzero h) eqn:E.
  - apply allfin_app in H. destruct H as [H1 H2]. inversion H2; subst.
    split; auto. split; auto. rewrite vals_app, rev_app_distr. simpl.
    apply nonzero_true in E; auto. unfold emit. destruct (Req_EM_T (val h) 0); [tauto|reflexivity].
  - apply nonzero_false in E. destruct E as [F E]. split; auto. split; auto.
    unfold emit. destruct (Req_EM_T (val h) 0); [reflexivity|tauto].
Qed.
Lemma finish_ok : forall q harr, allfin (finish q harr) ->
  allfin harr /\ fin q = true /\ rev (vals (finish q harr)) = fin_out (val q) (rev (vals harr)).
Proof.
  intros q harr H. unfold finish in *. destruct (nonzero q) eqn:E.
  - simpl in *. apply allfin_app in H. destruct H as [H1 H2]. inversion H2; subst.
    split; auto. split; auto. rewrite vals_app, rev_app_distr. simpl.
    apply nonzero_true in E; auto. unfold fin_out. destruct (Req_EM_T (val q) 0); [tauto|reflexivity].
  - apply nonzero_false in E. destruct E as [F E]. simpl in *. destruct harr as [|a l].
    + simpl. unfold fin_out. split; [constructor|]. split; auto. rewrite E. destruct (Req_EM_T 0 0); auto; tauto.
    + split; auto. split; auto. unfold fin_out. destruct (Req_EM_T (val q) 0); [|tauto].
      destruct (rev (vals (a :: l))) eqn:D; auto.
      apply (f_equal (@length R)) in D. rewrite rev_length in D. discriminate.
Qed.
Lemma finish_nonempty : forall q harr, finish q harr <> [].
Proof.
  intros q harr. unfold finish. destruct (nonzero q); simpl.
  - intros E. apply app_eq_nil in E. destruct E. discriminate.
  - destruct harr; discriminate.
Qed.

Lemma sum_loop_ok : forall gs q harr q' h', sum_loop gs q harr = (q', h') -> fin q' = true -> allfin h' ->
  fin q = true /\ allfin harr /\ allfin gs /\
  chain (vals gs) (val q, rev (vals harr)) = (val q', rev (vals h')).
Proof.
  induction gs as [|g gs IH]; intros q harr q' h' E F A.
  - inversion E; subst. split; auto. split; auto. split; [constructor|reflexivity].
  - change (sum_loop gs (fst (two_sum q g)) (push_nz harr (snd (two_sum q g))) = (q', h')) in E.
    destruct (IH _ _ _ _ E F A) as (F1 & A1 & A2 & C).
    destruct (push_ok _ _ A1) as (A3 & F2 & P).
    destruct (two_sum_ok _ _ F2) as (Fq & Fg & _ & V1 & V2).
    split; auto. split; auto. split; [constructor; auto|].
    rewrite P, V2, V1 in C. exact C.
Qed.

(** ** Merging *)
Lemma take_second_ok : forall x y, fin x = true -> fin y = true ->
  if take_second x y then Rabs (val y) <= Rabs (val x) else Rabs (val x) <= Rabs (val y).
Proof.
  intros x y Fx Fy. unfold take_second, flt.
  rewrite Bltb_correct, Bltb_correct; auto; [|rewrite fneg_fin; auto].
  rewrite fneg_val.
  destruct (Rlt_bool_spec (val y) (val x)); destruct (Rlt_bool_spec (- val y) (val x)); simpl;
    unfold Rabs; destruct (Rcase_abs (val y)), (Rcase_abs (val x)); lra.
Qed.
Lemma merge_cons : forall x e y f, merge (x :: e) (y :: f) =
  if take_second x y then y :: merge (x :: e) f else x :: merge e (y :: f).
Proof. reflexivity. Qed.
Lemma merge_nil_r : forall e, merge e [] = e.
Proof. destruct e; reflexivity. Qed.
Lemma merge_ind2 : forall P : list f64 -> list f64 -> Prop,
  (forall f, P [] f) -> (forall e, P e []) ->
  (forall x e y f, P (x :: e) f -> P e (y :: f) -> P (x :: e) (y :: f)) ->
  forall e f, P e f.
Proof.
  intros P H1 H2 H3. induction e as [|x e IH]; auto.
  induction f as [|y f IHf]; auto.
Qed.
Lemma merge_in : forall e f z, In z (merge e f) <-> In z e \/ In z f.
Proof.
  intros e f. pattern e, f. apply merge_ind2; clear e f.
  - simpl. tauto.
  - intros e z. rewrite merge_nil_r. simpl. tauto.
  - intros x e y f H1 H2 z. rewrite merge_cons. destruct (take_second x y).
    + simpl. rewrite H1. simpl. tauto.
    + simpl. rewrite H2. simpl. tauto.
Qed.
Lemma merge_length : forall e f, length (merge e f) = (length e + length f)%nat.
Proof.
  intros e f. pattern e, f. apply merge_ind2; clear e f.
  - reflexivity.
  - intros e. rewrite merge_nil_r. simpl. lia.
  - intros x e y f H1 H2. rewrite merge_cons. destruct (take_second x y); simpl in *; lia.
Qed.
Lemma merge_fin : forall e f, allfin (merge e f) <-> allfin e /\ allfin f.
Proof.
  intros e f. unfold allfin. rewrite !Forall_forall. setoid_rewrite merge_in. firstorder.
Qed.

Definition sabs (l : list f64) : Prop := forall i j, (i <= j < length l)%nat ->
  Rabs (val (nth i l fzero)) <= Rabs (val (nth j l fzero)).
Lemma sabs_cons : forall x l, sabs (x :: l) <-> (forall y, In y l -> Rabs (val x) <= Rabs (val y)) /\ sabs l.
Proof.
  intros x l. split.
  - intros H. split.
    + intros y I. apply (In_nth _ _ fzero) in I. destruct I as (n & L & <-).
      apply (H O (S n)). simpl. lia.
    + intros i j L. apply (H (S i) (S j)). simpl. lia.
  - intros [H1 H2] i j L. destruct i as [|i], j as [|j]; simpl in *; try lia; try lra.
    + apply H1. apply nth_In. lia.
    + apply H2. lia.
Qed.
Lemma merge_first : forall e f a r, allfin e -> allfin f -> sabs e -> sabs f ->
  merge e f = a :: r -> forall y, In y r -> Rabs (val a) <= Rabs (val y).
Proof.
  intros [|x e] [|y f] a r Fe Ff Se Sf E z I.
  - discriminate.
  - inversion E; subst. apply sabs_cons in Sf. apply Sf; auto.
  - inversion E; subst. apply sabs_cons in Se. apply Se; auto.
  - rewrite merge_cons in E.
    assert (T := take_second_ok x y ltac:(inversion Fe; auto) ltac:(inversion Ff; auto)).
    apply sabs_cons in Se. apply sabs_cons in Sf. destruct Se as [Se _], Sf as [Sf _].
    destruct (take_second x y); inversion E; subst.
    + apply (proj1 (merge_in (x :: e) f z)) in I. destruct I as [[->|I]|I]; auto. specialize (Se z I). lra.
    + apply (proj1 (merge_in e (y :: f) z)) in I. destruct I as [I|[->|I]]; auto. specialize (Sf z I). lra.
Qed.

Lemma K_rev_sabs : forall l o, K (rev (vals l) ++ o) -> sabs l.
Proof.
  induction l as [|x l IH]; intros o H.
  - intros i j L. simpl in L. lia.
  - simpl in H. rewrite <- app_assoc in H. simpl in H. apply sabs_cons. split; [|eapply IH; eauto].
    intros y I. assert (In (val y) (rev (vals l))) as I'.
    { apply -> in_rev. apply in_map_iff. exists y; auto. }
    apply in_split in I'. destruct I' as (a & b & E). rewrite E in H.
    rewrite <- app_assoc in H. simpl in H. apply K_tail in H.
    destruct (K_fmt _ (val y) H (or_introl eq_refl)) as [F N].
    destruct (fmt_lsb_ex _ F N) as (k & L & T).
    apply Rlt_le. apply Rlt_le_trans with (B k).
    + eapply K_sorted; [exact H|exact L|]. apply in_or_app. right. left. reflexivity.
    + apply mult_nz; auto. apply lsb_mult; auto.
Qed.

Lemma chain_cons : forall g gs q o, chain (g :: gs) (q, o) = chain gs (rn (q + g), emit (q + g - rn (q + g)) o).
Proof. reflexivity. Qed.

Lemma chain_merge : forall er fr eo fo o q, allfin er -> allfin fr ->
  Inv eo (vals er) fo (vals fr) o q ->
  exists q' o', chain (vals (merge er fr)) (q, o) = (q', o') /\
    Inv (rev (vals er) ++ eo) [] (rev (vals fr) ++ fo) [] o' q'.
Proof.
  assert (S1 : forall l eo fo o q, Inv eo (vals l) fo [] o q ->
    exists q' o', chain (vals l) (q, o) = (q', o') /\ Inv (rev (vals l) ++ eo) [] fo [] o' q').
  { induction l as [|x l IH]; intros eo fo o q I.
    - exists q, o. split; auto.
    - change (vals (x :: l)) with (val x :: vals l) in *. rewrite chain_cons.
      apply Inv_step in I; [|simpl; tauto].
      destruct (IH _ _ _ _ I) as (q' & o' & C & I'). exists q', o'. split; auto.
      rewrite rev_cons_app. exact I'. }
  intros er fr. pattern er, fr. apply merge_ind2; clear er fr.
  - intros f eo fo o q _ Ff I. apply Inv_sym in I.
    destruct (S1 _ _ _ _ _ I) as (q' & o' & C & I'). exists q', o'. split; auto. apply Inv_sym; auto.
  - intros e eo fo o q Fe _ I. rewrite merge_nil_r. apply S1. auto.
  - intros x e y f H1 H2 eo fo o q Fe Ff I.
    assert (T := take_second_ok x y ltac:(inversion Fe; auto) ltac:(inversion Ff; auto)).
    assert (Se := K_rev_sabs _ _ (i_Ke _ _ _ _ _ _ I)). assert (Sf := K_rev_sabs _ _ (i_Kf _ _ _ _ _ _ I)).
    apply sabs_cons in Se. apply sabs_cons in Sf. destruct Se as [Se _], Sf as [Sf _].
    rewrite merge_cons. destruct (take_second x y).
    + change (vals (y :: f)) with (val y :: vals f) in I. apply Inv_sym in I. apply Inv_step in I.
      * apply Inv_sym in I. destruct (H1 _ _ _ _ Fe ltac:(inversion Ff; auto) I) as (q' & o' & C & I').
        exists q', o'. split; [exact C|]. change (vals (y :: f)) with (val y :: vals f).
        rewrite (rev_cons_app (val y)). exact I'.
      * intros z J. apply in_map_iff in J. destruct J as (w & <- & [<-|J]); auto.
        specialize (Se w J). lra.
    + change (vals (x :: e)) with (val x :: vals e) in I. apply Inv_step in I.
      * destruct (H2 _ _ _ _ ltac:(inversion Fe; auto) Ff I) as (q' & o' & C & I').
        exists q', o'. split; [exact C|]. change (vals (x :: e)) with (val x :: vals e).
        rewrite (rev_cons_app (val x)). exact I'.
      * intros z J. apply in_map_iff in J. destruct J as (w & <- & [<-|J]); auto.
        specialize (Sf w J). lra.
Qed.

(** ** Expansions *)
Definition expn (l : list f64) : Prop :=
  allfin l /\ l <> [] /\ (K (rev (vals l)) \/ vals l = [0]).
Definition value (l : list f64) : R := sumR (vals l).
Definition grid (g : Z) (l : list f64) : Prop := Forall (fun a : f64 => mult g (val a)) l.

Lemma sumR_rev : forall l, sumR (rev l) = sumR l.
Proof. induction l; simpl; auto. rewrite sumR_app. simpl. rewrite IHl. lra. Qed.

Lemma expn_sabs : forall l, expn l -> sabs l.
Proof.
  intros l (_ & _ & [H|H]).
  - apply K_rev_sabs with []. rewrite app_nil_r. auto.
  - destruct l as [|x [|y l]]; simpl in H; try discriminate.
    intros i j L. simpl in L. replace i with O by lia. replace j with O by lia. lra.
Qed.

Lemma fin_out_ok : forall o q, K o -> fmt q -> (forall k, lsb k q -> JJ o k) ->
  (K (fin_out q o) \/ fin_out q o = [0]) /\ sumR (fin_out q o) = sumR o + q.
Proof.
  intros o q HK F J. unfold fin_out. destruct (Req_EM_T q 0) as [->|N].
  - destruct o as [|a o]; [split; [right; auto|simpl; lra]|split; [left; auto|lra]].
  - split; [left|simpl; lra]. split; auto.
Qed.

Lemma chain_0 : forall gs, chain (0 :: gs) (0, []) = chain gs (0, []).
Proof.
  intros gs. rewrite chain_cons. replace (0 + 0) with 0 by lra.
  assert (E : rn 0 = 0) by (apply rn_id; apply generic_format_0).
  rewrite E. unfold emit. destruct (Req_EM_T (0 - 0) 0); [reflexivity|lra].
Qed.

Lemma take_zero_first : forall x y, fin x = true -> fin y = true -> val x = 0 -> val y <> 0 ->
  take_second x y = false.
Proof.
  intros x y Fx Fy E N. unfold take_second, flt.
  rewrite Bltb_correct, Bltb_correct; auto; [|rewrite fneg_fin; auto]. rewrite fneg_val, E.
  destruct (Rlt_bool_spec (val y) 0); destruct (Rlt_bool_spec (- val y) 0); auto; lra.
Qed.
Lemma take_zero_second : forall x y, fin x = true -> fin y = true -> val y = 0 ->
  take_second x y = true.
Proof.
  intros x y Fx Fy E. unfold take_second, flt.
  rewrite Bltb_correct, Bltb_correct; auto; [|rewrite fneg_fin; auto]. rewrite fneg_val, E, Ropp_0.
  apply eqb_reflx.
Qed.

Definition strip (l : list f64) : list f64 :=
  match l with [x] => if nonzero x then l else [] | _ => l end.
Lemma expn_strip : forall l, expn l -> K (rev (vals (strip l))) /\ value (strip l) = value l /\ allfin (strip l).
Proof.
  intros l (F & N & H). destruct l as [|x [|y l]]; simpl strip.
  - tauto.
  - inversion F; subst. rewrite nonzero_fin; auto. destruct (Req_EM_T (val x) 0) as [E|E].
    + split; [simpl; auto|]. split; [unfold value; simpl; lra|constructor].
    + split; [|split; auto]. destruct H as [H|H]; auto. inversion H. tauto.
  - destruct H as [H|H]; [|discriminate]. auto.
Qed.
Lemma chain_strip : forall e f, expn e -> expn f ->
  chain (vals (merge e f)) (0, []) = chain (vals (merge (strip e) (strip f))) (0, []).
Proof.
  intros e f He Hf.
  assert (St : forall l, expn l -> strip l = l /\ K (rev (vals l)) \/ exists z, l = [z] /\ fin z = true /\ val z = 0 /\ strip l = []).
  { intros l (F & N & H). destruct l as [|x [|y l]]; [tauto| |left; destruct H as [H|H]; [auto|discriminate]].
    inversion F; subst. simpl strip. rewrite nonzero_fin; auto. destruct (Req_EM_T (val x) 0) as [E|E].
    - right. exists x. auto.
    - left. split; auto. destruct H as [H|H]; auto. inversion H. tauto. }
  destruct (St e He) as [(-> & Ke)|(z & -> & Fz & Vz & ->)]; destruct (St f Hf) as [(-> & Kf)|(w & -> & Fw & Vw & ->)].
  - reflexivity.
  - rewrite merge_nil_r. destruct e as [|x e].
    + destruct He as (_ & N & _). tauto.
    + rewrite merge_cons, take_zero_second; auto; [|destruct He as (F & _); inversion F; auto].
      rewrite merge_nil_r. simpl vals. rewrite Vw. apply chain_0.
  - destruct f as [|y f].
    + destruct Hf as (_ & N & _). tauto.
    + destruct Hf as (Ff & _ & _).
      assert (val y <> 0).
      { destruct (K_fmt _ (val y) Kf) as [_ N]; auto. apply -> in_rev. left. reflexivity. }
      rewrite merge_cons, take_zero_first; auto; [|inversion Ff; auto].
      simpl vals. rewrite Vz. apply chain_0.
  - rewrite merge_cons, take_zero_second; auto. simpl vals. rewrite Vw, Vz, !chain_0. reflexivity.
Qed.

Lemma chain_expn : forall e f, expn e -> expn f ->
  exists q o, chain (vals (merge e f)) (0, []) = (q, o) /\
    (K (fin_out q o) \/ fin_out q o = [0]) /\ sumR (fin_out q o) = value e + value f.
Proof.
  intros e f He Hf. rewrite chain_strip; auto.
  destruct (expn_strip e He) as (Ke & Ve & Fe). destruct (expn_strip f Hf) as (Kf & Vf & Ff).
  destruct (chain_merge (strip e) (strip f) [] [] [] 0 Fe Ff) as (q & o & C & I).
  { constructor; rewrite ?app_nil_r; auto; simpl; try tauto; try lra.
    - apply generic_format_0.
    - intros; apply JJ_nil.
    - intros; apply JJ_nil.
    - left. split.
      + intros k _. unfold Jn. simpl. rewrite Rabs_R0. pose proof (B_pos k). lra.
      + intros t k _ _. unfold Jn. simpl. rewrite Rabs_R0. pose proof (B_pos k). lra. }
  rewrite !app_nil_r in I. exists q, o. split; auto.
  destruct I as [_ _ _ _ S HK Fq Jq _ _].
  destruct (fin_out_ok o q HK Fq Jq) as [H1 H2]. split; auto.
  rewrite H2, S, !sumR_rev. unfold value in *. lra.
Qed.

Lemma fes_run : forall e f h, expn e -> expn f -> fast_expansion_sum_zeroelim e f = Some h -> allfin h ->
  exists q o, chain (vals (merge e f)) (0, []) = (q, o) /\ rev (vals h) = fin_out q o.
Proof.
  intros e f h He Hf E A. unfold fast_expansion_sum_zeroelim in E.
  destruct (merge e f) as [|a [|b gs]] eqn:M; [discriminate| |].
  { pose proof (merge_length e f) as L. rewrite M in L. destruct He as (_ & Ne & _), Hf as (_ & Nf & _).
    destruct e, f; simpl in L; try tauto; lia. }
  assert (O : Rabs (val a) <= Rabs (val b)).
  { apply (merge_first e f a (b :: gs)); auto; try apply He; try apply Hf; try (apply expn_sabs; auto).
    left. reflexivity. }
  change ((let '(q, harr) := sum_loop gs (fst (fast_two_sum b a)) (push_nz [] (snd (fast_two_sum b a))) in
          Some (finish q harr)) = Some h) in E.
  destruct (sum_loop gs _ _) as [q harr] eqn:SL. inversion E; subst h. clear E.
  destruct (finish_ok _ _ A) as (A1 & Fq & V).
  destruct (sum_loop_ok _ _ _ _ _ SL Fq A1) as (F1 & A2 & A3 & C).
  destruct (push_ok _ _ A2) as (_ & F2 & P).
  destruct (fast_two_sum_ok _ _ F2) as (Fb & Fa & _ & V1 & V2).
  exists (val q), (rev (vals harr)). split; auto.
  change (vals (a :: b :: gs)) with (val a :: val b :: vals gs).
  rewrite !chain_cons. rewrite Rplus_0_l, (rn_id (val a)) by apply val_fmt.
  replace (emit (val a - val a) []) with (@nil R) by (unfold emit; destruct (Req_EM_T (val a - val a) 0); [auto|lra]).
  rewrite P, V2, V1 in C by auto. rewrite (Rplus_comm (val a)). exact C.
Qed.

Theorem fes_ok : forall e f h, expn e -> expn f -> fast_expansion_sum_zeroelim e f = Some h -> allfin h ->
  expn h /\ value h = value e + value f.
Proof.
  intros e f h He Hf E A.
  destruct (fes_run e f h He Hf E A) as (q & o & C & V).
  destruct (chain_expn e f He Hf) as (q' & o' & C' & HK & S). rewrite C in C'. inversion C'; subst q' o'.
  rewrite <- V in *. split; [|unfold value at 1; rewrite <- sumR_rev; auto].
  split; auto. split.
  - intros ->. simpl in V. unfold fin_out in V. destruct (Req_EM_T q 0); [destruct o|]; discriminate.
  - destruct HK as [HK|HK]; auto. right.
    rewrite <- (rev_involutive (vals h)), HK. reflexivity.
Qed.

Lemma fes_some : forall e f, e <> [] -> f <> [] -> exists h, fast_expansion_sum_zeroelim e f = Some h /\ h <> [].
Proof.
  intros e f Ne Nf. unfold fast_expansion_sum_zeroelim. pose proof (merge_length e f) as L.
  destruct (merge e f) as [|a [|b gs]] eqn:M.
  - destruct e, f; simpl in L; try tauto; lia.
  - destruct e, f; simpl in L; try tauto; lia.
  - destruct (fast_two_sum b a). destruct (sum_loop gs _ _). eexists. split; [reflexivity|]. apply finish_nonempty.
Qed.
Lemma fes_fin : forall e f h, e <> [] -> f <> [] -> fast_expansion_sum_zeroelim e f = Some h -> allfin h ->
  allfin e /\ allfin f.
Proof.
  intros e f h Ne Nf E A. rewrite <- merge_fin. unfold fast_expansion_sum_zeroelim in E.
  destruct (merge e f) as [|a [|b gs]] eqn:M; [discriminate| |].
  { pose proof (merge_length e f) as L. rewrite M in L. destruct e, f; simpl in L; try tauto; lia. }
  change ((let '(q, harr) := sum_loop gs (fst (fast_two_sum b a)) (push_nz [] (snd (fast_two_sum b a))) in
          Some (finish q harr)) = Some h) in E.
  destruct (sum_loop gs _ _) as [q harr] eqn:SL. inversion E; subst h. clear E.
  destruct (finish_ok _ _ A) as (A1 & Fq & V).
  destruct (sum_loop_ok _ _ _ _ _ SL Fq A1) as (F1 & A2 & A3 & C).
  destruct (push_ok _ _ A2) as (_ & F2 & P).
  destruct (fast_two_sum_ok _ _ F2) as (Fb & Fa & _). repeat constructor; auto.
Qed.

(** ** Grids *)
Lemma grid_vals : forall g l, grid g l <-> Forall (mult g) (vals l).
Proof. intros. unfold grid, vals. rewrite Forall_map. reflexivity. Qed.
Lemma Forall_rev' : forall (P : R -> Prop) l, Forall P (rev l) <-> Forall P l.
Proof. intros. rewrite !Forall_forall. setoid_rewrite <- in_rev. tauto. Qed.
Lemma emit_mult : forall g h o, mult g h -> Forall (mult g) o -> Forall (mult g) (emit h o).
Proof. intros. unfold emit. destruct (Req_EM_T h 0); auto. Qed.
Lemma fin_out_mult : forall g q o, mult g q -> Forall (mult g) o -> Forall (mult g) (fin_out q o).
Proof.
  intros. unfold fin_out. destruct (Req_EM_T q 0); auto.
  destruct o; auto. repeat constructor. apply mult_0.
Qed.
Lemma chain_mult : forall g gs q o q' o', (-1074 <= g)%Z -> Forall (mult g) gs -> mult g q -> Forall (mult g) o ->
  chain gs (q, o) = (q', o') -> mult g q' /\ Forall (mult g) o'.
Proof.
  induction gs as [|x gs IH]; intros q o q' o' G F Mq Mo E.
  - inversion E; subst. auto.
  - inversion F; subst. rewrite chain_cons in E. apply IH in E; auto.
    + apply rn_mult; auto. apply mult_add; auto.
    + apply emit_mult; auto. apply err_mult; auto. apply mult_add; auto.
Qed.
Lemma fes_grid : forall g e f h, expn e -> expn f -> fast_expansion_sum_zeroelim e f = Some h -> allfin h ->
  (-1074 <= g)%Z -> grid g e -> grid g f -> grid g h.
Proof.
  intros g e f h He Hf E A G Ge Gf.
  destruct (fes_run e f h He Hf E A) as (q & o & C & V).
  apply chain_mult with (g := g) in C; auto using mult_0.
  - apply grid_vals, Forall_rev'. rewrite V. apply fin_out_mult; tauto.
  - apply grid_vals. unfold grid in *. rewrite Forall_forall in *. intros x I. apply merge_in in I. destruct I; auto.
Qed.
Lemma grid_le : forall j k l, (j <= k)%Z -> grid k l -> grid j l.
Proof. intros j k l L. apply Forall_impl. intros a. apply mult_le; auto. Qed.

(** ** Scaling *)
Definition schain (b : R) (es : list R) (st : R * list R) : R * list R :=
  fold_left (fun '(q, o) e => (sc_q b e q, emit (sc_h2 b e q) (emit (sc_h1 b e q) o))) es st.

Lemma scale_step_eq : forall b q harr e, scale_step b (fst (split b)) (snd (split b)) (q, harr) e =
  (fst (fast_two_sum (fst (pps e b)) (fst (two_sum q (snd (pps e b))))),
   push_nz (push_nz harr (snd (two_sum q (snd (pps e b)))))
     (snd (fast_two_sum (fst (pps e b)) (fst (two_sum q (snd (pps e b))))))).
Proof.
  intros. unfold scale_step. fold (pps e b). destruct (pps e b) as [p1 p0]. cbn [fst snd].
  destruct (two_sum q p0) as [s h]. cbn [fst snd]. destruct (fast_two_sum p1 s). reflexivity.
Qed.

Lemma scale_eq : forall e es b, scale_expansion_zeroelim (e :: es) b =
  let '(q, harr) := fold_left (scale_step b (fst (split b)) (snd (split b))) es
     (fst (pps e b), push_nz [] (snd (pps e b))) in Some (finish q harr).
Proof.
  intros. unfold scale_expansion_zeroelim, pps. destruct (split b) as [bhi blo]. cbn [fst snd].
  destruct (two_product_pre_split e b bhi blo). reflexivity.
Qed.

Local Opaque splitter split pps two_sum fast_two_sum.

(** What a round with finite results computes. *)
Lemma scale_step_ok : forall b q harr e q' h',
  scale_step b (fst (split b)) (snd (split b)) (q, harr) e = (q', h') -> fin q' = true -> allfin h' ->
  fin q = true /\ allfin harr /\ fin e = true /\ fin b = true /\
  (forall ge gb, mult ge (val e) -> mult gb (val b) -> (-1074 <= ge)%Z -> (-1074 <= gb)%Z -> (-1074 <= ge + gb)%Z ->
    Rabs (sc_s (val b) (val e) (val q)) <= Rabs (rn (val e * val b)) ->
    val q' = sc_q (val b) (val e) (val q) /\
    rev (vals h') = emit (sc_h2 (val b) (val e) (val q)) (emit (sc_h1 (val b) (val e) (val q)) (rev (vals harr)))).
Proof.
  intros b q harr e q' h' E F A. rewrite scale_step_eq in E. apply pair_equal_spec in E. destruct E as [<- <-].
  destruct (push_ok _ _ A) as (A1 & F1 & P1). destruct (push_ok _ _ A1) as (A2 & F2 & P2).
  destruct (two_sum_ok _ _ F2) as (Fq & Fp0 & Fs & V1 & V2).
  destruct (fast_two_sum_ok _ _ F1) as (Fp1 & _ & _ & V3 & V4).
  destruct (pps_ok _ _ Fp0) as (Fe & Fb & _ & V5 & V6).
  repeat (split; [assumption|]).
  intros ge gb Me Mb Te Tb G S.
  assert (V6' := V6 ge gb Me Mb Te Tb G). clear V6.
  assert (Es : val (fst (two_sum q (snd (pps e b)))) = sc_s (val b) (val e) (val q)).
  { rewrite V1, V6'. reflexivity. }
  rewrite Es, V5 in V3, V4. specialize (V4 S). split; [exact V3|].
  rewrite P1, V4, P2, V2, V6'. unfold sc_h2, sc_h1, sc_q, sc_s. reflexivity.
Qed.

Lemma scale_fold_fin : forall b es q harr q' h',
  fold_left (scale_step b (fst (split b)) (snd (split b))) es (q, harr) = (q', h') -> fin q' = true -> allfin h' ->
  fin q = true /\ allfin harr /\ allfin es.
Proof.
  induction es as [|e es IH]; intros q harr q' h' E F A.
  - inversion E; subst. split; auto. split; auto. constructor.
  - cbn [fold_left] in E. destruct (scale_step b _ _ (q, harr) e) as [q1 h1] eqn:S.
    destruct (IH _ _ _ _ E F A) as (F1 & A1 & A2).
    destruct (scale_step_ok _ _ _ _ _ _ S F1 A1) as (Fq & Fh & Fe & _). split; auto. split; auto. constructor; auto.
Qed.

Section ScaleRun.
Variables (b : f64) (ge gb : Z).
Hypothesis Mb : mult gb (val b).
Hypothesis Te : (-1074 <= ge)%Z.
Hypothesis Tb : (-1074 <= gb)%Z.
Hypothesis G : (-1074 <= ge + gb)%Z.

Lemma sc_mult : forall e q, mult ge e -> mult (ge + gb) q ->
  mult (ge + gb) (sc_q (val b) e q) /\ mult (ge + gb) (sc_h1 (val b) e q) /\ mult (ge + gb) (sc_h2 (val b) e q).
Proof.
  intros e q Me Mq. assert (P : mult (ge + gb) (e * val b)) by (apply mult_mul; auto).
  assert (P1 := rn_mult _ _ P G). assert (P0 := err_mult _ _ P G).
  assert (S : mult (ge + gb) (sc_s (val b) e q)) by (apply rn_mult; auto; apply mult_add; auto).
  assert (Q : mult (ge + gb) (sc_q (val b) e q)) by (apply rn_mult; auto; apply mult_add; auto).
  split; auto. split.
  - apply mult_sub; auto. apply mult_add; auto.
  - apply mult_sub; auto. apply mult_add; auto.
Qed.

Lemma scale_fold_ok : forall l es eo q harr q' h', lsb l (val b) -> grid ge es ->
  fold_left (scale_step b (fst (split b)) (snd (split b))) es (q, harr) = (q', h') -> fin q' = true -> allfin h' ->
  SInv (val b) l eo (vals es) (rev (vals harr)) (val q) ->
  mult (ge + gb) (val q) -> grid (ge + gb) harr ->
  SInv (val b) l (rev (vals es) ++ eo) [] (rev (vals h')) (val q') /\
  mult (ge + gb) (val q') /\ grid (ge + gb) h'.
Proof.
  induction es as [|e es IH]; intros eo q harr q' h' Lb Ge E F A I Mq Mh.
  - inversion E; subst. simpl. auto.
  - cbn [fold_left] in E. destruct (scale_step b _ _ (q, harr) e) as [q1 h1] eqn:S.
    destruct (scale_fold_fin _ _ _ _ _ _ E F A) as (F1 & A1 & A2).
    destruct (scale_step_ok _ _ _ _ _ _ S F1 A1) as (Fq & Fh & Fe & _ & V).
    inversion Ge as [|? ? Me Ge']; subst.
    change (vals (e :: es)) with (val e :: vals es) in *.
    assert (Ne : val e <> 0).
    { assert (KI := s_Ke _ _ _ _ _ _ I). simpl in KI. rewrite <- app_assoc in KI. simpl in KI. apply K_tail in KI. apply KI. }
    destruct (fmt_lsb_ex _ (val_fmt e) Ne) as (L & Le & TL).
    assert (X1 := mult_lsb ge L _ Me Le). assert (X2 := mult_lsb gb l _ Mb Lb).
    destruct (SInv_step (val b) l (val_fmt b) Lb eo (val e) (vals es) _ _ L I Le ltac:(lia)) as [I' Sm].
    destruct (V ge gb Me Mb Te Tb G Sm) as [Vq Vh].
    destruct (sc_mult (val e) (val q) Me Mq) as (M1 & M2 & M3).
    rewrite rev_cons_app. apply (IH (val e :: eo) q1 h1); auto.
    + rewrite Vh, Vq. exact I'.
    + rewrite Vq. exact M1.
    + apply grid_vals, Forall_rev'. rewrite Vh. apply emit_mult; auto. apply emit_mult; auto.
      apply Forall_rev', grid_vals. auto.
Qed.

Lemma scale_fold_zero : forall es q harr q' h', val b = 0 ->
  fold_left (scale_step b (fst (split b)) (snd (split b))) es (q, harr) = (q', h') -> fin q' = true -> allfin h' ->
  val q = 0 -> vals harr = [] -> val q' = 0 /\ vals h' = [].
Proof.
  induction es as [|e es IH]; intros q harr q' h' Zb E F A Zq Zh.
  - inversion E; subst. auto.
  - cbn [fold_left] in E. destruct (scale_step b _ _ (q, harr) e) as [q1 h1] eqn:S.
    destruct (scale_fold_fin _ _ _ _ _ _ E F A) as (F1 & A1 & A2).
    destruct (scale_step_ok _ _ _ _ _ _ S F1 A1) as (Fq & Fh & Fe & _ & V).
    assert (R0 : rn 0 = 0) by (apply rn_id; apply generic_format_0).
    assert (S0 : sc_s (val b) (val e) (val q) = 0).
    { unfold sc_s. rewrite Zb, Zq, Rmult_0_r, R0, Rminus_0_r, Rplus_0_r. auto. }
    assert (S1 : sc_h1 (val b) (val e) (val q) = 0).
    { unfold sc_h1. rewrite S0, Zb, Zq, Rmult_0_r, R0. lra. }
    assert (S2 : sc_q (val b) (val e) (val q) = 0).
    { unfold sc_q. rewrite S0, Zb, Rmult_0_r, R0, Rplus_0_r. auto. }
    assert (S3 : sc_h2 (val b) (val e) (val q) = 0).
    { unfold sc_h2. rewrite S2, S0, Zb, Rmult_0_r, R0. lra. }
    destruct (V (-1074)%Z 0%Z) as [Vq Vh]; auto; try lia.
    + apply fmt_min, val_fmt.
    + rewrite Zb. apply mult_0.
    + rewrite S0, Zb, Rmult_0_r, R0. lra.
    + rewrite S1, S3, Zh in Vh. simpl in Vh. unfold emit in Vh. destruct (Req_EM_T 0 0); [|tauto].
      apply (IH q1 h1); auto.
      * rewrite Vq; auto.
      * rewrite <- (rev_involutive (vals h1)), Vh. reflexivity.
Qed.
End ScaleRun.

Lemma scale_some : forall e b, e <> [] -> exists h, scale_expansion_zeroelim e b = Some h /\ h <> [].
Proof.
  intros [|e es] b N; [tauto|]. rewrite scale_eq. destruct (fold_left _ _ _). eexists. split; [reflexivity|].
  apply finish_nonempty.
Qed.
Lemma scale_fin : forall e b h, scale_expansion_zeroelim e b = Some h -> allfin h -> allfin e /\ fin b = true.
Proof.
  intros [|e es] b h E A; [unfold scale_expansion_zeroelim in E; destruct (split b); discriminate|].
  rewrite scale_eq in E. destruct (fold_left _ _ _) as [q harr] eqn:S. inversion E; subst h.
  destruct (finish_ok _ _ A) as (A1 & F1 & _). destruct (scale_fold_fin _ _ _ _ _ _ S F1 A1) as (Fq & Fh & Fe).
  destruct (push_ok _ _ Fh) as (_ & F2 & _). destruct (pps_ok _ _ F2) as (Fa & Fb & _).
  split; auto. constructor; auto.
Qed.

Lemma expn_of_out : forall h q o, allfin h -> h <> [] -> rev (vals h) = fin_out q o ->
  (K (fin_out q o) \/ fin_out q o = [0]) -> expn h.
Proof.
  intros h q o A N V H. split; auto. split; auto. rewrite <- V in H. destruct H as [H|H]; auto.
  right. rewrite <- (rev_involutive (vals h)), H. reflexivity.
Qed.

Theorem scale_ok : forall e b h ge gb, expn e -> scale_expansion_zeroelim e b = Some h -> allfin h ->
  grid ge e -> mult gb (val b) -> (-1074 <= ge)%Z -> (-1074 <= gb)%Z -> (-1074 <= ge + gb)%Z ->
  expn h /\ value h = value e * val b /\ grid (ge + gb) h.
Proof.
  intros e b h ge gb He E A Ge Mb Te Tb G.
  destruct e as [|e es]; [destruct He as (_ & N & _); tauto|].
  rewrite scale_eq in E. destruct (fold_left _ _ _) as [q harr] eqn:S. inversion E; subst h. clear E.
  destruct (finish_ok _ _ A) as (A1 & F1 & V). destruct (scale_fold_fin _ _ _ _ _ _ S F1 A1) as (Fq & Fh & Fe).
  destruct (push_ok _ _ Fh) as (_ & F2 & P). destruct (pps_ok _ _ F2) as (Fa & Fb & _ & V5 & V6).
  inversion Ge as [|? ? Me Ge']; subst.
  specialize (V6 ge gb Me Mb Te Tb G).
  assert (R0 : rn 0 = 0) by (apply rn_id; apply generic_format_0).
  assert (Pz : emit 0 [] = []) by (unfold emit; destruct (Req_EM_T 0 0); tauto).
  change (rev (vals [])) with (@nil R) in P.
  assert (Zero : val q = 0 -> vals harr = [] -> value (e :: es) * val b = 0 ->
    expn (finish q harr) /\ value (finish q harr) = value (e :: es) * val b /\ grid (ge + gb) (finish q harr)).
  { intros Zq Zh Zv. rewrite Zq, Zh in V. unfold fin_out in V. simpl in V. destruct (Req_EM_T 0 0); [|tauto].
    assert (V' : vals (finish q harr) = [0]) by (rewrite <- (rev_involutive (vals _)), V; reflexivity).
    split; [|split].
    - split; auto. split; [apply finish_nonempty|]. right; auto.
    - unfold value at 1. rewrite V', Zv. simpl. lra.
    - apply grid_vals. rewrite V'. repeat constructor. apply mult_0. }
  destruct (Req_dec (val b) 0) as [Zb|Nb].
  { assert (Z1 : val (fst (pps e b)) = 0) by (rewrite V5, Zb, Rmult_0_r; auto).
    assert (Z2 : val (snd (pps e b)) = 0) by (rewrite V6, Zb, Rmult_0_r, R0; lra).
    rewrite Z2, Pz in P.
    assert (P' : vals (push_nz [] (snd (pps e b))) = []) by (rewrite <- (rev_involutive (vals _)), P; reflexivity).
    destruct (scale_fold_zero b _ _ _ _ _ Zb S F1 A1 Z1 P') as [Zq Zh].
    apply Zero; auto. rewrite Zb. lra. }
  destruct He as (_ & _ & [HK|HZ]).
  2:{ destruct es; [|discriminate]. inversion HZ as [Ze]. cbn [fold_left] in S. inversion S; subst q harr.
      apply Zero.
      - rewrite V5, Ze, Rmult_0_l; auto.
      - rewrite <- (rev_involutive (vals _)), P, V6, Ze, Rmult_0_l, R0. replace (0 - 0) with 0 by lra. rewrite Pz. reflexivity.
      - unfold value. simpl. rewrite Ze. lra. }
  destruct (fmt_lsb_ex _ (val_fmt b) Nb) as (l & Lb & Tl).
  change (vals (e :: es)) with (val e :: vals es) in HK.
  assert (Ne : val e <> 0) by (apply (K_fmt _ (val e) HK); apply -> in_rev; left; auto).
  destruct (fmt_lsb_ex _ (val_fmt e) Ne) as (L & Le & TL).
  assert (X1 := mult_lsb ge L _ Me Le). assert (X2 := mult_lsb gb l _ Mb Lb).
  assert (I0 : SInv (val b) l [] (val e :: vals es) [] 0).
  { constructor.
    - rewrite app_nil_r. auto.
    - simpl. lra.
    - simpl. auto.
    - apply generic_format_0.
    - intros; apply JJ_nil.
    - intros e0 er' L0 _ _. split; [apply JJ_nil|]. intros _. unfold Jn. simpl. rewrite Rabs_R0.
      pose proof (B_pos (L0 + l)). lra. }
  destruct (SInv_step (val b) l (val_fmt b) Lb [] (val e) (vals es) [] 0 L I0 Le ltac:(lia)) as [I1 _].
  assert (S0 : sc_s (val b) (val e) 0 = val (snd (pps e b))).
  { unfold sc_s. rewrite Rplus_0_l, <- V6. apply rn_id, val_fmt. }
  assert (S1 : sc_h1 (val b) (val e) 0 = 0).
  { unfold sc_h1. rewrite S0, V6. lra. }
  assert (S2 : sc_q (val b) (val e) 0 = val (fst (pps e b))).
  { unfold sc_q. rewrite S0, V6, V5. f_equal. lra. }
  assert (S3 : sc_h2 (val b) (val e) 0 = val (snd (pps e b))).
  { unfold sc_h2. rewrite S2, S0, V5. lra. }
  rewrite S1, S2, S3, Pz, <- P in I1.
  assert (Mp : mult (ge + gb) (val e * val b)) by (apply mult_mul; auto).
  assert (M1 : mult (ge + gb) (val (fst (pps e b)))) by (rewrite V5; apply rn_mult; auto).
  assert (M0 : mult (ge + gb) (val (snd (pps e b)))) by (rewrite V6; apply err_mult; auto).
  assert (Mh : grid (ge + gb) (push_nz [] (snd (pps e b)))).
  { apply grid_vals, Forall_rev'. rewrite P. apply emit_mult; auto. }
  destruct (scale_fold_ok b ge gb Mb Te Tb G l es _ _ _ _ _ Lb Ge' S F1 A1 I1 M1 Mh) as (I2 & Mq & Mo).
  destruct I2 as [_ Sm HK2 Fq2 Jq2 _].
  destruct (fin_out_ok _ _ HK2 Fq2 Jq2) as [H1 H2].
  split; [|split].
  - eapply expn_of_out; eauto. apply finish_nonempty.
  - unfold value at 1. rewrite <- sumR_rev, V, H2, Sm, sumR_app, sumR_rev. unfold value. simpl. lra.
  - apply grid_vals, Forall_rev'. rewrite V. apply fin_out_mult; auto. apply Forall_rev', grid_vals; auto.
Qed.

(** ** Products of expansions *)
Definition mul_fold (farr : list f64) (rest : list f64) (acc : option (list f64)) : option (list f64) :=
  fold_left (fun acc s => obind acc (fun a => obind (scale_expansion_zeroelim farr s)
                (fun b => fast_expansion_sum_zeroelim a b))) rest acc.
Lemma mul_fold_none : forall farr rest, mul_fold farr rest None = None.
Proof. induction rest; simpl; auto. Qed.
Lemma mul_fold_fin : forall farr rest a h, farr <> [] -> a <> [] -> mul_fold farr rest (Some a) = Some h -> allfin h ->
  allfin a /\ allfin rest /\ (rest <> [] -> allfin farr).
Proof.
  induction rest as [|s rest IH]; intros a h Nf Na E A.
  - inversion E; subst. split; auto. split; [constructor|tauto].
  - cbn [mul_fold fold_left] in E. simpl in E.
    destruct (scale_some farr s Nf) as (c & Ec & Nc). rewrite Ec in E. simpl in E.
    destruct (fes_some a c Na Nc) as (d & Ed & Nd). rewrite Ed in E.
    destruct (IH d h Nf Nd E A) as (A1 & A2 & _).
    destruct (fes_fin _ _ _ Na Nc Ed A1) as [A3 A4]. destruct (scale_fin _ _ _ Ec A4) as [A5 A6].
    split; auto. split; auto. constructor; auto.
Qed.
Lemma mul_fold_some : forall farr rest a, farr <> [] -> a <> [] ->
  exists h, mul_fold farr rest (Some a) = Some h /\ h <> [].
Proof.
  induction rest as [|s rest IH]; intros a Nf Na.
  - exists a. auto.
  - cbn [mul_fold fold_left]. simpl.
    destruct (scale_some farr s Nf) as (c & Ec & Nc). rewrite Ec. simpl.
    destruct (fes_some a c Na Nc) as (d & Ed & Nd). rewrite Ed. apply IH; auto.
Qed.
Lemma mul_fold_ok : forall farr rest a h ge gf, expn farr -> expn a -> mul_fold farr rest (Some a) = Some h -> allfin h ->
  grid ge rest -> grid gf farr -> grid (ge + gf) a ->
  (-1074 <= ge)%Z -> (-1074 <= gf)%Z -> (-1074 <= ge + gf)%Z ->
  expn h /\ value h = value a + value rest * value farr /\ grid (ge + gf) h.
Proof.
  induction rest as [|s rest IH]; intros a h ge gf Hf Ha E A Gr Gf Ga Te Tf G.
  - inversion E; subst. split; auto. split; auto. unfold value at 3. simpl. lra.
  - assert (Nf : farr <> []) by apply Hf. assert (Na : a <> []) by apply Ha.
    destruct (mul_fold_fin _ _ _ _ Nf Na E A) as (_ & _ & _).
    cbn [mul_fold fold_left] in E. simpl in E.
    destruct (scale_some farr s Nf) as (c & Ec & Nc). rewrite Ec in E. simpl in E.
    destruct (fes_some a c Na Nc) as (d & Ed & Nd). rewrite Ed in E.
    destruct (mul_fold_fin _ _ _ _ Nf Nd E A) as (A1 & A2 & _).
    destruct (fes_fin _ _ _ Na Nc Ed A1) as [A3 A4].
    inversion Gr as [|? ? Ms Gr']; subst.
    destruct (scale_ok farr s c gf ge Hf Ec A4 Gf Ms Tf Te ltac:(lia)) as (Hc & Vc & Gc).
    rewrite Z.add_comm in Gc.
    destruct (fes_ok _ _ _ Ha Hc Ed A1) as [Hd Vd].
    assert (Gd := fes_grid _ _ _ _ Ha Hc Ed A1 G Ga Gc).
    destruct (IH d h ge gf Hf Hd E A Gr' Gf Gd Te Tf G) as (Hh & Vh & Gh).
    split; auto. split; auto. rewrite Vh, Vd, Vc. unfold value at 6. simpl. fold (value rest). lra.
Qed.
Lemma mul_imp_ok : forall e f h ge gf, e <> [] -> expn f -> mul_expansion_zeroelim_imp e f = Some h -> allfin h ->
  grid ge e -> grid gf f -> (-1074 <= ge)%Z -> (-1074 <= gf)%Z -> (-1074 <= ge + gf)%Z ->
  expn h /\ value h = value e * value f /\ grid (ge + gf) h.
Proof.
  intros [|s rest] f h ge gf N Hf E A Ge Gf Te Tf G; [tauto|].
  unfold mul_expansion_zeroelim_imp in E. inversion Ge as [|? ? Ms Gr]; subst.
  assert (Nf : f <> []) by apply Hf.
  destruct (scale_some f s Nf) as (c & Ec & Nc). rewrite Ec in E. fold (mul_fold f rest (Some c)) in E.
  destruct (mul_fold_fin _ _ _ _ Nf Nc E A) as (A1 & _ & _).
  destruct (scale_ok f s c gf ge Hf Ec A1 Gf Ms Tf Te ltac:(lia)) as (Hc & Vc & Gc).
  rewrite Z.add_comm in Gc.
  destruct (mul_fold_ok f rest c h ge gf Hf Hc E A Gr Gf Gc Te Tf G) as (Hh & Vh & Gh).
  split; auto. split; auto. rewrite Vh, Vc. unfold value at 4. simpl. fold (value rest). lra.
Qed.
Lemma mul_imp_fin : forall e f h, e <> [] -> f <> [] -> mul_expansion_zeroelim_imp e f = Some h -> allfin h ->
  allfin e /\ allfin f.
Proof.
  intros [|s rest] f h N Nf E A; [tauto|]. unfold mul_expansion_zeroelim_imp in E.
  destruct (scale_some f s Nf) as (c & Ec & Nc). rewrite Ec in E. fold (mul_fold f rest (Some c)) in E.
  destruct (mul_fold_fin _ _ _ _ Nf Nc E A) as (A1 & A2 & _). destruct (scale_fin _ _ _ Ec A1) as [A3 A4].
  split; auto. constructor; auto.
Qed.
Lemma mul_imp_some : forall e f, e <> [] -> f <> [] -> exists h, mul_expansion_zeroelim_imp e f = Some h /\ h <> [].
Proof.
  intros [|s rest] f N Nf; [tauto|]. unfold mul_expansion_zeroelim_imp.
  destruct (scale_some f s Nf) as (c & Ec & Nc). rewrite Ec. fold (mul_fold f rest (Some c)).
  apply mul_fold_some; auto.
Qed.

Lemma mul_cases : forall e f,
  (exists x, e = [x] /\ mul_expansion_zeroelim e f = scale_expansion_zeroelim f x) \/
  (exists y, f = [y] /\ mul_expansion_zeroelim e f = scale_expansion_zeroelim e y) \/
  mul_expansion_zeroelim e f = mul_expansion_zeroelim_imp e f \/
  mul_expansion_zeroelim e f = mul_expansion_zeroelim_imp f e.
Proof.
  intros e f. unfold mul_expansion_zeroelim.
  destruct e as [|x [|x' e]]; [|left; eauto|].
  - destruct f as [|y [|y' f]]; [|right; left; eauto|];
      (destruct (Nat.ltb _ _); [right; right; left; reflexivity|right; right; right; reflexivity]).
  - destruct f as [|y [|y' f]]; [|right; left; eauto|];
      (destruct (Nat.ltb _ _); [right; right; left; reflexivity|right; right; right; reflexivity]).
Qed.
Theorem mul_ok : forall e f h ge gf, expn e -> expn f -> mul_expansion_zeroelim e f = Some h -> allfin h ->
  grid ge e -> grid gf f -> (-1074 <= ge)%Z -> (-1074 <= gf)%Z -> (-1074 <= ge + gf)%Z ->
  expn h /\ value h = value e * value f /\ grid (ge + gf) h.
Proof.
  intros e f h ge gf He Hf E A Ge Gf Te Tf G.
  destruct (mul_cases e f) as [(x & -> & C)|[(y & -> & C)|[C|C]]]; rewrite C in E.
  - inversion Ge as [|? ? W1 W2]; subst. destruct (scale_ok f x h gf ge Hf E A Gf ltac:(auto) Tf Te ltac:(lia)) as (H1 & H2 & H3).
    split; auto. rewrite Z.add_comm. split; auto. rewrite H2. unfold value at 2. simpl. lra.
  - inversion Gf as [|? ? W1 W2]; subst. destruct (scale_ok e y h ge gf He E A Ge ltac:(auto) Te Tf G) as (H1 & H2 & H3).
    split; auto. split; auto. rewrite H2. unfold value at 3. simpl. lra.
  - apply mul_imp_ok; auto. apply He.
  - assert (Ne : f <> []) by apply Hf.
    destruct (mul_imp_ok f e h gf ge Ne He E A Gf Ge Tf Te ltac:(lia)) as (H1 & H2 & H3).
    split; auto. rewrite Z.add_comm. split; auto. lra.
Qed.
Lemma mul_fin : forall e f h, e <> [] -> f <> [] -> mul_expansion_zeroelim e f = Some h -> allfin h ->
  allfin e /\ allfin f.
Proof.
  intros e f h Ne Nf E A.
  destruct (mul_cases e f) as [(x & -> & C)|[(y & -> & C)|[C|C]]]; rewrite C in E.
  - destruct (scale_fin _ _ _ E A). split; auto. repeat constructor; auto.
  - destruct (scale_fin _ _ _ E A). split; auto. repeat constructor; auto.
  - apply (mul_imp_fin e f h); auto.
  - apply and_comm. apply (mul_imp_fin f e h); auto.
Qed.
Lemma mul_some : forall e f, e <> [] -> f <> [] -> exists h, mul_expansion_zeroelim e f = Some h /\ h <> [].
Proof.
  intros e f Ne Nf.
  destruct (mul_cases e f) as [(x & -> & C)|[(y & -> & C)|[C|C]]]; rewrite C; auto using scale_some, mul_imp_some.
Qed.

(** ** Negation and difference *)
Lemma sumR_opp : forall l, sumR (map Ropp l) = - sumR l.
Proof. induction l; simpl; lra. Qed.
Lemma lsb_opp : forall k x, lsb k (- x) -> lsb k x.
Proof.
  intros k x (n & O & E). exists (- n)%Z. rewrite opp_IZR, Z.odd_opp. split; [auto|lra].
Qed.
Lemma JJ_opp : forall o k, JJ o k -> JJ (map Ropp o) k.
Proof.
  intros o k [[H|H] H2]; split.
  - left. rewrite sumR_opp, Rabs_Ropp. auto.
  - destruct o; simpl in *; auto. rewrite Rabs_Ropp; auto.
  - right. destruct o; simpl in *; auto. rewrite sumR_opp, !Rabs_Ropp. auto.
  - destruct o; simpl in *; auto. rewrite Rabs_Ropp; auto.
Qed.
Lemma K_opp : forall l, K l -> K (map Ropp l).
Proof.
  induction l as [|x l IH]; simpl; auto. intros (N & F & H & J). split; [lra|]. split; [apply fmt_opp; auto|].
  split; auto. intros k L. apply lsb_opp in L. apply JJ_opp; auto.
Qed.
Lemma vals_neg : forall l, vals (map fneg l) = map Ropp (vals l).
Proof. intros. unfold vals. rewrite !map_map. apply map_ext. intros. apply fneg_val. Qed.
Lemma allfin_neg : forall l, allfin (map fneg l) <-> allfin l.
Proof.
  intros. unfold allfin. rewrite Forall_map. split; apply Forall_impl; intros a; rewrite fneg_fin; auto.
Qed.
Lemma value_neg : forall l, value (map fneg l) = - value l.
Proof. intros. unfold value. rewrite vals_neg. apply sumR_opp. Qed.
Lemma expn_neg : forall l, expn l -> expn (map fneg l).
Proof.
  intros l (F & N & H). split; [apply allfin_neg; auto|]. split; [destruct l; [tauto|discriminate]|].
  rewrite vals_neg, <- map_rev. destruct H as [H|H]; [left; apply K_opp; auto|right].
  rewrite H. simpl. f_equal. lra.
Qed.
Lemma grid_neg : forall g l, grid g l -> grid g (map fneg l).
Proof.
  intros g l. unfold grid. rewrite Forall_map. apply Forall_impl. intros a H. rewrite fneg_val. apply mult_opp; auto.
Qed.
Lemma map_nil : forall (l : list f64), l <> [] -> map fneg l <> [].
Proof. destruct l; [tauto|discriminate]. Qed.

Theorem fed_ok : forall e f h, expn e -> expn f -> fast_expansion_diff_zeroelim e f = Some h -> allfin h ->
  expn h /\ value h = value e - value f.
Proof.
  intros e f h He Hf E A. destruct (fes_ok e (map fneg f) h He (expn_neg f Hf) E A) as [H1 H2].
  split; auto. rewrite H2, value_neg. lra.
Qed.

Lemma expn_single : forall v, fin v = true -> expn [v] /\ value [v] = val v.
Proof.
  intros v F. split; [|unfold value; simpl; lra]. split; [repeat constructor; auto|]. split; [discriminate|].
  destruct (Req_dec (val v) 0) as [E|N]; [right; simpl; rewrite E; auto|left].
  simpl. split; auto. split; [apply val_fmt|]. split; auto. intros; apply JJ_nil.
Qed.

(** ** The sign of an expansion is that of its last component *)
Lemma last_vals : forall l x, last_opt l = Some x -> exists l', l = l' ++ [x].
Proof.
  induction l as [|a l IH]; intros x H; [discriminate|]. destruct l as [|b l].
  - inversion H; subst. exists []. reflexivity.
  - destruct (IH x H) as (l' & E). exists (a :: l'). rewrite E. reflexivity.
Qed.
Lemma last_some : forall l, l <> [] -> exists x, last_opt l = Some x.
Proof.
  induction l as [|a l IH]; [tauto|]. intros _. destruct l as [|b l]; [simpl; eauto|].
  destruct IH as (x & E); [discriminate|]. exists x. exact E.
Qed.
Theorem last_sign : forall l x, expn l -> last_opt l = Some x ->
  fin x = true /\ (0 < value l <-> 0 < val x) /\ (value l < 0 <-> val x < 0).
Proof.
  intros l x (F & N & H) E. destruct (last_vals _ _ E) as (l' & ->).
  apply allfin_app in F. destruct F as [_ F]. inversion F; subst. split; auto.
  unfold value. rewrite <- sumR_rev. rewrite vals_app, rev_app_distr in *. simpl in *.
  destruct H as [H|H].
  - apply K_sign in H. exact H.
  - destruct l' as [|a l'].
    + simpl in *. inversion H as [H0]. rewrite H0. split; split; lra.
    + apply (f_equal (@length R)) in H. simpl in H. rewrite app_length in H. simpl in H. lia.
Qed.

(** ** square *)
Lemma fmt_mult2 : forall k z, mult k z -> mult (-1074) z -> Rabs z <= B (k + 53) -> fmt z.
Proof.
  intros k z M1 M2 H. destruct (Z_le_gt_dec (-1074) k) as [L|L].
  - apply fmt_mult with k; auto.
  - apply fmt_mult with (-1074)%Z; auto; [lia|]. apply Rle_trans with (1 := H). apply B_le. lia.
Qed.
Lemma fmt_cexp : forall k z, fmt z -> z <> 0 -> B (k + 52) <= Rabs z -> mult k z.
Proof.
  intros k z F N H. unfold generic_format in F.
  rewrite F. apply mult_le with (cexp radix2 fexp64 z).
  - assert (k + 53 <= mag radix2 z)%Z.
    { replace (k + 53)%Z with ((k + 52) + 1)%Z by lia. apply mag_ge_bpow.
      replace (k + 52 + 1 - 1)%Z with (k + 52)%Z by lia. auto. }
    unfold cexp, fexp64, FLT_exp. lia.
  - eexists. unfold F2R. simpl. reflexivity.
Qed.

Lemma B_plus : forall a b, B (a + b) = B a * B b.
Proof. intros. apply bpow_plus. Qed.

Section Square.
Variables (x : R) (L : Z).
Hypothesis Fx : fmt x.
Hypothesis Mx : mult L x.
Hypothesis TL : (-1074 <= L)%Z.
Hypothesis G : (-1074 <= L + L)%Z.
Let hi := rn (rn (x * (B 27 + 1)) - rn (rn (x * (B 27 + 1)) - x)).
Let lo := rn (x - hi).

Lemma hi_round : hi = round radix2 (FLT_exp (-1300) 26) ZnearestE x.
Proof.
  assert (Fx' : generic_format radix2 (FLT_exp (-1300) 53) x).
  { revert Fx. apply generic_inclusion_mag. intros _. unfold FLT_exp. lia. }
  pose proof (@Veltkamp_Even radix2 (-1300) 53 (fun z => negb (Z.even z)) 27 ltac:(lia) ltac:(lia) ltac:(lia) ltac:(lia)
    x Fx' eq_refl) as D.
  change (53 - 27)%Z with 26%Z in D. etransitivity; [|exact D]. clear D.
  assert (Ef : forall z, mult L z -> round radix2 (FLT_exp (-1300) 53) ZnearestE z = rn z).
  { intros z M. apply rn_emin; [lia|]. apply mult_le with L; auto. }
  assert (C := C_mult L x Mx).
  rewrite !(Ef (x * (B 27 + 1))) by auto.
  rewrite (Ef (x - _)) by (apply mult_sub; auto; apply rn_mult; auto).
  rewrite Ef by (apply mult_add; apply rn_mult; auto; apply mult_sub; auto; apply rn_mult; auto).
  unfold hi. f_equal. rewrite (rn_sub_sym x). lra.
Qed.

Lemma square_grid : x <> 0 ->
  let r := rn (x * x) in
  let e1 := rn (r - rn (hi * hi)) in
  let e3 := rn (e1 - rn (rn (hi + hi) * lo)) in
  r + rn (rn (lo * lo) - e3) = x * x.
Proof.
  intros N.
  set (e := mag_val radix2 x (mag radix2 x)).
  assert (Be : B (e - 1) <= Rabs x < B e).
  { unfold e. destruct (mag radix2 x) as [m Hm]. simpl. auto. }
  assert (Le : (L < e)%Z).
  { assert (B L < B e) by (pose proof (mult_nz L x Mx N); lra). apply lt_bpow with radix2; auto. }
  assert (Hh := hi_round).
  assert (Mhi : mult (e - 26) hi).
  { rewrite Hh. unfold round, scaled_mantissa. eexists. unfold F2R. simpl.
    replace (cexp radix2 (FLT_exp (-1300) 26) x) with (e - 26)%Z; [reflexivity|].
    unfold cexp, FLT_exp. fold e. lia. }
  assert (Dhi : Rabs (x - hi) <= B (e - 27)).
  { rewrite Hh. rewrite Rabs_minus_sym.
    assert (P26 : Prec_gt_0 26) by reflexivity.
    pose proof (error_le_half_ulp radix2 (FLT_exp (-1300) 26) (fun z => negb (Z.even z)) x) as D.
    rewrite ulp_neq_0 in D by auto.
    replace (cexp radix2 (FLT_exp (-1300) 26) x) with (e - 27 + 1)%Z in D by (unfold cexp, FLT_exp; fold e; lia).
    rewrite B_plus in D. change (B 1) with 2 in D. lra. }
  assert (Ahi : Rabs hi <= B e).
  { rewrite Hh. apply abs_round_le_generic; try typeclasses eauto.
    - apply FLT_exp_valid. reflexivity.
    - apply generic_format_bpow. unfold FLT_exp. lia.
    - lra. }
  assert (Lhi : mult L hi) by (apply rn_mult; auto; apply mult_sub; apply rn_mult; auto;
      try apply mult_sub; try apply rn_mult; auto; apply C_mult; auto).
  assert (Mx53 : mult (e - 53) x) by (apply fmt_cexp; auto; replace (e - 53 + 52)%Z with (e - 1)%Z by lia; lra).
  assert (Elo : lo = x - hi).
  { apply rn_id. apply fmt_mult2 with (e - 53)%Z.
    - apply mult_sub; auto. apply mult_le with (e - 26)%Z; auto. lia.
    - apply mult_le with L; auto. apply mult_sub; auto.
    - apply Rle_trans with (1 := Dhi). apply B_le. lia. }
  assert (Llo : mult L lo) by (rewrite Elo; apply mult_sub; auto).
  assert (Mlo : mult (e - 53) lo) by (rewrite Elo; apply mult_sub; auto; apply mult_le with (e - 26)%Z; auto; lia).
  assert (Alo : Rabs lo <= B (e - 27)) by (rewrite Elo; auto).
  assert (LL : forall a b, mult L a -> mult L b -> mult (-1074) (a * b)).
  { intros a b Ma Mb'. apply mult_le with (L + L)%Z; auto. apply mult_mul; auto. }
  assert (P1 : rn (hi * hi) = hi * hi).
  { apply rn_id. apply fmt_mult2 with ((e - 26) + (e - 26))%Z; auto.
    - apply mult_mul; auto.
    - rewrite Rabs_mult. apply Rle_trans with (B e * B e).
      + apply Rmult_le_compat; auto; apply Rabs_pos.
      + rewrite <- B_plus. apply B_le. lia. }
  assert (P0 : rn (hi + hi) = hi + hi).
  { apply rn_id. apply fmt_mult2 with (e - 26)%Z.
    - apply mult_add; auto.
    - apply mult_le with L; auto. apply mult_add; auto.
    - apply Rle_trans with (Rabs hi + Rabs hi); [apply Rabs_triang|].
      apply Rle_trans with (B (e + 1)); [rewrite B_plus; change (B 1) with 2; lra|apply B_le; lia]. }
  assert (P2 : rn (rn (hi + hi) * lo) = (hi + hi) * lo).
  { rewrite P0. apply rn_id. apply fmt_mult2 with ((e - 25) + (e - 53))%Z.
    - apply mult_mul; auto. destruct Mhi as [n ->]. exists n.
      replace (e - 25)%Z with (e - 26 + 1)%Z by lia. rewrite B_plus. change (B 1) with 2. lra.
    - apply LL; auto. apply mult_add; auto.
    - rewrite Rabs_mult. apply Rle_trans with (B (e + 1) * B (e - 27)).
      + apply Rmult_le_compat; auto; try apply Rabs_pos.
        apply Rle_trans with (1 := Rabs_triang _ _). rewrite B_plus. change (B 1) with 2. lra.
      + rewrite <- B_plus. apply B_le. lia. }
  assert (P3 : rn (lo * lo) = lo * lo).
  { apply rn_id. apply fmt_mult2 with ((e - 53) + (e - 53))%Z; auto.
    - apply mult_mul; auto.
    - rewrite Rabs_mult. apply Rle_trans with (B (e - 27) * B (e - 27)).
      + apply Rmult_le_compat; auto; apply Rabs_pos.
      + rewrite <- B_plus. apply B_le. lia. }
  cbv zeta. rewrite P1, P2, P3.
  set (r := rn (x * x)).
  assert (Mxx : mult (-1074) (x * x)) by (apply LL; auto).
  assert (Nxx : x * x <> 0) by (apply Rmult_integral_contrapositive; auto).
  assert (Axx : B (e - 1) * B (e - 1) <= Rabs (x * x)).
  { rewrite Rabs_mult. pose proof (B_pos (e - 1)). apply Rmult_le_compat; lra. }
  assert (Bxx : Rabs (x * x) <= B e * B e).
  { rewrite Rabs_mult. apply Rmult_le_compat; try apply Rabs_pos; lra. }
  assert (Fr : fmt r) by apply rn_fmt.
  assert (Mr : mult (-1074) r) by (apply rn_mult; auto; lia).
  assert (Nr : r <> 0) by (apply rn_nz; auto).
  assert (Gr : B (2 * e - 2) <= Rabs r).
  { apply abs_round_ge_generic; try typeclasses eauto.
    - apply generic_format_bpow. unfold fexp64, FLT_exp. lia.
    - apply Rle_trans with (2 := Axx). rewrite <- B_plus. apply B_le. lia. }
  assert (Mr54 : mult (2 * e - 54) r) by (apply fmt_cexp; auto; replace (2 * e - 54 + 52)%Z with (2 * e - 2)%Z by lia; auto).
  assert (Er : Rabs (x * x - r) <= B (2 * e - 53)).
  { apply Rle_trans with (1 := rn_rel _ Mxx).
    replace (2 * e - 53)%Z with (e + e + -53)%Z by lia. rewrite !B_plus.
    replace (B (-53)) with (/ 9007199254740992) by reflexivity.
    pose proof (B_pos e). lra. }
  assert (L2 : B (e - 27) * B (e - 27) = B (2 * e - 54)) by (rewrite <- B_plus; f_equal; lia).
  assert (Alo2 : Rabs (lo * lo) <= B (2 * e - 54)).
  { rewrite Rabs_mult, <- L2. apply Rmult_le_compat; auto; apply Rabs_pos. }
  assert (Ahl : Rabs ((hi + hi) * lo) <= B (2 * e - 26)).
  { rewrite Rabs_mult. apply Rle_trans with (B (e + 1) * B (e - 27)).
    - apply Rmult_le_compat; auto; try apply Rabs_pos.
      apply Rle_trans with (1 := Rabs_triang _ _). rewrite B_plus. change (B 1) with 2. lra.
    - rewrite <- B_plus. apply B_le. lia. }
  assert (X : x * x = hi * hi + (hi + hi) * lo + lo * lo) by (rewrite Elo; ring).
  assert (Q1 : rn (r - hi * hi) = r - hi * hi).
  { apply rn_id. apply fmt_mult2 with (2 * e - 54)%Z.
    - apply mult_sub; auto. apply mult_le with ((e - 26) + (e - 26))%Z; [lia|]. apply mult_mul; auto.
    - apply mult_sub; auto.
    - replace (r - hi * hi) with (- (x * x - r) + (hi + hi) * lo + lo * lo) by (rewrite X; ring).
      apply Rle_trans with (1 := Rabs_triang _ _).
      apply Rle_trans with (B (2 * e - 53) + B (2 * e - 26) + B (2 * e - 54)).
      + apply Rplus_le_compat; auto. apply Rle_trans with (1 := Rabs_triang _ _).
        rewrite Rabs_Ropp. lra.
      + replace (2 * e - 54 + 53)%Z with (2 * e - 54 + 53)%Z by lia.
        replace (2 * e - 53)%Z with (2 * e - 54 + 1)%Z by lia.
        replace (2 * e - 26)%Z with (2 * e - 54 + 28)%Z by lia. rewrite !B_plus.
        change (B 1) with 2. change (B 28) with 268435456. change (B 53) with 9007199254740992.
        pose proof (B_pos (2 * e)). pose proof (B_pos (-54)).
        assert (0 < B (2 * e) * B (-54)) by (apply Rmult_lt_0_compat; auto).
        change (2 * e - 54)%Z with (2 * e + -54)%Z. rewrite B_plus. lra. }
  rewrite Q1.
  assert (E3 : r - hi * hi - (hi + hi) * lo = lo * lo - (x * x - r)) by (rewrite X; ring).
  assert (Q3 : rn (r - hi * hi - (hi + hi) * lo) = r - hi * hi - (hi + hi) * lo).
  { apply rn_id. apply fmt_mult2 with (2 * e - 78)%Z.
    - apply mult_sub; [apply mult_sub|].
      + apply mult_le with (2 * e - 54)%Z; auto. lia.
      + apply mult_le with ((e - 26) + (e - 26))%Z; [lia|]. apply mult_mul; auto.
      + replace (2 * e - 78)%Z with ((e - 25) + (e - 53))%Z by lia. apply mult_mul; auto.
        destruct Mhi as [n ->]. exists n.
        replace (e - 25)%Z with (e - 26 + 1)%Z by lia. rewrite B_plus. change (B 1) with 2. lra.
    - apply mult_sub; [apply mult_sub|]; auto. apply LL; auto. apply mult_add; auto.
    - rewrite E3. apply Rle_trans with (B (2 * e - 54) + B (2 * e - 53)).
      + apply Rle_trans with (1 := Rabs_triang (lo * lo) (- (x * x - r))). rewrite Rabs_Ropp. lra.
      + replace (2 * e - 53)%Z with (2 * e - 54 + 1)%Z by lia.
        replace (2 * e - 78 + 53)%Z with (2 * e - 54 + 29)%Z by lia. rewrite !B_plus.
        change (B 1) with 2. change (B 29) with 536870912.
        pose proof (B_pos (2 * e - 54)). lra. }
  rewrite Q3.
  assert (Y : lo * lo - (r - hi * hi - (hi + hi) * lo) = x * x - r) by (rewrite X; ring).
  rewrite Y.
  assert (D := dekker_grid x x L L Fx Fx Mx Mx TL TL G). cbv zeta in D. fold r in D.
  rewrite (rn_id (x * x - r)); [ring|].
  rewrite <- D at 1. match goal with |- fmt (_ + ?z - _) => replace (r + z - r) with z by ring end. apply rn_fmt.
Qed.
End Square.

Lemma square_ok : forall a, fin (snd (square a)) = true ->
  fin a = true /\ fin (fst (square a)) = true /\
  val (fst (square a)) = rn (val a * val a) /\
  (forall L, mult L (val a) -> (-1074 <= L)%Z -> (-1074 <= L + L)%Z ->
   val (snd (square a)) = val a * val a - rn (val a * val a)).
Proof.
  intros a H. unfold square in *. destruct (split a) as [ahi alo] eqn:Ea. cbn [fst snd] in *.
  destruct (fsub_ok _ _ H) as (F1 & F2 & V). destruct (fmul_ok _ _ F1) as (Fal & _ & V1).
  destruct (fsub_ok _ _ F2) as (F3 & F4 & V2). destruct (fmul_ok _ _ F4) as (F5 & _ & V4).
  destruct (fadd_ok _ _ F5) as (Fah & _ & V5).
  destruct (fsub_ok _ _ F3) as (F6 & F7 & V3). destruct (fmul_ok _ _ F6) as (Fa & _ & V6).
  destruct (fmul_ok _ _ F7) as (_ & _ & V7).
  split; auto. split; auto. split; auto.
  intros L M TL G.
  pose proof (split_ok a) as Sa. rewrite Ea in Sa. cbn [fst snd] in Sa. destruct (Sa Fal) as (_ & _ & A1 & A2).
  destruct (Req_dec (val a) 0) as [Z|N].
  - assert (R0 : rn 0 = 0) by (apply rn_id; apply generic_format_0).
    assert (Z1 : val ahi = 0) by (rewrite A1, Z, Rmult_0_l, R0, Rminus_0_r, R0, Rminus_0_r; auto).
    assert (Z2 : val alo = 0) by (rewrite A2, Z1, Z, Rminus_0_r; auto).
    rewrite V, V1, V2, V4, V5, V3, V6, V7, Z1, Z2, Z.
    repeat (rewrite ?Rmult_0_l, ?Rmult_0_r, ?Rplus_0_r, ?R0, ?Rminus_0_r). lra.
  - pose proof (square_grid (val a) L (val_fmt a) M TL G N) as D.
    cbv zeta in D. rewrite <- A1 in D. rewrite <- A2 in D.
    rewrite V, V1, V2, V4, V5, V3, V6, V7. lra.
Qed.

(** ** Growing *)
Lemma sumR_snoc : forall l x, sumR (l ++ [x]) = sumR l + x.
Proof. intros. rewrite sumR_app. simpl. lra. Qed.
Lemma grow_loop : forall es q harr q' h',
  fold_left (fun '(q, harr) enow => let (qnew, h) := two_sum q enow in (qnew, harr ++ [h])) es (q, harr) = (q', h') ->
  fin q' = true -> allfin h' ->
  fin q = true /\ allfin harr /\ allfin es /\ val q' + value h' = val q + value harr + value es /\
  length h' = (length harr + length es)%nat.
Proof.
  induction es as [|e es IH]; intros q harr q' h' E F A.
  - cbn [fold_left] in E. apply pair_equal_spec in E. destruct E as [<- <-]. split; auto. split; auto.
    split; [constructor|]. split; [unfold value; simpl; lra|simpl; lia].
  - cbn [fold_left] in E. destruct (two_sum q e) as [x y] eqn:T.
    destruct (IH _ _ _ _ E F A) as (F1 & A1 & A2 & V & Ln).
    apply allfin_app in A1. destruct A1 as [A1 A3]. inversion A3 as [|? ? F2 _]; subst.
    pose proof (two_sum_ok q e) as K2. rewrite T in K2. cbn [fst snd] in K2.
    destruct (K2 F2) as (Fq & Fe & _ & V1 & V2).
    split; auto. split; auto. split; [constructor; auto|]. split.
    + unfold value in *. rewrite vals_app, sumR_app in V. simpl in *. lra.
    + rewrite app_length in Ln. simpl in *. lia.
Qed.
Lemma growz_loop : forall es q harr q' h',
  fold_left (fun '(q, h) enow => let (qnew, r) := two_sum q enow in (qnew, push_nz h r)) es (q, harr) = (q', h') ->
  fin q' = true -> allfin h' ->
  fin q = true /\ allfin harr /\ allfin es /\ val q' + value h' = val q + value harr + value es.
Proof.
  induction es as [|e es IH]; intros q harr q' h' E F A.
  - cbn [fold_left] in E. apply pair_equal_spec in E. destruct E as [<- <-]. split; auto. split; auto.
    split; [constructor|]. unfold value. simpl. lra.
  - cbn [fold_left] in E. destruct (two_sum q e) as [x y] eqn:T.
    destruct (IH _ _ _ _ E F A) as (F1 & A1 & A2 & V).
    destruct (push_ok _ _ A1) as (A3 & F2 & P).
    pose proof (two_sum_ok q e) as K2. rewrite T in K2. cbn [fst snd] in K2.
    destruct (K2 F2) as (Fq & Fe & _ & V1 & V2).
    split; auto. split; auto. split; [constructor; auto|].
    assert (Pv : value (push_nz harr y) = value harr + val y).
    { unfold value. rewrite <- sumR_rev, P. unfold emit. destruct (Req_EM_T (val y) 0) as [Z|Z].
      - rewrite sumR_rev, Z. lra.
      - simpl. rewrite sumR_rev. lra. }
    unfold value in *. simpl. lra.
Qed.

(** ** No overflow on operands of moderate size *)
Lemma fin_bound : forall k (r : f64) v, (k < 1024)%Z ->
  (if Rlt_bool (Rabs (round radix2 b64exp ZnearestE v)) (bpow radix2 emax) then fin r = true else True) ->
  (-1074 <= k)%Z -> Rabs v <= B k -> fin r = true /\ Rabs (rn v) <= B k.
Proof.
  intros k r v K H T V.
  assert (W : Rabs (rn v) <= B k).
  { apply abs_round_le_generic; try typeclasses eauto; auto.
    apply generic_format_bpow. unfold fexp64, FLT_exp. lia. }
  split; auto. change (round radix2 b64exp ZnearestE v) with (rn v) in H.
  rewrite Rlt_bool_true in H; auto. apply Rle_lt_trans with (1 := W). apply bpow_lt. exact K.
Qed.
Lemma fadd_bound : forall k a b, fin a = true -> fin b = true -> (-1074 <= k < 1024)%Z ->
  Rabs (val a + val b) <= B k -> fin (fadd a b) = true /\ Rabs (val (fadd a b)) <= B k.
Proof.
  intros k a b Fa Fb T V.
  pose proof (Bplus_correct prec emax _ _ mode_NE a b Fa Fb) as C. simpl round_mode in C.
  destruct (fin_bound k (fadd a b) (val a + val b)) as [F W]; auto; try lia.
  { destruct (Rlt_bool _ _); auto. apply C. }
  split; auto. destruct (fadd_ok _ _ F) as (_ & _ & ->). auto.
Qed.
Lemma fsub_bound : forall k a b, fin a = true -> fin b = true -> (-1074 <= k < 1024)%Z ->
  Rabs (val a - val b) <= B k -> fin (fsub a b) = true /\ Rabs (val (fsub a b)) <= B k.
Proof.
  intros k a b Fa Fb T V.
  pose proof (Bminus_correct prec emax _ _ mode_NE a b Fa Fb) as C. simpl round_mode in C.
  destruct (fin_bound k (fsub a b) (val a - val b)) as [F W]; auto; try lia.
  { destruct (Rlt_bool _ _); auto. apply C. }
  split; auto. destruct (fsub_ok _ _ F) as (_ & _ & ->). auto.
Qed.
Lemma fmul_bound : forall k a b, fin a = true -> fin b = true -> (-1074 <= k < 1024)%Z ->
  Rabs (val a * val b) <= B k -> fin (fmul a b) = true /\ Rabs (val (fmul a b)) <= B k.
Proof.
  intros k a b Fa Fb T V.
  pose proof (Bmult_correct prec emax _ _ mode_NE a b) as C. simpl round_mode in C.
  destruct (fin_bound k (fmul a b) (val a * val b)) as [F W]; auto; try lia.
  { destruct (Rlt_bool _ _); auto. destruct C as (_ & C & _). rewrite Fa, Fb in C. exact C. }
  split; auto. destruct (fmul_ok _ _ F) as (_ & _ & ->). auto.
Qed.
Lemma B_double : forall k, B k + B k = B (k + 1).
Proof. intros. rewrite B_plus. change (B 1) with 2. lra. Qed.
Lemma fadd_b : forall k a b, (-1074 <= k < 1023)%Z -> fin a = true /\ Rabs (val a) <= B k -> fin b = true /\ Rabs (val b) <= B k ->
  fin (fadd a b) = true /\ Rabs (val (fadd a b)) <= B (k + 1).
Proof.
  intros k a b T [Fa Va] [Fb Vb]. apply fadd_bound; auto; try lia.
  apply Rle_trans with (1 := Rabs_triang _ _). rewrite <- B_double. lra.
Qed.
Lemma fsub_b : forall k a b, (-1074 <= k < 1023)%Z -> fin a = true /\ Rabs (val a) <= B k -> fin b = true /\ Rabs (val b) <= B k ->
  fin (fsub a b) = true /\ Rabs (val (fsub a b)) <= B (k + 1).
Proof.
  intros k a b T [Fa Va] [Fb Vb]. apply fsub_bound; auto; try lia.
  unfold Rminus. apply Rle_trans with (1 := Rabs_triang _ _). rewrite Rabs_Ropp, <- B_double. lra.
Qed.
Lemma fmul_b : forall j k a b, (-1074 <= j + k < 1024)%Z -> fin a = true /\ Rabs (val a) <= B j -> fin b = true /\ Rabs (val b) <= B k ->
  fin (fmul a b) = true /\ Rabs (val (fmul a b)) <= B (j + k).
Proof.
  intros j k a b T [Fa Va] [Fb Vb]. apply fmul_bound; auto; try lia.
  rewrite Rabs_mult, B_plus. apply Rmult_le_compat; auto; apply Rabs_pos.
Qed.
Lemma wk : forall j k a, (j <= k)%Z -> fin a = true /\ Rabs (val a) <= B j -> fin a = true /\ Rabs (val a) <= B k.
Proof. intros j k a L [F V]. split; auto. apply Rle_trans with (1 := V). apply B_le; auto. Qed.

Local Transparent two_sum fast_two_sum.
Lemma two_sum_fin : forall a b, fin a = true -> fin b = true -> Rabs (val a) <= B 1018 -> Rabs (val b) <= B 1018 ->
  fin (snd (two_sum a b)) = true.
Proof.
  intros a b Fa Fb Va Vb. unfold two_sum. cbn [snd].
  assert (X := fadd_b 1018 a b ltac:(lia) (conj Fa Va) (conj Fb Vb)).
  assert (Y := fsub_b 1019 (fadd a b) a ltac:(lia) X (wk 1018 1019 a ltac:(lia) (conj Fa Va))).
  assert (Z := fsub_b 1020 (fadd a b) (fsub (fadd a b) a) ltac:(lia) (wk 1019 1020 _ ltac:(lia) X) Y).
  assert (W := fsub_b 1021 a _ ltac:(lia) (wk 1018 1021 a ltac:(lia) (conj Fa Va)) Z).
  assert (U := fsub_b 1020 b _ ltac:(lia) (wk 1018 1020 b ltac:(lia) (conj Fb Vb)) Y).
  exact (proj1 (fadd_b 1022 _ _ ltac:(lia) W (wk 1021 1022 _ ltac:(lia) U))).
Qed.
Lemma two_diff_fin : forall a b, fin a = true -> fin b = true -> Rabs (val a) <= B 1018 -> Rabs (val b) <= B 1018 ->
  fin (snd (two_diff a b)) = true.
Proof.
  intros a b Fa Fb Va Vb. unfold two_diff. cbn [snd].
  assert (X := fsub_b 1018 a b ltac:(lia) (conj Fa Va) (conj Fb Vb)).
  assert (Y := fsub_b 1019 a (fsub a b) ltac:(lia) (wk 1018 1019 a ltac:(lia) (conj Fa Va)) X).
  assert (Z := fadd_b 1020 (fsub a b) (fsub a (fsub a b)) ltac:(lia) (wk 1019 1020 _ ltac:(lia) X) Y).
  assert (W := fsub_b 1021 a _ ltac:(lia) (wk 1018 1021 a ltac:(lia) (conj Fa Va)) Z).
  assert (U := fsub_b 1020 _ b ltac:(lia) Y (wk 1018 1020 b ltac:(lia) (conj Fb Vb))).
  exact (proj1 (fadd_b 1022 _ _ ltac:(lia) W (wk 1021 1022 _ ltac:(lia) U))).
Qed.
Lemma fast_two_sum_fin : forall a b, fin a = true -> fin b = true -> Rabs (val a) <= B 1018 -> Rabs (val b) <= B 1018 ->
  fin (snd (fast_two_sum a b)) = true.
Proof.
  intros a b Fa Fb Va Vb. unfold fast_two_sum. cbn [snd].
  assert (X := fadd_b 1018 a b ltac:(lia) (conj Fa Va) (conj Fb Vb)).
  assert (Y := fsub_b 1019 (fadd a b) a ltac:(lia) X (wk 1018 1019 a ltac:(lia) (conj Fa Va))).
  exact (proj1 (fsub_b 1020 b _ ltac:(lia) (wk 1018 1020 b ltac:(lia) (conj Fb Vb)) Y)).
Qed.
Lemma fast_two_diff_fin : forall a b, fin a = true -> fin b = true -> Rabs (val a) <= B 1018 -> Rabs (val b) <= B 1018 ->
  fin (snd (fast_two_diff a b)) = true.
Proof.
  intros a b Fa Fb Va Vb. unfold fast_two_diff. cbn [snd].
  assert (X := fsub_b 1018 a b ltac:(lia) (conj Fa Va) (conj Fb Vb)).
  assert (Y := fsub_b 1019 a (fsub a b) ltac:(lia) (wk 1018 1019 a ltac:(lia) (conj Fa Va)) X).
  exact (proj1 (fsub_b 1020 _ b ltac:(lia) Y (wk 1018 1020 b ltac:(lia) (conj Fb Vb)))).
Qed.
Lemma splitter_b : fin splitter = true /\ Rabs (val splitter) <= B 28.
Proof.
  split; [reflexivity|]. rewrite splitter_val. change (B 27) with 134217728. change (B 28) with 268435456.
  rewrite Rabs_right; lra.
Qed.
Local Transparent split pps.
Lemma split_fin : forall k a, (0 <= k <= 500)%Z -> fin a = true /\ Rabs (val a) <= B k ->
  (fin (fst (split a)) = true /\ Rabs (val (fst (split a))) <= B (k + 30)) /\
  (fin (snd (split a)) = true /\ Rabs (val (snd (split a))) <= B (k + 31)).
Proof.
  intros k a T H. unfold split. cbv zeta. cbn [fst snd].
  assert (C := fmul_b 28 k splitter a ltac:(lia) splitter_b H).
  replace (28 + k)%Z with (k + 28)%Z in C by lia.
  assert (D := fsub_b (k + 28) _ a ltac:(lia) C (wk k (k + 28) a ltac:(lia) H)).
  assert (E := fsub_b (k + 29) _ _ ltac:(lia) (wk (k + 28) (k + 29) _ ltac:(lia) C) (wk (k + 28 + 1) (k + 29) _ ltac:(lia) D)).
  replace (k + 29 + 1)%Z with (k + 30)%Z in E by lia.
  assert (F := fsub_b (k + 30) a _ ltac:(lia) (wk k (k + 30) a ltac:(lia) H) E).
  replace (k + 30 + 1)%Z with (k + 31)%Z in F by lia. auto.
Qed.
Lemma pps_fin : forall a b, fin a = true -> fin b = true -> Rabs (val a) <= B 470 -> Rabs (val b) <= B 470 ->
  fin (snd (pps a b)) = true.
Proof.
  intros a b Fa Fb Va Vb. unfold pps, two_product_pre_split.
  destruct (split_fin 470 a ltac:(lia) (conj Fa Va)) as [A1 A2].
  destruct (split_fin 470 b ltac:(lia) (conj Fb Vb)) as [B1 B2].
  destruct (split a) as [ahi alo]. destruct (split b) as [bhi blo]. cbn [fst snd] in *.
  apply (wk _ 501) in A1; [|lia]. apply (wk _ 501) in A2; [|lia]. apply (wk _ 501) in B1; [|lia]. apply (wk _ 501) in B2; [|lia].
  assert (X := wk (470 + 470) 1002 _ ltac:(lia) (fmul_b 470 470 a b ltac:(lia) (conj Fa Va) (conj Fb Vb))).
  assert (P1 := fmul_b 501 501 ahi bhi ltac:(lia) A1 B1). assert (P2 := fmul_b 501 501 alo bhi ltac:(lia) A2 B1).
  assert (P3 := fmul_b 501 501 ahi blo ltac:(lia) A1 B2). assert (P4 := fmul_b 501 501 alo blo ltac:(lia) A2 B2).
  change (501 + 501)%Z with 1002%Z in *.
  assert (E1 := fsub_b 1002 _ _ ltac:(lia) X P1).
  assert (E2 := fsub_b 1003 _ _ ltac:(lia) E1 (wk 1002 1003 _ ltac:(lia) P2)).
  assert (E3 := fsub_b 1004 _ _ ltac:(lia) E2 (wk 1002 1004 _ ltac:(lia) P3)).
  exact (proj1 (fsub_b 1005 _ _ ltac:(lia) (wk 1002 1005 _ ltac:(lia) P4) E3)).
Qed.
Lemma square_fin : forall a, fin a = true -> Rabs (val a) <= B 470 -> fin (snd (square a)) = true.
Proof.
  intros a Fa Va. unfold square.
  destruct (split_fin 470 a ltac:(lia) (conj Fa Va)) as [A1 A2].
  destruct (split a) as [ahi alo]. cbn [fst snd] in *.
  apply (wk _ 501) in A1; [|lia]. apply (wk _ 501) in A2; [|lia].
  assert (X := wk (470 + 470) 1002 _ ltac:(lia) (fmul_b 470 470 a a ltac:(lia) (conj Fa Va) (conj Fa Va))).
  assert (P1 := fmul_b 501 501 ahi ahi ltac:(lia) A1 A1).
  assert (P2 := fmul_b 502 501 _ alo ltac:(lia) (fadd_b 501 _ _ ltac:(lia) A1 A1) A2).
  assert (P4 := fmul_b 501 501 alo alo ltac:(lia) A2 A2).
  change (501 + 501)%Z with 1002%Z in *. change (502 + 501)%Z with 1003%Z in *.
  assert (E1 := fsub_b 1002 _ _ ltac:(lia) X P1).
  assert (E3 := fsub_b 1003 _ _ ltac:(lia) E1 P2).
  exact (proj1 (fsub_b 1004 _ _ ltac:(lia) (wk 1002 1004 _ ltac:(lia) P4) E3)).
Qed.
Local Opaque split pps two_sum fast_two_sum.

(** ** The fixed-length sums and products *)
Lemma two_one_sum_ok : forall a1 a0 b x2 x1 x0, two_one_sum a1 a0 b = (x2, x1, x0) ->
  fin x2 = true -> fin x1 = true -> fin x0 = true ->
  fin a1 = true /\ fin a0 = true /\ fin b = true /\ val x2 + val x1 + val x0 = val a1 + val a0 + val b.
Proof.
  intros a1 a0 b x2 x1 x0 E F2 F1 F0. unfold two_one_sum in E.
  pose proof (two_sum_ok a0 b) as K1. destruct (two_sum a0 b) as [i y0].
  pose proof (two_sum_ok a1 i) as K2. destruct (two_sum a1 i) as [y2 y1]. cbn [fst snd] in *.
  apply pair_equal_spec in E. destruct E as [E <-]. apply pair_equal_spec in E. destruct E as [<- <-].
  destruct (K2 F1) as (Fa & Fi & _ & V1 & V2). destruct (K1 F0) as (Fb & Fc & _ & V3 & V4).
  repeat (split; [assumption|]). lra.
Qed.
Lemma two_one_diff_ok : forall a1 a0 b x2 x1 x0, two_one_diff a1 a0 b = (x2, x1, x0) ->
  fin x2 = true -> fin x1 = true -> fin x0 = true ->
  fin a1 = true /\ fin a0 = true /\ fin b = true /\ val x2 + val x1 + val x0 = val a1 + val a0 - val b.
Proof.
  intros a1 a0 b x2 x1 x0 E F2 F1 F0. unfold two_one_diff in E.
  pose proof (two_diff_ok a0 b) as K1. destruct (two_diff a0 b) as [i y0].
  pose proof (two_sum_ok a1 i) as K2. destruct (two_sum a1 i) as [y2 y1]. cbn [fst snd] in *.
  apply pair_equal_spec in E. destruct E as [E <-]. apply pair_equal_spec in E. destruct E as [<- <-].
  destruct (K2 F1) as (Fa & Fi & _ & V1 & V2). destruct (K1 F0) as (Fb & Fc & _ & V3 & V4).
  repeat (split; [assumption|]). lra.
Qed.
Lemma two_two_sum_ok : forall a1 a0 b1 b0 x3 x2 x1 x0, two_two_sum a1 a0 b1 b0 = (x3, x2, x1, x0) ->
  fin x3 = true -> fin x2 = true -> fin x1 = true -> fin x0 = true ->
  val x3 + val x2 + val x1 + val x0 = val a1 + val a0 + (val b1 + val b0).
Proof.
  intros a1 a0 b1 b0 x3 x2 x1 x0 E F3 F2 F1 F0. unfold two_two_sum in E.
  destruct (two_one_sum a1 a0 b0) as [[j o] y0] eqn:E1. destruct (two_one_sum j o b1) as [[y3 y2] y1] eqn:E2.
  apply pair_equal_spec in E. destruct E as [E <-]. apply pair_equal_spec in E. destruct E as [E <-].
  apply pair_equal_spec in E. destruct E as [<- <-].
  destruct (two_one_sum_ok _ _ _ _ _ _ E2 F3 F2 F1) as (Fj & Fo & _ & V2).
  destruct (two_one_sum_ok _ _ _ _ _ _ E1 Fj Fo F0) as (_ & _ & _ & V1). lra.
Qed.
Lemma two_two_diff_ok : forall a1 a0 b1 b0 x3 x2 x1 x0, two_two_diff a1 a0 b1 b0 = (x3, x2, x1, x0) ->
  fin x3 = true -> fin x2 = true -> fin x1 = true -> fin x0 = true ->
  val x3 + val x2 + val x1 + val x0 = val a1 + val a0 - (val b1 + val b0).
Proof.
  intros a1 a0 b1 b0 x3 x2 x1 x0 E F3 F2 F1 F0. unfold two_two_diff in E.
  destruct (two_one_diff a1 a0 b0) as [[j o] y0] eqn:E1. destruct (two_one_diff j o b1) as [[y3 y2] y1] eqn:E2.
  apply pair_equal_spec in E. destruct E as [E <-]. apply pair_equal_spec in E. destruct E as [E <-].
  apply pair_equal_spec in E. destruct E as [<- <-].
  destruct (two_one_diff_ok _ _ _ _ _ _ E2 F3 F2 F1) as (Fj & Fo & _ & V2).
  destruct (two_one_diff_ok _ _ _ _ _ _ E1 Fj Fo F0) as (_ & _ & _ & V1). lra.
Qed.

(** [a1 + a0] rounds to [a1]: what two_sum, two_product and the like return. *)
Lemma two_one_product_ok : forall a1 a0 b x3 x2 x1 x0 g gb, two_one_product a1 a0 b = (x3, x2, x1, x0) ->
  fin x3 = true -> fin x2 = true -> fin x1 = true -> fin x0 = true ->
  (val a0 = 0 \/ K [val a1; val a0]) ->
  mult g (val a1) -> mult g (val a0) -> mult gb (val b) ->
  (-1074 <= g)%Z -> (-1074 <= gb)%Z -> (-1074 <= g + gb)%Z ->
  val x3 + val x2 + val x1 + val x0 = (val a1 + val a0) * val b.
Proof.
  intros a1 a0 b x3 x2 x1 x0 g gb E F3 F2 F1 F0 H M1 M0 Mb Tg Tb G.
  unfold two_one_product in E. destruct (split b) as [bhi blo] eqn:Sb.
  pose proof (pps_ok a0 b) as P0. pose proof (pps_ok a1 b) as P1.
  Local Transparent pps. unfold pps in P0, P1. Local Opaque pps.
  rewrite Sb in P0, P1. cbn [fst snd] in P0, P1.
  destruct (two_product_pre_split a0 b bhi blo) as [i y0]. destruct (two_product_pre_split a1 b bhi blo) as [j o].
  pose proof (two_sum_ok i o) as K1. destruct (two_sum i o) as [k y1].
  pose proof (fast_two_sum_ok j k) as K2. destruct (fast_two_sum j k) as [y3 y2]. cbn [fst snd] in *.
  apply pair_equal_spec in E. destruct E as [E <-]. apply pair_equal_spec in E. destruct E as [E <-].
  apply pair_equal_spec in E. destruct E as [<- <-].
  destruct (K2 F2) as (Fj & Fk & _ & V2 & V2'). destruct (K1 F1) as (Fi & Fo & _ & V1 & V1').
  destruct (P0 F0) as (Fa0 & Fb & _ & U0 & U0'). destruct (P1 Fo) as (Fa1 & _ & _ & U1 & U1').
  specialize (U0' g gb M0 Mb Tg Tb G). specialize (U1' g gb M1 Mb Tg Tb G).
  assert (S : Rabs (val k) <= Rabs (val j)).
  { assert (Rz : rn 0 = 0) by (apply rn_id; apply generic_format_0).
    assert (Mp : mult (-1074) (val a1 * val b)).
    { apply mult_le with (g + gb)%Z; auto. apply mult_mul; auto. }
    assert (Oj : Rabs (val o) <= Rabs (val j)).
    { rewrite U1', U1. pose proof (rn_rel _ Mp). pose proof (Rabs_pos (val a1 * val b)).
      pose proof (Rabs_triang_inv (val a1 * val b) (val a1 * val b - rn (val a1 * val b))) as T.
      replace (val a1 * val b - (val a1 * val b - rn (val a1 * val b))) with (rn (val a1 * val b)) in T by ring.
      lra. }
    destruct (Req_dec (val a0) 0) as [Z|N0].
    - assert (val k = val o) as ->; auto.
      rewrite V1, U0, Z, Rmult_0_l, Rz, Rplus_0_l. apply rn_id, val_fmt.
    - destruct H as [H|H]; [tauto|].
      destruct (Req_dec (val b) 0) as [Zb|Nb].
      + rewrite V1, U0, Zb, Rmult_0_r, Rz, Rplus_0_l, rn_id; auto using val_fmt.
      + destruct (fmt_lsb_ex _ (val_fmt b) Nb) as (l & Lb & Tl).
        destruct (fmt_lsb_ex _ (val_fmt a0) N0) as (L0 & Le0 & TL0).
        assert (N1 : val a1 <> 0) by apply H.
        destruct (fmt_lsb_ex _ (val_fmt a1) N1) as (L1 & Le1 & TL1).
        assert (X0 := mult_lsb g L0 _ M0 Le0). assert (X1 := mult_lsb g L1 _ M1 Le1).
        assert (X2 := mult_lsb gb l _ Mb Lb).
        assert (I0 : SInv (val b) l [] [val a0; val a1] [] 0).
        { constructor.
          - exact H.
          - simpl. lra.
          - simpl. auto.
          - apply generic_format_0.
          - intros; apply JJ_nil.
          - intros e0 er' L _ _. split; [apply JJ_nil|]. intros _. unfold Jn. simpl. rewrite Rabs_R0.
            pose proof (B_pos (L + l)). lra. }
        destruct (SInv_step (val b) l (val_fmt b) Lb _ _ _ _ _ L0 I0 Le0 ltac:(lia)) as [I1 _].
        destruct (SInv_step (val b) l (val_fmt b) Lb _ _ _ _ _ L1 I1 Le1 ltac:(lia)) as [_ Sm].
        assert (S0 : sc_s (val b) (val a0) 0 = val y0).
        { unfold sc_s. rewrite Rplus_0_l, <- U0'. apply rn_id, val_fmt. }
        assert (S2 : sc_q (val b) (val a0) 0 = val i).
        { unfold sc_q. rewrite S0, U0', U0. f_equal. lra. }
        rewrite S2 in Sm. unfold sc_s in Sm. rewrite <- U1', <- U1, <- V1 in Sm. exact Sm. }
  specialize (V2' S). lra.
Qed.

(** ** Strongly nonoverlapping lists *)
Lemma bits_lsb : forall y x k, x <> 0 -> lsb k x -> bits_below y x -> Rabs y < B k.
Proof.
  intros y x k N L (j & M & H). apply Rlt_le_trans with (1 := H). apply B_le. apply (mult_lsb j k x); auto.
Qed.
Lemma gap_lsb : forall y x k, x <> 0 -> lsb k x -> bits_below_gap y x -> Rabs y < / 2 * B k.
Proof.
  intros y x k N L (j & M & H). assert (B j <= B k) by (apply B_le; apply (mult_lsb j k x); auto). lra.
Qed.
Lemma gap_bits : forall y x, bits_below_gap y x -> bits_below y x.
Proof. intros y x (k & M & H). exists k. split; auto. pose proof (Rabs_pos y). lra. Qed.
Lemma strong_head : forall x y o, strong_desc (x :: y :: o) -> bits_below y x.
Proof. intros x y o (_ & _ & [H|[H _]]); auto using gap_bits. Qed.
(** the sum of a strong list stays below the least power of two above its head *)
Lemma strong_sum : forall o, strong_desc o -> Forall (fun x => fmt x) o ->
  forall k, match o with [] => True | h :: _ => Rabs h < B k end -> Rabs (sumR o) < B k.
Proof.
  induction o as [|x o IH]; intros S F k H.
  - simpl. rewrite Rabs_R0. apply B_pos.
  - inversion F as [|? ? Fx Fo]; subst. pose proof S as (N & So & _).
    destruct (fmt_lsb_ex x Fx N) as (j & L & T).
    assert (Q : Rabs (sumR o) < B j).
    { apply IH; auto. destruct o as [|y o]; auto. apply bits_lsb with x; auto. eapply strong_head; eauto. }
    assert (Rabs x + B j <= B k).
    { assert (j < k)%Z. { assert (B j < B k) by (pose proof (mult_nz j x (lsb_mult j x L) N); lra). apply lt_bpow with radix2; auto. }
      apply mult_gap; auto.
      - apply mult_abs, lsb_mult; auto.
      - apply mult_B. lia. }
    simpl. apply Rle_lt_trans with (1 := Rabs_triang _ _). lra.
Qed.
Lemma half_B : forall k, / 2 * B k = B (k - 1).
Proof. intros. replace k with (k - 1 + 1)%Z at 1 by lia. rewrite B_plus. change (B 1) with 2. lra. Qed.
Lemma strong_K : forall l, strong_desc l -> Forall (fun x => fmt x) l -> K l.
Proof.
  induction l as [|x o IH]; intros S F; [exact I|].
  inversion F as [|? ? Fx Fo]; subst. pose proof S as (N & So & Hd). simpl. split; auto. split; auto. split; auto.
  intros k L. destruct o as [|y o]; [apply JJ_nil|].
  assert (Hy : Rabs y < B k) by (apply bits_lsb with x; auto; eapply strong_head; eauto).
  split; [|exact Hy].
  destruct Hd as [Hd|(Hb & Px & Py & Hz)].
  - left. rewrite half_B. apply strong_sum; auto. rewrite <- half_B. apply gap_lsb with x; auto.
  - destruct (Rlt_le_dec (Rabs y) (/ 2 * B k)) as [C|C].
    + left. rewrite half_B in *. apply strong_sum; auto.
    + right. destruct Py as (m & Ey).
      assert (m = k - 1)%Z as ->.
      { rewrite half_B, Ey in C. rewrite Ey in Hy. apply le_bpow in C. apply lt_bpow in Hy. lia. }
      split; [rewrite Ey, half_B; auto|].
      inversion Fo as [|? ? Fy Fo']; subst. pose proof So as (Ny & So' & _).
      replace (/ 4 * B k) with (B (k - 2)).
      2:{ replace k with (k - 2 + 2)%Z at 2 by lia. rewrite (B_plus (k - 2) 2). change (B 2) with 4. lra. }
      apply strong_sum; auto. destruct o as [|z o]; auto.
      destruct (fmt_lsb_ex y Fy Ny) as (j & Lj & _).
      assert (Z1 := gap_lsb z y j Ny Lj Hz). rewrite half_B in Z1.
      apply Rlt_le_trans with (1 := Z1). apply B_le.
      assert (B j <= B (k - 1)) by (rewrite <- Ey; apply mult_nz; auto; apply lsb_mult; auto).
      apply le_bpow in H. lia.
Qed.
Lemma K_nonoverlap : forall l, K l -> nonoverlapping_desc l.
Proof.
  induction l as [|x o IH]; intros H; [exact I|]. split; [|apply IH; apply H].
  intros y Y. destruct H as (N & F & H). destruct (fmt_lsb_ex x F N) as (k & L & _).
  exists k. split; [apply lsb_mult; auto|]. eapply K_sorted; eauto. exact (conj N (conj F H)).
Qed.

Lemma allfin_all : forall l, allfin l <-> all_finite l.
Proof. intros. unfold allfin, all_finite. rewrite Forall_forall. reflexivity. Qed.
Lemma grid_on : forall g l, grid g l <-> on_grid g l.
Proof. intros. unfold grid, on_grid. rewrite Forall_forall. reflexivity. Qed.
Lemma value_exact : forall l, value l = exact_value l.
Proof. induction l; unfold value in *; simpl in *; auto. rewrite IHl. reflexivity. Qed.
Lemma operand_expn : forall l, operand l -> expn l.
Proof.
  intros l (F & H). apply allfin_all in F. destruct H as [(N & S)|(z & -> & Z)].
  - split; auto. split; auto. left. apply strong_K; auto. apply Forall_rev'. unfold vals. rewrite Forall_map.
    apply Forall_forall. intros. apply val_fmt.
  - split; auto. split; [discriminate|]. right. simpl. rewrite Z. auto.
Qed.
Lemma expn_nonoverlap : forall l, expn l -> nonoverlapping l.
Proof.
  intros l (_ & _ & [H|H]); unfold nonoverlapping.
  - apply K_nonoverlap in H. exact H.
  - change (map (fun x : f64 => val x) l) with (vals l). rewrite H. simpl. split; [|exact I]. simpl. tauto.
Qed.
