(** C19-C24: error-free transformations and expansions
    (predicates/predicates.rs, predicates/expansion_number.rs).

    "Finite result" is how absence of overflow is said: every low-order part
    and every component is computed from all the intermediate values, so one
    overflow anywhere leaves an infinity or a NaN in the result (the lemmas
    [*_ok] of ExpFloat.v derive the finiteness of every intermediate value
    from that of the result).  Absence of underflow is said with grids: the
    operands are multiples of 2^i and 2^j with -1074 <= i + j. *)
From Coq Require Import ZArith Reals List Bool Lia Lra.
From Flocq Require Import Core BinarySingleNaN.
From Verif Require Import F64 F64Facts GenericFormulas Expansion ExpReal ExpSpec ExpFloat.
Import ListNotations.
Local Open Scope R_scope.

(** The constants of predicates.rs:78 are those [exact_init] computes. *)
Lemma feq_val : forall a b : f64, is_finite a = true -> is_finite b = true -> feq a b = true -> B2R a = B2R b.
Proof.
  intros a b Fa Fb H. unfold feq in H. rewrite Beqb_correct in H; auto. revert H. case Req_bool_spec; auto. discriminate.
Qed.
Theorem exact_init_ok : exists eps, exact_init = Some (eps, splitter) /\ B2R eps = bpow radix2 (-53).
Proof.
  assert (C : match exact_init with
    | Some (e, s) => is_finite e && feq e (fl 1 (-53)) && (is_finite_strict s && feq s splitter) | None => false end = true)
    by (vm_compute; reflexivity).
  destruct exact_init as [[e s]|]; [|discriminate].
  apply andb_prop in C. destruct C as [C D]. apply andb_prop in C. destruct C as [C1 C2].
  apply andb_prop in D. destruct D as [D1 D2]. exists e. split.
  - f_equal. f_equal. apply B2R_inj; auto. apply feq_val; auto.
    destruct s; try discriminate D1; reflexivity.
  - rewrite (feq_val e (fl 1 (-53))); auto.
    change (B2R (fl 1 (-53))) with (F2R (Float radix2 4503599627370496 (-105))). unfold F2R. cbn [Fnum Fexp].
    replace 4503599627370496 with (bpow radix2 52) by (simpl; lra). rewrite <- bpow_plus. reflexivity.
Qed.

(** ** C19 *)
Theorem two_sum_exact : forall a b x y, two_sum a b = (x, y) -> finite y ->
  finite a /\ finite b /\ finite x /\
  B2R x = rnd64 (B2R a + B2R b) /\ B2R x + B2R y = B2R a + B2R b.
Proof.
  intros a b x y E F. pose proof (two_sum_ok a b) as H. rewrite E in H. cbn [fst snd] in H.
  destruct (H F) as (Fa & Fb & Fx & V1 & V2). repeat (split; [assumption|]). lra.
Qed.
Theorem two_diff_exact : forall a b x y, two_diff a b = (x, y) -> finite y ->
  finite a /\ finite b /\ finite x /\
  B2R x = rnd64 (B2R a - B2R b) /\ B2R x + B2R y = B2R a - B2R b.
Proof.
  intros a b x y E F. pose proof (two_diff_ok a b) as H. rewrite E in H. cbn [fst snd] in H.
  destruct (H F) as (Fa & Fb & Fx & V1 & V2). repeat (split; [assumption|]). lra.
Qed.
Theorem two_diff_tail_exact : forall a b y, two_diff_tail a b (fsub a b) = y -> finite y ->
  B2R (fsub a b) = rnd64 (B2R a - B2R b) /\ B2R (fsub a b) + B2R y = B2R a - B2R b.
Proof. intros a b y E F. destruct (two_diff_exact a b (fsub a b) y) as (_ & _ & _ & H); auto. subst y. reflexivity. Qed.
Theorem fast_two_sum_exact : forall a b x y, fast_two_sum a b = (x, y) -> finite y ->
  Rabs (B2R b) <= Rabs (B2R a) ->
  finite a /\ finite b /\ finite x /\
  B2R x = rnd64 (B2R a + B2R b) /\ B2R x + B2R y = B2R a + B2R b.
Proof.
  intros a b x y E F L. pose proof (fast_two_sum_ok a b) as H. rewrite E in H. cbn [fst snd] in H.
  destruct (H F) as (Fa & Fb & Fx & V1 & V2). specialize (V2 L). repeat (split; [assumption|]). lra.
Qed.
Theorem fast_two_diff_exact : forall a b x y, fast_two_diff a b = (x, y) -> finite y ->
  Rabs (B2R b) <= Rabs (B2R a) ->
  finite a /\ finite b /\ finite x /\
  B2R x = rnd64 (B2R a - B2R b) /\ B2R x + B2R y = B2R a - B2R b.
Proof.
  intros a b x y E F L. pose proof (fast_two_diff_ok a b) as H. rewrite E in H. cbn [fst snd] in H.
  destruct (H F) as (Fa & Fb & Fx & V1 & V2). specialize (V2 L). repeat (split; [assumption|]). lra.
Qed.
(** No overflow when the operands are at most 2^1018 in absolute value. *)
Theorem two_sum_no_overflow : forall a b, finite a -> finite b ->
  Rabs (B2R a) <= bpow radix2 1018 -> Rabs (B2R b) <= bpow radix2 1018 ->
  finite (snd (two_sum a b)) /\ finite (snd (two_diff a b)) /\
  finite (snd (fast_two_sum a b)) /\ finite (snd (fast_two_diff a b)).
Proof.
  intros a b Fa Fb Va Vb. split; [apply two_sum_fin; auto|]. split; [apply two_diff_fin; auto|].
  split; [apply fast_two_sum_fin; auto|apply fast_two_diff_fin; auto].
Qed.

(** The value of a literal [fl m e]. *)
Lemma fl_val : forall m e, (Z.abs m <= 2 ^ 53)%Z -> (-1074 <= e <= 900)%Z -> B2R (fl m e) = IZR m * bpow radix2 e /\ finite (fl m e).
Proof.
  intros m e Hm He.
  pose proof (binary_normalize_correct prec emax _ _ mode_NE m e false) as C.
  cbv zeta in C. simpl round_mode in C.
  assert (F : F2R (Float radix2 m e) = IZR m * bpow radix2 e) by reflexivity.
  assert (A : Rabs (IZR m) <= bpow radix2 53).
  { rewrite <- abs_IZR. change (bpow radix2 53) with (IZR (2 ^ 53)). apply IZR_le. auto. }
  assert (Ab : Rabs (IZR m * bpow radix2 e) <= bpow radix2 (e + 53)).
  { rewrite Rabs_mult, (Rabs_right (bpow radix2 e)) by (apply Rle_ge, bpow_ge_0).
    rewrite bpow_plus, Rmult_comm. apply Rmult_le_compat_l; auto. apply bpow_ge_0. }
  assert (G : generic_format radix2 b64exp (IZR m * bpow radix2 e)).
  { change (fmt (IZR m * bpow radix2 e)). apply fmt_mult with e; [exists m; auto|lia|auto]. }
  rewrite F in C. rewrite round_generic in C; auto; try typeclasses eauto.
  rewrite Rlt_bool_true in C.
  - destruct C as (C1 & C2 & _). split; auto.
  - apply Rle_lt_trans with (1 := Ab). apply bpow_lt. unfold emax. lia.
Qed.

Example two_sum_case : finite (snd (two_sum (fl 1 60) (fl 3 (-2)))) /\
  feq (fst (two_sum (fl 1 60) (fl 3 (-2)))) (fl 1 60) = true /\ feq (snd (two_sum (fl 1 60) (fl 3 (-2)))) (fl 3 (-2)) = true.
Proof. repeat split. Qed.

(** ** C20 *)
Theorem two_product_exact : forall a b x y i j, two_product a b = (x, y) -> finite y ->
  multiple i (B2R a) -> multiple j (B2R b) -> (-1074 <= i)%Z -> (-1074 <= j)%Z -> (-1074 <= i + j)%Z ->
  finite a /\ finite b /\ finite x /\
  B2R x = rnd64 (B2R a * B2R b) /\ B2R x + B2R y = B2R a * B2R b.
Proof.
  intros a b x y i j E F Ma Mb Ti Tj G. rewrite two_product_pps in E.
  pose proof (pps_ok a b) as H. rewrite E in H. cbn [fst snd] in H.
  destruct (H F) as (Fa & Fb & Fx & V1 & V2). specialize (V2 i j Ma Mb Ti Tj G).
  repeat (split; [assumption|]). lra.
Qed.
Theorem two_product_pre_split_same : forall a b, two_product_pre_split a b (fst (split b)) (snd (split b)) = two_product a b.
Proof. intros. symmetry. apply two_product_pps. Qed.
Theorem square_exact : forall a x y i, square a = (x, y) -> finite y ->
  multiple i (B2R a) -> (-1074 <= i)%Z -> (-1074 <= i + i)%Z ->
  finite a /\ finite x /\
  B2R x = rnd64 (B2R a * B2R a) /\ B2R x + B2R y = B2R a * B2R a.
Proof.
  intros a x y i E F Ma Ti G. pose proof (square_ok a) as H. rewrite E in H. cbn [fst snd] in H.
  destruct (H F) as (Fa & Fx & V1 & V2). specialize (V2 i Ma Ti G).
  repeat (split; [assumption|]). lra.
Qed.
(** The same with underflow excluded by the size of the product. *)
Lemma product_grids : forall a b : f64, bpow radix2 (-969) <= Rabs (B2R a * B2R b) ->
  exists i j, multiple i (B2R a) /\ multiple j (B2R b) /\ (-1074 <= i)%Z /\ (-1074 <= j)%Z /\ (-1074 <= i + j)%Z.
Proof.
  intros a b H.
  assert (N : B2R a <> 0 /\ B2R b <> 0).
  { pose proof (bpow_gt_0 radix2 (-969)). split; intros E; rewrite E, ?Rmult_0_l, ?Rmult_0_r, Rabs_R0 in H; lra. }
  destruct N as [Na Nb].
  exists (cexp radix2 fexp64 (B2R a)), (cexp radix2 fexp64 (B2R b)).
  assert (Ma : multiple (cexp radix2 fexp64 (B2R a)) (B2R a)).
  { pose proof (val_fmt a) as F. unfold generic_format in F. eexists. rewrite F at 1. unfold F2R. simpl. reflexivity. }
  assert (Mb : multiple (cexp radix2 fexp64 (B2R b)) (B2R b)).
  { pose proof (val_fmt b) as F. unfold generic_format in F. eexists. rewrite F at 1. unfold F2R. simpl. reflexivity. }
  split; auto. split; auto.
  assert (-968 <= mag radix2 (B2R a) + mag radix2 (B2R b))%Z.
  { assert (bpow radix2 (-969) < bpow radix2 (mag radix2 (B2R a) + mag radix2 (B2R b))).
    { apply Rle_lt_trans with (1 := H). rewrite Rabs_mult, bpow_plus.
      apply Rmult_le_0_lt_compat; try apply Rabs_pos; apply bpow_mag_gt. }
    apply lt_bpow in H0. lia. }
  unfold cexp, fexp64, FLT_exp. lia.
Qed.
Theorem two_product_normal : forall a b x y, two_product a b = (x, y) -> finite y ->
  bpow radix2 (-969) <= Rabs (B2R a * B2R b) ->
  B2R x = rnd64 (B2R a * B2R b) /\ B2R x + B2R y = B2R a * B2R b.
Proof.
  intros a b x y E F H. destruct (product_grids a b H) as (i & j & Ma & Mb & Ti & Tj & G).
  destruct (two_product_exact a b x y i j E F Ma Mb Ti Tj G) as (_ & _ & _ & R). exact R.
Qed.
Theorem product_no_overflow : forall a b, finite a -> finite b ->
  Rabs (B2R a) <= bpow radix2 470 -> Rabs (B2R b) <= bpow radix2 470 ->
  finite (snd (two_product a b)) /\ finite (snd (square a)).
Proof. intros a b Fa Fb Va Vb. rewrite two_product_pps. split; [apply pps_fin; auto|apply square_fin; auto]. Qed.
(** Without the underflow condition the claim is false: 2^-600 * 2^-600. *)
Theorem two_product_underflow_refuted : exists a b x y, two_product a b = (x, y) /\ finite y /\
  B2R x + B2R y <> B2R a * B2R b.
Proof.
  exists (fl 1 (-600)), (fl 1 (-600)), (fst (two_product (fl 1 (-600)) (fl 1 (-600)))), (snd (two_product (fl 1 (-600)) (fl 1 (-600)))).
  split; [apply surjective_pairing|]. split; [reflexivity|].
  assert (X : B2R (fst (two_product (fl 1 (-600)) (fl 1 (-600)))) = 0).
  { apply (proj2 (nonzero_false _ (eq_refl : nonzero (fst (two_product (fl 1 (-600)) (fl 1 (-600)))) = false))). }
  assert (Y : B2R (snd (two_product (fl 1 (-600)) (fl 1 (-600)))) = 0).
  { apply (proj2 (nonzero_false _ (eq_refl : nonzero (snd (two_product (fl 1 (-600)) (fl 1 (-600)))) = false))). }
  rewrite X, Y. destruct (fl_val 1 (-600)) as [V _]; [simpl; lia|lia|]. rewrite V.
  pose proof (bpow_gt_0 radix2 (-600)). assert (0 < bpow radix2 (-600) * bpow radix2 (-600)) by (apply Rmult_lt_0_compat; auto). lra.
Qed.
Example two_product_case : let a := fl 4503599627370497 (-52) in
  finite (snd (two_product a a)) /\ nonzero (snd (two_product a a)) = true /\ finite (snd (square a)).
Proof. repeat split. Qed.

(** ** C21, C22 *)
(** Operands in Shewchuk's sense are valid expansions. *)
Theorem operand_valid : forall l, operand l -> expn l.
Proof. exact operand_expn. Qed.
(** Valid expansions are finite, not empty, nonoverlapping, and the last
    component has the sign of the exact value. *)
Theorem valid_nonoverlapping : forall l, expn l -> all_finite l /\ l <> [] /\ nonoverlapping l.
Proof. intros l H. split; [apply allfin_all, H|]. split; [apply H|apply expn_nonoverlap; auto]. Qed.
Theorem valid_last_sign : forall l x, expn l -> last_opt l = Some x ->
  (0 < exact_value l <-> 0 < B2R x) /\ (exact_value l < 0 <-> B2R x < 0).
Proof. intros l x H E. rewrite <- value_exact. apply (last_sign l x H E). Qed.
Theorem single_valid : forall v, finite v -> expn [v] /\ exact_value [v] = B2R v.
Proof. intros v F. rewrite <- value_exact. apply expn_single; auto. Qed.

Theorem fast_sum_exact : forall e f h, expn e -> expn f ->
  fast_expansion_sum_zeroelim e f = Some h -> all_finite h ->
  expn h /\ exact_value h = exact_value e + exact_value f.
Proof. intros e f h He Hf E A. rewrite <- !value_exact. apply fes_ok; auto. apply allfin_all; auto. Qed.
Theorem fast_diff_exact : forall e f h, expn e -> expn f ->
  fast_expansion_diff_zeroelim e f = Some h -> all_finite h ->
  expn h /\ exact_value h = exact_value e - exact_value f.
Proof. intros e f h He Hf E A. rewrite <- !value_exact. apply fed_ok; auto. apply allfin_all; auto. Qed.
Theorem scale_exact : forall e b h i j, expn e ->
  scale_expansion_zeroelim e b = Some h -> all_finite h ->
  on_grid i e -> multiple j (B2R b) -> (-1074 <= i)%Z -> (-1074 <= j)%Z -> (-1074 <= i + j)%Z ->
  expn h /\ exact_value h = exact_value e * B2R b /\ on_grid (i + j) h.
Proof.
  intros e b h i j He E A Ge Mb Ti Tj G. rewrite <- !value_exact. apply allfin_all in A. apply grid_on in Ge.
  destruct (scale_ok e b h i j He E A Ge Mb Ti Tj G) as (H1 & H2 & H3). split; auto. split; auto. apply grid_on; auto.
Qed.
Theorem mul_exact : forall e f h i j, expn e -> expn f ->
  mul_expansion_zeroelim e f = Some h -> all_finite h ->
  on_grid i e -> on_grid j f -> (-1074 <= i)%Z -> (-1074 <= j)%Z -> (-1074 <= i + j)%Z ->
  expn h /\ exact_value h = exact_value e * exact_value f /\ on_grid (i + j) h.
Proof.
  intros e f h i j He Hf E A Ge Gf Ti Tj G. rewrite <- !value_exact. apply allfin_all in A. apply grid_on in Ge, Gf.
  destruct (mul_ok e f h i j He Hf E A Ge Gf Ti Tj G) as (H1 & H2 & H3). split; auto. split; auto. apply grid_on; auto.
Qed.
Theorem invert_exact : forall e, expn e -> expn (expansion_invert e) /\ exact_value (expansion_invert e) = - exact_value e.
Proof. intros e H. rewrite <- !value_exact. split; [apply expn_neg; auto|apply value_neg]. Qed.
(** These two need no condition on the operand. *)
Theorem grow_exact : forall e b h, grow_expansion e b = h -> all_finite h ->
  length h = S (length e) /\ exact_value h = exact_value e + B2R b.
Proof.
  intros e b h E A. rewrite <- !value_exact. apply allfin_all in A. unfold grow_expansion in E.
  destruct (fold_left _ e (b, [])) as [q hs] eqn:L. subst h. apply allfin_app in A. destruct A as [A1 A2].
  inversion A2; subst. destruct (grow_loop _ _ _ _ _ L) as (_ & _ & _ & V & Ln); auto.
  split; [rewrite app_length, Ln; simpl; lia|]. unfold value in *. rewrite vals_app, sumR_app. simpl in *. lra.
Qed.
Theorem grow_zeroelim_exact : forall e b h, grow_expansion_zeroelim e b = h -> all_finite h ->
  (forall x, In x h -> B2R x <> 0) /\ exact_value h = exact_value e + B2R b.
Proof.
  assert (NZ : forall es q harr q' h',
    fold_left (fun '(q, h) enow => let (qnew, r) := two_sum q enow in (qnew, push_nz h r)) es (q, harr) = (q', h') ->
    allfin h' -> (forall x, In x harr -> nonzero x = true) -> forall x, In x h' -> nonzero x = true).
  { induction es as [|e es IH]; intros q harr q' h' E A H.
    - cbn [fold_left] in E. apply pair_equal_spec in E. destruct E as [_ <-]. auto.
    - cbn [fold_left] in E. destruct (two_sum q e) as [u v]. apply (IH _ _ _ _ E A).
      intros x. unfold push_nz. destruct (nonzero v) eqn:N; auto. rewrite in_app_iff. intros [I|[<-|[]]]; auto. }
  intros e b h E A. rewrite <- !value_exact. apply allfin_all in A. unfold grow_expansion_zeroelim in E.
  destruct (fold_left _ e (b, [])) as [q hs] eqn:L. subst h. destruct (nonzero q) eqn:N.
  - apply allfin_app in A. destruct A as [A1 A2]. inversion A2 as [|? ? Fq _]; subst.
    destruct (growz_loop _ _ _ _ _ L Fq A1) as (_ & _ & _ & V). split.
    + intros x I. apply in_app_iff in I. destruct I as [I|[<-|[]]]; [|apply nonzero_true; auto].
      apply nonzero_true; [unfold allfin in A1; rewrite Forall_forall in A1; auto|].
      apply (NZ _ _ _ _ _ L A1); auto; simpl; tauto.
    + unfold value in *. rewrite vals_app, sumR_app. simpl in *. lra.
  - apply nonzero_false in N. destruct N as [Fq Z]. destruct (growz_loop _ _ _ _ _ L Fq A) as (_ & _ & _ & V). split.
    + intros x I. apply nonzero_true; [unfold allfin in A; rewrite Forall_forall in A; auto|].
      apply (NZ _ _ _ _ _ L A); auto; simpl; tauto.
    + unfold value in *. simpl in *. lra.
Qed.
Theorem two_two_sum_exact : forall a1 a0 b1 b0 x3 x2 x1 x0, two_two_sum a1 a0 b1 b0 = (x3, x2, x1, x0) ->
  finite x3 -> finite x2 -> finite x1 -> finite x0 ->
  B2R x3 + B2R x2 + B2R x1 + B2R x0 = (B2R a1 + B2R a0) + (B2R b1 + B2R b0).
Proof. exact two_two_sum_ok. Qed.
Theorem two_two_diff_exact : forall a1 a0 b1 b0 x3 x2 x1 x0, two_two_diff a1 a0 b1 b0 = (x3, x2, x1, x0) ->
  finite x3 -> finite x2 -> finite x1 -> finite x0 ->
  B2R x3 + B2R x2 + B2R x1 + B2R x0 = (B2R a1 + B2R a0) - (B2R b1 + B2R b0).
Proof. exact two_two_diff_ok. Qed.
Theorem two_one_product_exact : forall a1 a0 b x3 x2 x1 x0 i j, two_one_product a1 a0 b = (x3, x2, x1, x0) ->
  finite x3 -> finite x2 -> finite x1 -> finite x0 ->
  (B2R a0 = 0 \/ expn [a0; a1]) ->
  multiple i (B2R a1) -> multiple i (B2R a0) -> multiple j (B2R b) ->
  (-1074 <= i)%Z -> (-1074 <= j)%Z -> (-1074 <= i + j)%Z ->
  B2R x3 + B2R x2 + B2R x1 + B2R x0 = (B2R a1 + B2R a0) * B2R b.
Proof.
  intros a1 a0 b x3 x2 x1 x0 i j E F3 F2 F1 F0 H. apply two_one_product_ok; auto.
  destruct H as [H|(_ & _ & [H|H])]; auto. discriminate.
Qed.

(** *** Whole formulas: any tree of additions, subtractions and
    multiplications of ExpansionNum over f64 leaves. *)
Inductive expr := Leaf (v : f64) | EAdd (a b : expr) | ESub (a b : expr) | EMul (a b : expr).
Fixpoint run (e : expr) : xnum :=
  match e with
  | Leaf v => xof v
  | EAdd a b => xadd (run a) (run b)
  | ESub a b => xsub (run a) (run b)
  | EMul a b => xmul (run a) (run b)
  end.
Fixpoint exact (e : expr) : R :=
  match e with
  | Leaf v => B2R v
  | EAdd a b => exact a + exact b
  | ESub a b => exact a - exact b
  | EMul a b => exact a * exact b
  end.
(** the largest number of leaves multiplied together *)
Fixpoint degree (e : expr) : Z :=
  match e with
  | Leaf _ => 1
  | EAdd a b | ESub a b => Z.max (degree a) (degree b)
  | EMul a b => degree a + degree b
  end.
Fixpoint leaves_on (g : Z) (e : expr) : Prop :=
  match e with
  | Leaf v => multiple g (B2R v)
  | EAdd a b | ESub a b | EMul a b => leaves_on g a /\ leaves_on g b
  end.
Lemma degree_pos : forall e, (1 <= degree e)%Z.
Proof. induction e; simpl; lia. Qed.

(** The evaluation never panics and never gives an empty list. *)
Theorem run_total : forall e, exists l, run e = Some l /\ l <> [].
Proof.
  induction e as [v|a [x [Ex Nx]] b [y [Ey Ny]]|a [x [Ex Nx]] b [y [Ey Ny]]|a [x [Ex Nx]] b [y [Ey Ny]]]; cbn [run].
  - exists [v]. split; [reflexivity|discriminate].
  - rewrite Ex, Ey. apply fes_some; auto.
  - rewrite Ex, Ey. apply (fes_some x (map fneg y)); auto. apply map_nil; auto.
  - rewrite Ex, Ey. apply mul_some; auto.
Qed.
(** When the result has no infinity or NaN, and the grid of the leaves is not
    too fine for the degree, the evaluation is exact and its sign is the sign
    of the last component. *)
Theorem run_exact : forall e l g, run e = Some l -> all_finite l ->
  leaves_on g e -> (g <= 0)%Z -> (-1074 <= degree e * g)%Z ->
  expn l /\ exact_value l = exact e /\ on_grid (degree e * g) l.
Proof.
  induction e as [v|a IHa b IHb|a IHa b IHb|a IHa b IHb]; intros l g E A Lg G0 G; cbn [run exact degree leaves_on] in *.
  - injection E as <-. rewrite <- value_exact.
    destruct (expn_single v) as [H1 H2]; [apply A; left; reflexivity|]. split; auto. split; auto.
    intros x [<-|[]]. rewrite Z.mul_1_l. auto.
  - destruct (run_total a) as (x & Ex & Nx). destruct (run_total b) as (y & Ey & Ny). rewrite Ex, Ey in E.
    change (fast_expansion_sum_zeroelim x y = Some l) in E. apply allfin_all in A.
    destruct (fes_fin x y l Nx Ny E A) as [Ax Ay]. destruct Lg as [La Lb].
    pose proof (degree_pos a). pose proof (degree_pos b).
    destruct (IHa x g Ex (proj1 (allfin_all x) Ax) La G0 ltac:(nia)) as (H1 & H2 & H3).
    destruct (IHb y g Ey (proj1 (allfin_all y) Ay) Lb G0 ltac:(nia)) as (I1 & I2 & I3).
    destruct (fes_ok x y l H1 I1 E A) as [V1 V2]. rewrite <- value_exact in *. rewrite <- H2, <- I2.
    split; auto. split; auto. apply grid_on. apply (fes_grid _ x y l); auto.
    + apply grid_le with (degree a * g)%Z; [nia|apply grid_on; auto].
    + apply grid_le with (degree b * g)%Z; [nia|apply grid_on; auto].
  - destruct (run_total a) as (x & Ex & Nx). destruct (run_total b) as (y & Ey & Ny). rewrite Ex, Ey in E.
    change (fast_expansion_diff_zeroelim x y = Some l) in E. apply allfin_all in A.
    destruct (fes_fin x (map fneg y) l Nx (map_nil y Ny) E A) as [Ax Ay]. apply (proj1 (allfin_neg y)) in Ay. destruct Lg as [La Lb].
    pose proof (degree_pos a). pose proof (degree_pos b).
    destruct (IHa x g Ex (proj1 (allfin_all x) Ax) La G0 ltac:(nia)) as (H1 & H2 & H3).
    destruct (IHb y g Ey (proj1 (allfin_all y) Ay) Lb G0 ltac:(nia)) as (I1 & I2 & I3).
    destruct (fed_ok x y l H1 I1 E A) as [V1 V2]. rewrite <- value_exact in *. rewrite <- H2, <- I2.
    split; auto. split; auto. apply grid_on. apply (fes_grid _ x (map fneg y) l); auto.
    + apply expn_neg; auto.
    + apply grid_le with (degree a * g)%Z; [nia|apply grid_on; auto].
    + apply grid_neg. apply grid_le with (degree b * g)%Z; [nia|apply grid_on; auto].
  - destruct (run_total a) as (x & Ex & Nx). destruct (run_total b) as (y & Ey & Ny). rewrite Ex, Ey in E.
    change (mul_expansion_zeroelim x y = Some l) in E. apply allfin_all in A.
    destruct (mul_fin x y l Nx Ny E A) as [Ax Ay]. destruct Lg as [La Lb].
    pose proof (degree_pos a). pose proof (degree_pos b).
    destruct (IHa x g Ex (proj1 (allfin_all x) Ax) La G0 ltac:(nia)) as (H1 & H2 & H3).
    destruct (IHb y g Ey (proj1 (allfin_all y) Ay) Lb G0 ltac:(nia)) as (I1 & I2 & I3).
    destruct (mul_ok x y l (degree a * g) (degree b * g) H1 I1 E A (proj2 (grid_on _ _) H3) (proj2 (grid_on _ _) I3)
      ltac:(nia) ltac:(nia) ltac:(nia)) as (V1 & V2 & V3). rewrite <- value_exact in *. rewrite <- H2, <- I2.
    split; auto. split; auto. apply grid_on. replace ((degree a + degree b) * g)%Z with (degree a * g + degree b * g)%Z by ring. auto.
Qed.
(** [not_zero], [negative] and the sign of the last component (mod.rs
    double_to_sign) are those of the exact value. *)
Theorem run_sign : forall e l g, run e = Some l -> all_finite l ->
  leaves_on g e -> (g <= 0)%Z -> (-1074 <= degree e * g)%Z ->
  exists x, last_opt l = Some x /\
    (xn_negative (run e) = Some true <-> exact e < 0) /\
    (xn_not_zero (run e) = Some false <-> exact e = 0) /\
    double_to_sign x = (if Rlt_dec 0 (exact e) then Dispatch.Positive
                        else if Rlt_dec (exact e) 0 then Dispatch.Negative else Dispatch.Zero).
Proof.
  intros e l g E A Lg G0 G. destruct (run_exact e l g E A Lg G0 G) as (H1 & H2 & _).
  destruct (last_some l) as (x & Ex); [apply H1|]. exists x. split; auto.
  destruct (last_sign l x H1 Ex) as (Fx & S1 & S2). rewrite value_exact, H2 in S1, S2.
  unfold xn_negative, xn_not_zero, x_last, obind. rewrite E, Ex. cbn [option_map].
  assert (L1 : flt x fzero = Rlt_bool (B2R x) 0) by (unfold flt; rewrite Bltb_correct; auto).
  assert (L2 : flt fzero x = Rlt_bool 0 (B2R x)) by (unfold flt; rewrite Bltb_correct; auto).
  split; [|split].
  - rewrite L1. destruct (Rlt_bool_spec (B2R x) 0); split; intros Q; try discriminate; auto; try tauto.
    + apply S2 in Q. lra.
  - rewrite nonzero_fin by auto. destruct (Req_EM_T (val x) 0) as [Z|Z]; split; intros Q; try discriminate; auto.
    + destruct (Rtotal_order (exact e) 0) as [T|[T|T]]; auto; [apply S2 in T|apply S1 in T]; lra.
    + exfalso. destruct (Rtotal_order (val x) 0) as [T|[T|T]]; auto; [apply S2 in T|apply S1 in T]; lra.
  - unfold double_to_sign. rewrite L1, L2.
    destruct (Rlt_bool_spec 0 (B2R x)); destruct (Rlt_dec 0 (exact e)); try tauto; try (exfalso; tauto).
    + exfalso. apply S1 in r. lra.
    + destruct (Rlt_bool_spec (B2R x) 0); destruct (Rlt_dec (exact e) 0); try tauto; exfalso; tauto || (apply S2 in r; lra).
Qed.

(** A case: (1 + 2^-60) * (1 - 2^-60) - 1 = -2^-120. *)
Definition case_expr : expr :=
  ESub (EMul (EAdd (Leaf (fl 1 0)) (Leaf (fl 1 (-60)))) (ESub (Leaf (fl 1 0)) (Leaf (fl 1 (-60))))) (Leaf (fl 1 0)).
Example case_run : exists l, run case_expr = Some l /\ all_finite l /\ leaves_on (-60) case_expr /\
  (-1074 <= degree case_expr * -60)%Z /\ xn_negative (run case_expr) = Some true.
Proof.
  destruct (run_total case_expr) as (l & E & _).
  exists l. split; auto. split.
  - assert (B : option_map (forallb (fun x => is_finite x)) (run case_expr) = Some true) by (vm_compute; reflexivity).
    rewrite E in B. cbn [option_map] in B. injection B as B. rewrite forallb_forall in B. exact B.
  - split; [|split; [vm_compute; discriminate|vm_compute; reflexivity]].
    assert (M0 : multiple (-60) (B2R (fl 1 0))).
    { destruct (fl_val 1 0) as [-> _]; [simpl; lia|lia|]. apply (mult_le (-60) 0); [lia|]. exists 1%Z. reflexivity. }
    assert (M1 : multiple (-60) (B2R (fl 1 (-60)))).
    { destruct (fl_val 1 (-60)) as [-> _]; [simpl; lia|lia|]. exists 1%Z. reflexivity. }
    cbn [leaves_on case_expr]. tauto.
Qed.
Example case_operand : operand [fl 1 0; fl 1 1; fl 1 60].
Proof.
  destruct (fl_val 1 0) as [V0 F0]; [simpl; lia|lia|]. destruct (fl_val 1 1) as [V1 F1]; [simpl; lia|lia|].
  destruct (fl_val 1 60) as [V2 F2]; [simpl; lia|lia|].
  split.
  - intros x [<-|[<-|[<-|[]]]]; auto.
  - left. split; [discriminate|]. cbn [map]. rewrite V0, V1, V2. cbn [rev app].
    change (bpow radix2 0) with 1. change (bpow radix2 1) with 2. change (bpow radix2 60) with 1152921504606846976.
    simpl. split; [lra|]. split; [split; [lra|split; [split; [lra|auto]|]]|].
    + right. split; [|split; [|split]]; auto.
      * exists 1%Z. split; [exists 1%Z; simpl; lra|]. rewrite Rabs_right; simpl; lra.
      * exists 1%Z. rewrite Rabs_right; simpl; lra.
      * exists 0%Z. rewrite Rabs_right; simpl; lra.
    + left. exists 60%Z. split; [exists 1%Z; simpl; lra|]. rewrite Rabs_right; simpl; lra.
Qed.

(** ** C23 *)
Lemma sum_pass_ok : forall hs q q' hs', sum_pass q hs = (q', hs') -> fin q' = true -> allfin hs' ->
  fin q = true /\ allfin hs /\ val q' + value hs' = val q + value hs /\ length hs' = length hs.
Proof.
  induction hs as [|h hs IH]; intros q q' hs' E F A.
  - cbn [sum_pass] in E. apply pair_equal_spec in E. destruct E as [<- <-]. auto.
  - cbn [sum_pass] in E. destruct (two_sum q h) as [x y] eqn:T. destruct (sum_pass x hs) as [q1 h1] eqn:S.
    apply pair_equal_spec in E. destruct E as [<- <-]. inversion A as [|? ? Fy A1]; subst.
    destruct (IH _ _ _ S F A1) as (Fx & Ah & V & Ln).
    destruct (two_sum_exact q h x y T Fy) as (Fq & Fh & _ & V1 & V2).
    split; auto. split; [constructor; auto|]. split; [unfold value in *; simpl; lra|simpl; lia].
Qed.
Lemma allfin_firstn : forall n l, allfin l -> allfin (firstn n l) /\ allfin (skipn n l).
Proof. intros n l H. rewrite <- (firstn_skipn n l) in H. apply allfin_app in H. auto. Qed.
Lemma value_app : forall a b, value (a ++ b) = value a + value b.
Proof. intros. unfold value. rewrite vals_app, sumR_app. auto. Qed.
Lemma sum_loop_value : forall es start h h', expansion_sum_loop start es h = h' -> allfin h' ->
  allfin h /\ value h' = value h + value es.
Proof.
  induction es as [|e es IH]; intros start h h' E A.
  - cbn [expansion_sum_loop] in E. subst. split; auto. unfold value. simpl. lra.
  - cbn [expansion_sum_loop] in E. destruct (sum_pass e (skipn start h)) as [q hs] eqn:S.
    destruct (IH _ _ _ E A) as (A1 & V). apply allfin_app in A1. destruct A1 as [A1 A2].
    apply allfin_app in A2. destruct A2 as [A2 A3]. inversion A3 as [|? ? Fq _]; subst.
    destruct (sum_pass_ok _ _ _ _ S Fq A2) as (Fe & A4 & V2 & _).
    split.
    + rewrite <- (firstn_skipn start h). apply allfin_app. auto.
    + rewrite V, !value_app. rewrite <- (firstn_skipn start h) at 2. rewrite value_app.
      unfold value in *. simpl in *. lra.
Qed.
(** What expansion_sum computes: the components of [e] after the first are
    added twice, those of [f] after the first not at all. *)
Theorem expansion_sum_value : forall e f0 f h, expansion_sum e (f0 :: f) = Some h -> all_finite h ->
  exact_value h = exact_value e + B2R f0 + exact_value (skipn 1 e).
Proof.
  intros e f0 f h E A. rewrite <- !value_exact. apply allfin_all in A. unfold expansion_sum in E.
  destruct (sum_pass f0 e) as [q hs] eqn:S. injection E as <-.
  destruct (sum_loop_value _ _ _ _ eq_refl A) as (A1 & V). apply allfin_app in A1. destruct A1 as [A1 A2].
  inversion A2 as [|? ? Fq _]; subst. destruct (sum_pass_ok _ _ _ _ S Fq A1) as (_ & _ & V2 & _).
  rewrite V, value_app. unfold value in *. simpl in *. lra.
Qed.
Theorem expansion_sum_refuted : exists e f h, operand e /\ operand f /\ expansion_sum e f = Some h /\ all_finite h /\
  exact_value h <> exact_value e + exact_value f.
Proof.
  assert (E0 : exists h, expansion_sum [fl 1 0] [fl 1 0; fl 1 1; fl 1 60] = Some h).
  { unfold expansion_sum. destruct (sum_pass (fl 1 0) [fl 1 0]). eexists. reflexivity. }
  destruct E0 as (h & E).
  exists [fl 1 0], [fl 1 0; fl 1 1; fl 1 60], h.
  destruct (fl_val 1 0) as [V0 F0]; [simpl; lia|lia|]. destruct (fl_val 1 1) as [V1 F1]; [simpl; lia|lia|].
  destruct (fl_val 1 60) as [V2 F2]; [simpl; lia|lia|].
  assert (A : all_finite h).
  { assert (B : option_map (forallb (fun x => is_finite x)) (expansion_sum [fl 1 0] [fl 1 0; fl 1 1; fl 1 60]) = Some true)
      by (vm_compute; reflexivity).
    rewrite E in B. cbn [option_map] in B. injection B as B. rewrite forallb_forall in B. exact B. }
  split; [|split; [exact case_operand|split; [exact E|split; [exact A|]]]].
  - split; [intros x [<-|[]]; auto|]. left. split; [discriminate|]. cbn [map]. rewrite V0. simpl. split; [lra|auto].
  - rewrite (expansion_sum_value _ _ _ _ E A). cbn [exact_value fold_right skipn]. rewrite V0, V1, V2. simpl. lra.
Qed.

(** ** C24 *)
(** On non-empty lists (whatever they hold) none of the operations panics
    or returns an empty list. *)
Theorem operations_total : forall e f b, e <> [] -> f <> [] ->
  (exists h, fast_expansion_sum_zeroelim e f = Some h /\ h <> []) /\
  (exists h, fast_expansion_diff_zeroelim e f = Some h /\ h <> []) /\
  (exists h, scale_expansion_zeroelim e b = Some h /\ h <> []) /\
  (exists h, mul_expansion_zeroelim e f = Some h /\ h <> []).
Proof.
  intros e f b Ne Nf. split; [apply fes_some; auto|]. split; [apply fes_some; auto using map_nil|].
  split; [apply scale_some; auto|apply mul_some; auto].
Qed.
(** With an empty operand they lose a component or panic, and
    grow_expansion_zeroelim produces empty lists. *)
Theorem empty_operand_refuted :
  (forall x, fast_expansion_sum_zeroelim [] [x] = Some []) /\
  fast_expansion_sum_zeroelim [] [] = None /\
  (forall b, scale_expansion_zeroelim [] b = None) /\
  grow_expansion_zeroelim [fl 1 0] (fl (-1) 0) = [] /\
  xn_negative (Some (grow_expansion_zeroelim [fl 1 0] (fl (-1) 0))) = None.
Proof.
  split; [reflexivity|]. split; [reflexivity|]. split.
  - intros b. unfold scale_expansion_zeroelim. destruct (split b). reflexivity.
  - split; vm_compute; reflexivity.
Qed.

Print Assumptions exact_init_ok.
Print Assumptions two_sum_exact.
Print Assumptions square_exact.
Print Assumptions run_total.
Print Assumptions run_exact.
Print Assumptions run_sign.
Print Assumptions expansion_sum_refuted.
Print Assumptions operations_total.
