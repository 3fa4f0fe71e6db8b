(** Proofs about the projection axis of a triangle. *)
From Coq Require Import ZArith Reals List Bool Lia Lra Psatz.
From Flocq Require Import Core BinarySingleNaN.
From Verif Require Import Lib F64 F64Facts Expansion GenericFormulas Filters ExpReal ExpFloat ExpZero ExpEst ExpSpec ExplicitSpec ExplicitProofs ErrBound ErrStageA ErrStatic MaxComp.
Import ListNotations.
Local Open Scope R_scope.

(** * Sums, differences and products of expansions, with magnitudes *)
Lemma rep_one : forall g m a, num g m a -> rep g m 1 [a] (val a).
Proof.
  intros g m a (F & M & V). destruct (expn_single a F) as (X1 & X2). split; [|split; [|split; [|split]]].
  - apply expn_wexpn; auto.
  - auto.
  - constructor; auto.
  - constructor; auto.
  - simpl. lia.
Qed.
Lemma rep_fed : forall g m n e u g' m' n' f v, rep g m n e u -> rep g' m' n' f v ->
  (-1074 <= g)%Z -> (-1074 <= g')%Z -> (-1074 <= m)%Z ->
  (Z.max m m' + Z.log2_up (n + n') <= 1018)%Z -> (Z.log2_up (n + n') <= 53)%Z ->
  exists h, fast_expansion_diff_zeroelim e f = Some h /\ expn h /\
    rep (Z.min g g') (Z.max m m' + Z.log2_up (n + n')) (n + n') h (u - v).
Proof.
  intros g m n e u g' m' n' f v He Hf T1 T2 T3 T4 T5. apply rep_neg in Hf.
  exact (rep_fes g m n e u g' m' n' _ _ He Hf T1 T2 T3 T4 T5).
Qed.
Lemma rep_len : forall g m n l v, rep g m n l v -> (1 <= n)%Z.
Proof. intros g m n l v ((_ & N & _) & _ & _ & _ & L). destruct l; [tauto|]. simpl in L. lia. Qed.

Section Mul.
Variables (g m n g' m' n' J : Z) (f : list f64) (v : R).
Hypothesis Hf : rep g' m' n' f v.
Hypothesis G1 : (-1074 <= g)%Z.
Hypothesis G2 : (-1074 <= g')%Z.
Hypothesis G3 : (-1074 <= g + g')%Z.
Hypothesis M1 : (m <= 470)%Z.
Hypothesis M2 : (m' <= 470)%Z.
Hypothesis M3 : (-1074 <= m + m')%Z.
Hypothesis J1 : (0 <= J <= 53)%Z.
Hypothesis J2 : (2 * n' * n <= 2 ^ J)%Z.
Hypothesis J3 : (m + m' + J * n <= 1018)%Z.
Lemma scale_one : forall s, (1 <= n)%Z -> num g m s -> exists h, scale_expansion_zeroelim f s = Some h /\ expn h /\
  rep (g + g') (m + m' + J) (2 * n') h (v * val s).
Proof.
  intros s Hn Hs. pose proof (rep_len _ _ _ _ _ Hf) as Ln.
  assert (L : (Z.log2_up (2 * n') <= J)%Z).
  { rewrite <- (Z.log2_up_pow2 J) by lia. apply Z.log2_up_le_mono. nia. }
  assert (Jn : (J <= J * n)%Z) by nia.
  destruct (rep_scale _ _ _ _ _ _ _ _ Hf Hs) as (h & E & X & H); try lia.
  exists h. split; auto. split; auto. apply rep_weak with (1 := H); lia.
Qed.
Lemma mul_fold : forall rest acc k w, Forall (num g m) rest -> (1 <= k)%Z -> (k + Z.of_nat (length rest) <= n)%Z ->
  expn acc -> rep (g + g') (m + m' + J * k) (2 * n' * k) acc w ->
  exists h, fold_left (fun acc s => obind acc (fun a => obind (scale_expansion_zeroelim f s)
                (fun b => fast_expansion_sum_zeroelim a b))) rest (Some acc) = Some h /\ expn h /\
    rep (g + g') (m + m' + J * n) (2 * n' * n) h (w + v * value rest).
Proof.
  pose proof (rep_len _ _ _ _ _ Hf) as Ln.
  induction rest as [|s rest IH]; intros acc k w F Hk Hn X H.
  - exists acc. split; auto. split; auto. simpl in Hn. replace (w + v * value []) with w by (unfold value; simpl; lra).
    apply rep_weak with (1 := H); nia.
  - simpl in Hn. inversion F as [|? ? Hs Fr]; subst.
    destruct (scale_one s ltac:(lia) Hs) as (b & Eb & Xb & Hb).
    assert (L : (Z.log2_up (2 * n' * k + 2 * n') <= J)%Z).
    { rewrite <- (Z.log2_up_pow2 J) by lia. apply Z.log2_up_le_mono. nia. }
    assert (JJ : (m + m' + J * k + J <= 1018)%Z) by nia.
    assert (Jk : (0 <= J * k)%Z) by nia. assert (Jk2 : (J <= J * k)%Z) by nia.
    destruct (rep_fes _ _ _ _ _ _ _ _ _ _ H Hb) as (h & E & Xh & Hh); try lia.
    destruct (IH h (k + 1)%Z (w + v * val s) Fr ltac:(lia) ltac:(lia) Xh) as (h' & E' & Xh' & Hh').
    { apply rep_weak with (1 := Hh); lia. }
    exists h'. cbn [fold_left]. rewrite Eb. cbn [obind]. rewrite E. split; auto. split; auto.
    replace (w + v * value (s :: rest)) with (w + v * val s + v * value rest) by (unfold value; simpl; lra). auto.
Qed.
Lemma mul_imp_ok : forall e u, rep g m n e u -> exists h, mul_expansion_zeroelim_imp e f = Some h /\ expn h /\
  rep (g + g') (m + m' + J * n) (2 * n' * n) h (u * v).
Proof.
  intros e u ((Fe & Ne & _) & <- & Ge & Be & Le). destruct e as [|s rest]; [tauto|]. simpl in Le.
  assert (F : Forall (num g m) (s :: rest)).
  { apply Forall_forall. intros x Hx. unfold allfin, grid, bd in *. rewrite Forall_forall in *. repeat split; auto. }
  inversion F as [|? ? Hs Fr]; subst.
  destruct (scale_one s ltac:(lia) Hs) as (b & Eb & Xb & Hb).
  destruct (mul_fold rest b 1 (v * val s) Fr ltac:(lia) ltac:(lia) Xb) as (h & E & X & H).
  { apply rep_weak with (1 := Hb); lia. }
  exists h. unfold mul_expansion_zeroelim_imp. rewrite Eb. split; auto. split; auto.
  replace (value (s :: rest) * v) with (v * val s + v * value rest) by (unfold value; simpl; lra). auto.
Qed.
End Mul.
Lemma rep_mul : forall g m n e u g' m' n' f v J, rep g m n e u -> rep g' m' n' f v ->
  (-1074 <= g)%Z -> (-1074 <= g')%Z -> (-1074 <= g + g')%Z -> (m <= 470)%Z -> (m' <= 470)%Z -> (-1074 <= m + m')%Z ->
  (0 <= J <= 53)%Z -> (2 * n * n' <= 2 ^ J)%Z -> (m + m' + J * Z.max n n' <= 1018)%Z ->
  exists h, mul_expansion_zeroelim e f = Some h /\ expn h /\
    rep (g + g') (m + m' + J * Z.max n n') (2 * n * n') h (u * v).
Proof.
  intros g m n e u g' m' n' f v J He Hf G1 G2 G3 M1 M2 M3 J1 J2 J3.
  pose proof (rep_len _ _ _ _ _ He) as Ln. pose proof (rep_len _ _ _ _ _ Hf) as Ln'.
  assert (EF : exists h, mul_expansion_zeroelim_imp e f = Some h /\ expn h /\
    rep (g + g') (m + m' + J * Z.max n n') (2 * n * n') h (u * v)).
  { destruct (mul_imp_ok g m n g' m' n' J f v Hf G1 G2 G3 M1 M2 M3 J1 ltac:(lia) ltac:(nia) e u He) as (h & E & X & H).
    exists h. split; auto. split; auto. apply rep_weak with (1 := H); nia. }
  assert (FE : exists h, mul_expansion_zeroelim_imp f e = Some h /\ expn h /\
    rep (g + g') (m + m' + J * Z.max n n') (2 * n * n') h (u * v)).
  { destruct (mul_imp_ok g' m' n' g m n J e u He G2 G1 ltac:(lia) M2 M1 ltac:(lia) J1 ltac:(lia) ltac:(nia) f v Hf) as (h & E & X & H).
    exists h. rewrite Rmult_comm. split; auto. split; auto. apply rep_weak with (1 := H); nia. }
  unfold mul_expansion_zeroelim.
  destruct e as [|e1 [|e2 e]]; [destruct (proj1 (proj2 (proj1 He))); auto|exact EF|].
  destruct f as [|f1 [|f2 f]]; [destruct (proj1 (proj2 (proj1 Hf))); auto|exact FE|].
  destruct (Nat.ltb _ _); auto.
Qed.

(** * The exact stage *)
Definition sgn_ok (x : f64) (v : R) : Prop := fin x = true /\ (val x = 0 <-> v = 0).
Lemma x_diff : forall a b, num (-180) 100 a -> num (-180) 100 b ->
  exists h, xsub (xof a) (xof b) = Some h /\ rep (-180) 101 2 h (val a - val b).
Proof.
  intros a b Ha Hb. destruct (rep_fed _ _ _ _ _ _ _ _ _ _ (rep_one _ _ _ Ha) (rep_one _ _ _ Hb)) as (h & E & _ & H);
    try lia; try (change (Z.log2_up (1 + 1)) with 1%Z; lia).
  exists h. split; auto.
Qed.
Lemma x_cross : forall p q r s e1 e2 e3 e4, p = Some e1 -> q = Some e2 -> r = Some e3 -> s = Some e4 ->
  forall a b c d, rep (-180) 101 2 e1 a -> rep (-180) 101 2 e2 b -> rep (-180) 101 2 e3 c -> rep (-180) 101 2 e4 d ->
  exists x, x_last (xsub (xmul p q) (xmul r s)) = Some x /\ sgn_ok x (a * b - c * d).
Proof.
  intros p q r s e1 e2 e3 e4 -> -> -> -> a b c d H1 H2 H3 H4.
  destruct (rep_mul _ _ _ _ _ _ _ _ _ _ 3 H1 H2) as (h & E & _ & H); try lia.
  destruct (rep_mul _ _ _ _ _ _ _ _ _ _ 3 H3 H4) as (h' & E' & _ & H'); try lia.
  destruct (rep_fed _ _ _ _ _ _ _ _ _ _ H H') as (k & Ek & Xk & Hk); try lia; try (change (Z.log2_up (2 * 2 * 2 + 2 * 2 * 2)) with 4%Z; lia).
  destruct (rep_last _ _ _ _ _ Hk Xk) as (x & L & F & S1 & S2).
  exists x. unfold xmul, xsub, obind. rewrite E, E', Ek. split; auto. split; auto.
  split; intros Z.
  - destruct (Rtotal_order (a * b - c * d) 0) as [T|[T|T]]; auto; [apply S2 in T|apply S1 in T]; lra.
  - destruct (Rtotal_order (val x) 0) as [T|[T|T]]; auto; [apply S2 in T|apply S1 in T]; lra.
Qed.

(** * The selection *)
Lemma total_le_val : forall a b, fin a = true -> fin b = true -> total_le a b = Rle_bool (val a) (val b).
Proof.
  intros a b Fa Fb. unfold total_le. replace (is_nan a) with false by (destruct a; auto; discriminate).
  replace (is_nan b) with false by (destruct b; auto; discriminate). simpl. apply Bleb_correct; auto.
Qed.
Lemma max_index_ok : forall x y z, fin x = true -> fin y = true -> fin z = true ->
  exists k v, max_index x y z = (k, v) /\ fin v = true /\ val x <= val v /\ val y <= val v /\ val z <= val v /\
    (k = 0%nat /\ v = x \/ k = 1%nat /\ v = y \/ k = 2%nat /\ v = z).
Proof.
  intros x y z Fx Fy Fz. unfold max_index. rewrite (total_le_val x y) by auto.
  destruct (Rle_bool_spec (val x) (val y)); cbn [snd]; rewrite total_le_val by auto;
  match goal with |- context [Rle_bool ?a ?b] => destruct (Rle_bool_spec a b) end;
  eexists; eexists; (split; [reflexivity|]); repeat split; auto; try lra; tauto.
Qed.

(** * The filter *)
Lemma fold_max_ok : forall g w l a, num g w a -> 0 <= val a -> Forall (num g w) l ->
  num g w (fold_left fmax (map fabs l) a) /\ val a <= val (fold_left fmax (map fabs l) a) /\
  forall x, In x l -> Rabs (val x) <= val (fold_left fmax (map fabs l) a).
Proof.
  intros g w. induction l as [|b l IH]; intros a Na Pa F; cbn [map fold_left].
  - split; auto. split; [lra|]. intros x [].
  - inversion F as [|? ? Nb Fl]; subst. destruct (fmax_ok g w a (fabs b) Na (num_abs _ _ _ Nb)) as (N & L1 & L2).
    destruct (IH (fmax a (fabs b)) N ltac:(lra) Fl) as (N' & L & H). split; auto. split; [lra|].
    intros x [<-|I]; auto. rewrite fabs_val in L2. lra.
Qed.
Lemma abs_max_ok : forall g w l, l <> [] -> Forall (num g w) l ->
  num g w (abs_max l) /\ 0 <= val (abs_max l) /\ forall x, In x l -> Rabs (val x) <= val (abs_max l).
Proof.
  intros g w [|a l] N F; [tauto|]. inversion F as [|? ? Na Fl]; subst. unfold abs_max. cbn [map].
  assert (P : 0 <= val (fabs a)) by (rewrite fabs_val; apply Rabs_pos).
  destruct (fold_max_ok g w l (fabs a) (num_abs _ _ _ Na) P Fl) as (N' & L & H). split; auto. split; [lra|].
  intros x [<-|I]; auto. rewrite fabs_val in L. auto.
Qed.
Lemma ap_err : forall M d m n g w x X, ap M d m n g w x X -> Rabs (val x - X) <= (n - m + (tt ^ d - 1) * m) * M ^ d.
Proof.
  intros M d m n g w x X (_ & _ & y & _ & E & E'). replace (val x - X) with ((val x - y) - (X - y)) by ring.
  unfold Rminus at 1. apply Rle_trans with (1 := Rabs_triang _ _). rewrite Rabs_Ropp. lra.
Qed.
Lemma tri_eps_ok : num (-102) (-49) tri_normal_eps /\ val tri_normal_eps = IZR 4504697819959031 * B (-102).
Proof.
  destruct (const_val tri_normal_eps 4504697819959031 (-102) ltac:(vm_compute; reflexivity) ltac:(lia) ltac:(lia)) as (F & V & N). split; auto.
Qed.
Section Opaque.
Local Opaque fadd fsub fmul fabs fneg fmax tri_normal_eps abs_max.
Lemma cross_ok : forall M a b c d a' b' c' d', 0 <= val M -> num (-180) 101 M ->
  num (-180) 100 a -> num (-180) 100 b -> num (-180) 100 c -> num (-180) 100 d ->
  num (-180) 100 a' -> num (-180) 100 b' -> num (-180) 100 c' -> num (-180) 100 d' ->
  Rabs (val (fsub a a')) <= val M -> Rabs (val (fsub b b')) <= val M -> Rabs (val (fsub c c')) <= val M -> Rabs (val (fsub d d')) <= val M ->
  let x := fsub (fmul (fsub a a') (fsub b b')) (fmul (fsub c c') (fsub d d')) in
  fin x = true /\ (flt (fmul (fmul tri_normal_eps M) M) (fabs x) = true ->
    (val a - val a') * (val b - val b') - (val c - val c') * (val d - val d') <> 0).
Proof.
  intros M a b c d a' b' c' d' M0 NM Na Nb Nc Nd Na' Nb' Nc' Nd' Ha Hb Hc Hd x.
  assert (A : exists m n g w, ap (val M) 2 m n g w x ((val a - val a') * (val b - val b') - (val c - val c') * (val d - val d')) /\
    n - m + (tt ^ 2 - 1) * m <= 4 * (tt ^ 2 - 1)).
  { do 4 eexists. split; [unfold x; change 2%nat with (1 + 1)%nat; do_ap|]. lra. }
  destruct A as (m & n & g & w & A & L). assert (Fx : fin x = true) by apply A. split; auto. intros E Z.
  apply ap_err in A. rewrite Z, Rminus_0_r in A.
  destruct tri_eps_ok as (NK & VK).
  assert (K0 : 0 <= val tri_normal_eps). { rewrite VK. apply Rmult_le_pos; [apply IZR_le; lia|left; apply B_pos]. }
  destruct (mass_mul _ _ _ _ _ _ NK NM K0 M0) as (P1 & Q1 & N1); try lia.
  destruct (mass_mul _ _ _ _ _ _ N1 NM P1 M0) as (P2 & Q2 & N2); try lia.
  apply flt_val in E; [|apply N2|rewrite fabs_fin; auto]. rewrite fabs_val in E.
  pose proof tt_ge as T1. assert (M2 : 0 <= val M ^ 2) by (apply pow_le; auto).
  assert (Q : val tri_normal_eps * val M ^ 2 <= tt * tt * val (fmul (fmul tri_normal_eps M) M)).
  { replace (val tri_normal_eps * val M ^ 2) with (val tri_normal_eps * val M * val M) by ring.
    apply Rle_trans with (tt * val (fmul tri_normal_eps M) * val M); [apply Rmult_le_compat_r; auto|].
    rewrite !Rmult_assoc. apply Rmult_le_compat_l; [lra|auto]. }
  assert (R1 : tt * tt * val (fmul (fmul tri_normal_eps M) M) <= tt * tt * (4 * (tt ^ 2 - 1) * val M ^ 2)).
  { apply Rmult_le_compat_l; [nra|]. apply Rle_trans with (Rabs (val x)); [lra|]. apply Rle_trans with (1 := A).
    apply Rmult_le_compat_r; auto. }
  assert (R2 : val tri_normal_eps * val M ^ 2 <= (tt * tt * (4 * (tt ^ 2 - 1))) * val M ^ 2) by (rewrite Rmult_assoc; lra).
  assert (R3 : tt * tt * (4 * (tt ^ 2 - 1)) < val tri_normal_eps).
  { rewrite VK. change (B (-102)) with (/ IZR (2 ^ 102)). change (IZR (2 ^ 102)) with 5070602400912917605986812821504. unfold tt, uu. simpl pow. lra. }
  destruct (Rle_lt_or_eq_dec _ _ M2) as [M2'|M2'].
  - apply Rmult_le_reg_r in R2; auto. lra.
  - rewrite <- M2' in A. rewrite Rmult_0_r in A. lra.
Qed.
End Opaque.
