(** remove_duplicates: rounding to a power of two, and the merging of equal
    points. *)
From Coq Require Import ZArith Reals List Arith Bool Lia Lra Permutation Sorted Psatz.
From Flocq Require Import Core BinarySingleNaN.
From Verif Require Import Lib F64 F64Facts Soup SoupProofs.
Import ListNotations.
Local Open Scope R_scope.

Notation B := (bpow radix2).

Lemma scale_format x d : generic_format radix2 b64exp x -> x <> 0 -> (-1021 <= mag radix2 x + d)%Z ->
  generic_format radix2 b64exp (x * B d).
Proof.
  intros F N D. rewrite F at 1. set (M := Ztrunc (scaled_mantissa radix2 b64exp x)).
  unfold F2R. cbn [Fnum Fexp]. rewrite Rmult_assoc, <- bpow_plus.
  assert (E : IZR M * B (cexp radix2 b64exp x + d) = x * B d).
  { rewrite bpow_plus, <- Rmult_assoc. f_equal. rewrite F at 2. reflexivity. }
  apply generic_format_F2R' with (f := Float radix2 M (cexp radix2 b64exp x + d)); [reflexivity|].
  intros _. rewrite E. unfold cexp. rewrite mag_mult_bpow by auto. cbn [Fexp].
  unfold SpecFloat.fexp, SpecFloat.emin, prec, emax. lia.
Qed.

Lemma pow2_val e : (-1074 <= e < 1024)%Z -> B2R (pow2 e) = B e /\ is_finite (pow2 e) = true /\ Bsign (pow2 e) = false.
Proof.
  intros He. unfold pow2, fl. pose proof (binary_normalize_correct prec emax _ _ mode_NE 1 e false) as H.
  assert (V : F2R (Float radix2 1 e) = B e) by (unfold F2R; cbn; lra). rewrite V in H.
  cbn [round_mode] in H. rewrite round_generic in H; [|apply valid_rnd_N|apply generic_format_bpow; unfold SpecFloat.fexp, SpecFloat.emin, prec, emax; lia].
  rewrite Rlt_bool_true in H by (rewrite Rabs_pos_eq by apply bpow_ge_0; apply bpow_lt; unfold emax; lia).
  destruct H as (H1 & H2 & H3). split; auto. split; auto.
  rewrite H3. rewrite Rcompare_Gt; auto. apply bpow_gt_0.
Qed.

Lemma exponent_spec (x : f64) : is_finite x = true -> (-1022 <= get_exponent x)%Z -> B2R x <> 0 ->
  B (get_exponent x) <= Rabs (B2R x).
Proof.
  destruct x as [s|s| |s m e H]; cbn [get_exponent is_finite B2R]; intros F G N; try discriminate; try (exfalso; apply N; reflexivity).
  destruct (Z.ltb_spec (Z.pos m) (2 ^ 52)); [lia|].
  rewrite <- F2R_Zabs. rewrite abs_cond_Zopp. cbn [Z.abs]. unfold F2R. cbn [Fnum Fexp].
  rewrite Z.add_comm, bpow_plus. apply Rmult_le_compat_r; [apply bpow_ge_0|]. rewrite <- (IZR_Zpower radix2) by lia. apply IZR_le. exact H0.
Qed.

Lemma snap_ok (x : f64) e : (-1022 <= e <= 1022)%Z -> is_finite x = true ->
  Rabs (B2R x) <= B 1023 -> Rabs (B2R x) <= B 1022 * B e ->
  is_finite (snap (pow2 e) x) = true /\ Rabs (B2R (snap (pow2 e) x) - B2R x) <= B e / 2.
Proof.
  intros He Fx M1 M2. destruct (pow2_val e) as (Vb & Fb & _); [lia|].
  assert (P : 0 < B e) by apply bpow_gt_0. assert (P22 : 0 < B 1022) by apply bpow_gt_0.
  unfold snap. set (q := fdiv x (pow2 e)).
  assert (Q : B2R q = rnd64 (B2R x / B e) /\ is_finite q = true).
  { pose proof (Bdiv_correct prec emax _ _ mode_NE x (pow2 e)) as D. rewrite Vb in D. specialize (D ltac:(lra)).
    cbn [round_mode] in D. rewrite Rlt_bool_true in D; [destruct D as (D1 & D2 & _); split; [exact D1|unfold q, fdiv; rewrite D2; auto]|].
    apply Rle_lt_trans with (B 1022); [|apply bpow_lt; unfold emax; lia].
    apply abs_round_le_generic; [apply fexp_correct; reflexivity|apply valid_rnd_N|apply generic_format_bpow; unfold SpecFloat.fexp, SpecFloat.emin, prec, emax; lia|].
    unfold Rdiv. rewrite Rabs_mult, Rabs_inv, (Rabs_pos_eq (B e)) by lra. apply Rmult_le_reg_r with (B e); auto. rewrite Rmult_assoc, Rinv_l by lra. lra. }
  destruct Q as (Vq & Fq).
  destruct (Bnearbyint_correct prec emax _ mode_NA q) as (Vn & Fn & _). fold (fround q) in Vn, Fn.
  set (k := ZnearestA (B2R q)).
  assert (Vk : B2R (fround q) = IZR k).
  { rewrite Vn. unfold round, scaled_mantissa, cexp, FIX_exp, F2R. cbn [Fnum Fexp bpow round_mode Z.opp]. rewrite !Rmult_1_r. reflexivity. }
  assert (Key : Rabs (IZR k * B e - B2R x) <= B e / 2).
  { destruct (Rlt_le_dec (Rabs (B2R x)) (B e / 4)) as [L|L].
    - assert (K0 : k = 0%Z).
      { apply Znearest_imp. rewrite Rminus_0_r, Vq. apply Rle_lt_trans with (B (-2)); [|cbn; lra].
        apply abs_round_le_generic; [apply fexp_correct; reflexivity|apply valid_rnd_N|apply generic_format_bpow; unfold SpecFloat.fexp, SpecFloat.emin, prec, emax; lia|].
        unfold Rdiv. rewrite Rabs_mult, Rabs_inv, (Rabs_pos_eq (B e)) by lra. apply Rmult_le_reg_r with (B e); auto. rewrite Rmult_assoc, Rinv_l by lra. cbn [bpow]. change (IZR (Z.pow_pos radix2 2)) with 4. lra. }
      rewrite K0, Rmult_0_l, Rminus_0_l, Rabs_Ropp. lra.
    - assert (Nx : B2R x <> 0) by (intros Z; rewrite Z, Rabs_R0 in L; lra).
      assert (Ex : B2R q = B2R x * B (- e)).
      { rewrite Vq. replace (B2R x / B e) with (B2R x * B (- e)) by (rewrite bpow_opp; reflexivity).
        apply round_generic; [apply valid_rnd_N|]. apply scale_format; auto; [apply generic_format_B2R|].
        assert (e - 1 <= mag radix2 (B2R x))%Z; [|lia].
        apply mag_ge_bpow. replace (e - 1 - 1)%Z with (e + -2)%Z by lia. rewrite bpow_plus. cbn [bpow]. change (IZR (Z.pow_pos radix2 2)) with 4. lra. }
      assert (X : B2R x = B2R q * B e) by (rewrite Ex, Rmult_assoc, <- bpow_plus, Z.add_opp_diag_l; cbn; lra).
      rewrite X, <- Rmult_minus_distr_r, Rabs_mult, (Rabs_pos_eq (B e)) by lra.
      pose proof (Znearest_half (Z.leb 0) (B2R q)) as H. fold k in H. rewrite Rabs_minus_sym in H.
      apply Rle_trans with (/ 2 * B e); [apply Rmult_le_compat_r; lra|lra]. }
  assert (Fk : generic_format radix2 b64exp (IZR k * B e)).
  { destruct (Z.eq_dec k 0) as [->|Nk]; [rewrite Rmult_0_l; apply generic_format_0|].
    assert (IZR k <> 0) by (intros Z; apply eq_IZR in Z; auto).
    apply scale_format; auto; [rewrite <- Vk; apply generic_format_B2R|].
    assert (1 <= mag radix2 (IZR k))%Z; [|lia].
    apply mag_ge_bpow. cbn [Z.sub Z.add Z.opp bpow]. replace (1 + -1)%Z with 0%Z by lia. cbn [bpow]. 
    rewrite <- abs_IZR. apply IZR_le. lia. }
  assert (Bk : Rabs (IZR k * B e) < B emax).
  { apply Rle_lt_trans with (B 1023 + B e / 2).
    - replace (IZR k * B e) with (B2R x + (IZR k * B e - B2R x)) by lra. eapply Rle_trans; [apply Rabs_triang|]. lra.
    - assert (B e <= B 1022) by (apply bpow_le; lia). assert (E3 : B 1023 = 2 * B 1022) by (change 1023%Z with (1 + 1022)%Z; rewrite bpow_plus; cbn [bpow]; change (IZR (Z.pow_pos radix2 1)) with 2; reflexivity).
      assert (E4 : B emax = 4 * B 1022) by (change emax with (2 + 1022)%Z; rewrite bpow_plus; cbn [bpow]; change (IZR (Z.pow_pos radix2 2)) with 4; reflexivity). lra. }
  pose proof (Bmult_correct prec emax _ _ mode_NE (fround q) (pow2 e)) as M. rewrite Vk, Vb in M. cbn [round_mode] in M.
  rewrite (round_generic radix2 b64exp ZnearestE (IZR k * B e)) in M by auto.
  rewrite Rlt_bool_true in M by auto. destruct M as (V & F & _). unfold fmul. rewrite V, F, Fn, Fq, Fb. auto.
Qed.

(** * Merging *)
Definition at3 (points : list f64) (i : nat) : f64 * f64 * f64 :=
  (nth (3 * i) points fzero, nth (3 * i + 1) points fzero, nth (3 * i + 2) points fzero).
Definition val3 (p : f64 * f64 * f64) : R * R * R := let '(x, y, z) := p in (B2R x, B2R y, B2R z).
Definition lex_lt (p q : R * R * R) : Prop :=
  let '(px, py, pz) := p in let '(qx, qy, qz) := q in
  px < qx \/ (px = qx /\ (py < qy \/ (py = qy /\ pz < qz))).
Lemma lex_trans p q r : lex_lt p q -> lex_lt q r -> lex_lt p r.
Proof.
  destruct p as ((a, b), c), q as ((d, e), f), r as ((g, h), i). cbn.
  intros [H|(-> & [H|(-> & H)])] [H'|(<- & [H'|(<- & H')])];
    first [left; lra | right; split; [reflexivity|first [left; lra | right; split; [reflexivity|lra]]]].
Qed.
Lemma lex_irrefl p : ~ lex_lt p p.
Proof. destruct p as ((a, b), c). cbn. lra. Qed.

Lemma lex_total p q : lex_lt p q \/ p = q \/ lex_lt q p.
Proof.
  destruct p as ((a, b), c), q as ((d, e), f). cbn.
  destruct (Rtotal_order a d) as [H|[->|H]]; [lra| |lra]. destruct (Rtotal_order b e) as [H|[->|H]]; [lra| |lra].
  destruct (Rtotal_order c f) as [H|[->|H]]; [lra|auto|lra].
Qed.
Lemma skipn_nth {A} (l : list A) d : forall i, (i < length l)%nat -> skipn i l = nth i l d :: skipn (S i) l.
Proof. induction l as [|a l IH]; intros [|i] H; cbn in H |- *; try lia; auto. apply IH. lia. Qed.
Lemma point3_at points i : (3 * i + 3 <= length points)%nat -> point3 points i = Some (at3 points i).
Proof.
  intros H. unfold point3, at3. rewrite (proj2 (Nat.leb_le _ _) H).
  rewrite (skipn_nth points fzero) by lia. rewrite (skipn_nth points fzero (S (3 * i))) by lia.
  rewrite (skipn_nth points fzero (S (S (3 * i)))) by lia.
  replace (3 * i + 1)%nat with (S (3 * i)) by lia. replace (3 * i + 2)%nat with (S (S (3 * i))) by lia. reflexivity.
Qed.

Section Merge.
Variable points : list f64.
Hypothesis Fin : forall x, In x points -> is_finite x = true.
Let n := (length points / 3)%nat.
Let V (i : nat) := val3 (at3 points i).

Lemma in_points i : (i < n)%nat -> (3 * i + 3 <= length points)%nat.
Proof. unfold n. intros H. pose proof (Nat.mul_div_le (length points) 3 ltac:(lia)). lia. Qed.
Lemma point_eqb_val i j : (i < n)%nat -> (j < n)%nat -> point_eqb (at3 points i) (at3 points j) = true <-> V i = V j.
Proof.
  intros Hi Hj. apply in_points in Hi, Hj. unfold V, at3, point_eqb, val3, feq.
  rewrite !Beqb_correct by (apply Fin, nth_In; lia).
  split.
  - intros H. apply andb_prop in H. destruct H as (H & H3). apply andb_prop in H. destruct H as (H1 & H2).
    revert H1 H2 H3. repeat case Req_bool_spec; intros; try discriminate. congruence.
  - intros H. pose proof (f_equal (fun t => fst (fst t)) H) as H1. pose proof (f_equal (fun t => snd (fst t)) H) as H2.
    pose proof (f_equal snd H) as H3. cbn [fst snd] in H1, H2, H3. rewrite H1, H2, H3. now rewrite !Req_bool_true by reflexivity.
Qed.

Lemma merge_ok : forall l prev pmap outs j,
  (forall i, In i (prev :: l) -> (i < n)%nat) -> NoDup l ->
  StronglySorted (fun i k => ~ lex_lt (V k) (V i)) (prev :: l) ->
  length pmap = n -> V j = V prev -> nth_error outs (length outs - 1)%nat = Some j ->
  exists pmap' ex, merge_loop points prev l pmap outs = Some (pmap', outs ++ ex) /\ length pmap' = n /\
    (forall i, In i l -> exists o k, nth_error pmap' i = Some o /\ nth_error (outs ++ ex) o = Some k /\ V k = V i) /\
    (forall i, ~ In i l -> nth_error pmap' i = nth_error pmap i) /\
    (forall e, In e ex -> In e l /\ lex_lt (V prev) (V e)) /\
    StronglySorted (fun i k => lex_lt (V i) (V k)) ex.
Proof.
  induction l as [|i t IH]; intros prev pmap outs j Bd ND Ss Lp Vj Hl; cbn [merge_loop].
  - exists pmap, []. rewrite app_nil_r. repeat split; auto; try (intros ? []); try tauto. constructor.
  - inversion Ss as [|? ? St Hp]; subst. inversion ND as [|? ? Ni ND']; subst.
    assert (Hi : (i < n)%nat) by (apply Bd; cbn; auto). assert (Hpr : (prev < n)%nat) by (apply Bd; cbn; auto).
    rewrite !point3_at by (apply in_points; auto).
    assert (Bd' : forall k, In k (i :: t) -> (k < n)%nat) by (intros; apply Bd; cbn in *; tauto).
    inversion Hp as [|? ? Hpi Hpt]; subst. clear Hp.
    assert (Lset : forall v, set pmap i v = Some (upd pmap i v)) by (intros; unfold set; rewrite Lp, (proj2 (Nat.ltb_lt _ _) Hi); auto).
    rewrite !Lset.
    destruct (point_eqb (at3 points i) (at3 points prev)) eqn:E.
    + apply point_eqb_val in E; auto.
      destruct (IH i (upd pmap i (length outs - 1)%nat) outs j) as (pm & ex & H1 & H2 & H3 & H4 & H5 & H6); auto; [now rewrite upd_length|congruence|].
      exists pm, ex. split; auto. split; auto. split; [|split; [|split; auto]].
      * intros k [<-|Hk]; auto. exists (length outs - 1)%nat, j.
        rewrite H4 by auto. rewrite nth_error_upd_eq by lia. split; auto. split; [|congruence].
        rewrite nth_error_app1; auto. apply nth_error_Some. congruence.
      * intros k Hk. cbn [In] in Hk. rewrite H4 by tauto. apply nth_error_upd_neq. intros ->. tauto.
      * intros e He. destruct (H5 e He) as (A & C). split; [now right|]. rewrite E in C. exact C.
    + assert (Lt : lex_lt (V prev) (V i)).
      { assert (Ne : V i <> V prev) by (intros A; apply point_eqb_val in A; auto; congruence).
        clear -Hpi Ne. destruct (V prev) as ((a, b), c), (V i) as ((d, e), f). cbn in *.
        destruct (Rtotal_order a d) as [H|[->|H]]; [lra| |lra]. destruct (Rtotal_order b e) as [H|[->|H]]; [lra| |lra].
        destruct (Rtotal_order c f) as [H|[->|H]]; [lra|congruence|lra]. }
      destruct (IH i (upd pmap i (length outs)) (outs ++ [i]) i) as (pm & ex & H1 & H2 & H3 & H4 & H5 & H6); auto; [now rewrite upd_length| |].
      { rewrite app_length. cbn [length]. rewrite nth_error_app2 by lia. replace (length outs + 1 - 1 - length outs)%nat with 0%nat by lia. reflexivity. }
      exists pm, (i :: ex). rewrite <- app_assoc in H1, H3. cbn [app] in H1, H3. split; auto. split; auto. split; [|split; [|split]].
      * intros k [<-|Hk]; auto. exists (length outs), i. rewrite H4 by auto. rewrite nth_error_upd_eq by lia. split; auto. split; auto.
        rewrite nth_error_app2, Nat.sub_diag by lia. reflexivity.
      * intros k Hk. cbn [In] in Hk. rewrite H4 by tauto. apply nth_error_upd_neq. intros ->. tauto.
      * intros e [<-|He]; [split; [now left|auto]|]. destruct (H5 e He) as (A & C). split; [now right|]. eapply lex_trans; eauto.
      * constructor; auto. apply Forall_forall. intros e He. apply H5 in He. tauto.
Qed.
End Merge.

Lemma flat3_nth ps o p : nth_error ps o = Some p ->
  let l := flat_map (fun p : f64 * f64 * f64 => let '(x, y, z) := p in [x; y; z]) ps in
  (3 * o + 3 <= length l)%nat /\ at3 l o = p.
Proof.
  revert o; induction ps as [|((x, y), z) ps IH]; intros [|o] H; cbn in H; try discriminate; cbn [flat_map app].
  - inversion H; subst. cbn. split; [lia|reflexivity].
  - destruct (IH o H) as (A & C). split; [cbn [length]; cbn zeta in A; lia|].
    unfold at3 in *. cbn zeta in *. replace (3 * S o)%nat with (S (S (S (3 * o)))) by lia. cbn [nth Nat.add]. exact C.
Qed.
Lemma flat3_length ps : length (flat_map (fun p : f64 * f64 * f64 => let '(x, y, z) := p in [x; y; z]) ps) = (3 * length ps)%nat.
Proof. induction ps as [|((x, y), z) ps IH]; cbn [flat_map app length]; lia. Qed.
