(** Proofs about the spatial sort. *)
From Coq Require Import List Arith Bool Lia Permutation ZArith Reals Lra.
From Flocq Require Import Core BinarySingleNaN.
From Verif Require Import Lib F64 F64Facts SpatialSort.
Import ListNotations.
Local Open Scope opt_scope.

(** * The two-pointer partition *)

Lemma scan_ok stop (P : nat -> bool) l : (forall x, In x l -> stop x = Some (P x)) ->
  exists A B, l = A ++ B /\ scan stop l = Some (length A) /\ (forall x, In x A -> P x = false) /\
    match B with [] => True | b :: _ => P b = true end.
Proof.
  induction l as [|x l IH]; intros H.
  - exists [], []. simpl. repeat split; auto. intros x [].
  - cbn [scan]. rewrite (H x) by now left. destruct (P x) eqn:E.
    + exists [], (x :: l). simpl. repeat split; auto. intros y [].
    + destruct IH as (A & B & -> & S & HA & HB); [intros; apply H; now right|].
      exists (x :: A), B. rewrite S. simpl. split; [reflexivity|]. split; [reflexivity|]. split; auto.
      intros y [<-|Hy]; auto.
Qed.

Lemma nth_mid {A} (l1 l2 : list A) x : nth_error (l1 ++ x :: l2) (length l1) = Some x.
Proof. rewrite nth_error_app2, Nat.sub_diag; auto. Qed.
Lemma set_mid {A} (l1 l2 : list A) x y : set (l1 ++ x :: l2) (length l1) y = Some (l1 ++ y :: l2).
Proof.
  apply set_Some. split; [rewrite app_length; simpl; lia|].
  induction l1; simpl; auto. f_equal. exact IHl1.
Qed.

Lemma swap_mid A M B x y :
  swap (A ++ x :: M ++ y :: B) (length A) (length A + S (length M)) = Some (A ++ y :: M ++ x :: B).
Proof.
  unfold swap. rewrite nth_mid.
  replace (A ++ x :: M ++ y :: B) with ((A ++ x :: M) ++ y :: B) at 1 by (rewrite <- app_assoc; reflexivity).
  replace (length A + S (length M)) with (length (A ++ x :: M)) at 1 by (rewrite app_length; reflexivity).
  rewrite nth_mid, set_mid.
  replace (A ++ y :: M ++ y :: B) with ((A ++ y :: M) ++ y :: B) by (rewrite <- app_assoc; reflexivity).
  replace (length A + S (length M)) with (length (A ++ y :: M)) by (rewrite app_length; reflexivity).
  rewrite set_mid. rewrite <- app_assoc. reflexivity.
Qed.

Lemma skipn_app_l {A} (l1 l2 : list A) : skipn (length l1) (l1 ++ l2) = l2.
Proof. rewrite skipn_app, skipn_all, Nat.sub_diag. reflexivity. Qed.

Lemma split_loop_ok up down (low : nat -> bool) : forall fuel A M B,
  (forall x, In x (A ++ M ++ B) -> up x = Some (negb (low x)) /\ down x = Some (low x)) ->
  (forall x, In x A -> low x = true) -> (forall x, In x B -> low x = false) ->
  length M < fuel \/ (exists y P x, M = y :: P ++ [x] /\ low y = true /\ low x = false /\ length P < fuel) ->
  exists A' B', split_loop up down (A ++ M ++ B) (length A) (length B) fuel = Some (A' ++ B', length A') /\
    Permutation (A ++ M ++ B) (A' ++ B') /\
    (forall x, In x A' -> low x = true) /\ (forall x, In x B' -> low x = false).
Proof.
  induction fuel as [|k IH]; intros A M B H HA HB L; [exfalso; destruct L as [L|(? & ? & ? & _ & _ & _ & L)]; lia|].
  cbn [split_loop]. rewrite skipn_app_l.
  destruct (scan_ok up (fun x => negb (low x)) (M ++ B)) as (A1 & C & EMB & -> & HA1 & HC).
  { intros x Hx. apply H. apply in_app_iff. auto. }
  rewrite !rev_app_distr, <- app_assoc. rewrite <- (rev_length B). rewrite skipn_app_l.
  destruct (scan_ok down low (rev M ++ rev A)) as (B1 & D & EMA & -> & HB1 & HD).
  { intros x Hx. apply H. apply in_app_iff in Hx. rewrite !in_app_iff. destruct Hx as [Hx|Hx]; apply in_rev in Hx; auto. }
  rewrite rev_length.
  assert (LA1 : length A1 <= length M).
  { destruct (Nat.le_gt_cases (length A1) (length M)); auto. exfalso.
    assert (E1 : firstn (length A1) (M ++ B) = A1) by (rewrite EMB, firstn_app, firstn_all, Nat.sub_diag; simpl; apply app_nil_r).
    rewrite firstn_app in E1. destruct (firstn (length A1 - length M) B) as [|b t] eqn:E2.
    - apply (f_equal (@length _)) in E2. rewrite firstn_length in E2. simpl in E2.
      apply (f_equal (@length _)) in EMB. rewrite !app_length in EMB. lia.
    - assert (K : In b A1) by (rewrite <- E1; apply in_app_iff; right; now left).
      assert (Kb : In b B) by (rewrite <- (firstn_skipn (length A1 - length M) B), E2; now left).
      apply HA1 in K. rewrite (HB b Kb) in K. discriminate. }
  assert (LB1 : length B1 <= length M).
  { destruct (Nat.le_gt_cases (length B1) (length M)); auto. exfalso.
    assert (E1 : firstn (length B1) (rev M ++ rev A) = B1) by (rewrite EMA, firstn_app, firstn_all, Nat.sub_diag; simpl; apply app_nil_r).
    rewrite firstn_app, rev_length in E1. destruct (firstn (length B1 - length M) (rev A)) as [|b t] eqn:E2.
    - apply (f_equal (@length _)) in E2. rewrite firstn_length in E2. simpl in E2.
      apply (f_equal (@length _)) in EMA. rewrite !app_length, !rev_length in *. lia.
    - assert (K : In b B1) by (rewrite <- E1; apply in_app_iff; right; now left).
      assert (Kb : In b A) by (apply in_rev; rewrite <- (firstn_skipn (length B1 - length M) (rev A)), E2; now left).
      apply HB1 in K. rewrite (HA b Kb) in K. discriminate. }
  (* M = A1 ++ M1 and M = M2 ++ rev B1 *)
  assert (exists M1, M = A1 ++ M1) as [M1 EM1].
  { exists (skipn (length A1) M). rewrite <- (firstn_skipn (length A1) M) at 1. f_equal.
    assert (E1 : firstn (length A1) (M ++ B) = A1) by (rewrite EMB, firstn_app, firstn_all, Nat.sub_diag; simpl; apply app_nil_r).
    rewrite firstn_app in E1. replace (length A1 - length M) with 0 in E1 by lia. simpl in E1. rewrite app_nil_r in E1. exact E1. }
  assert (exists M2, M = M2 ++ rev B1) as [M2 EM2].
  { exists (rev (skipn (length B1) (rev M))). rewrite <- rev_app_distr. rewrite <- (rev_involutive M) at 1. f_equal.
    rewrite <- (firstn_skipn (length B1) (rev M)) at 1. f_equal.
    assert (E1 : firstn (length B1) (rev M ++ rev A) = B1) by (rewrite EMA, firstn_app, firstn_all, Nat.sub_diag; simpl; apply app_nil_r).
    rewrite firstn_app, rev_length in E1. replace (length B1 - length M) with 0 in E1 by lia. simpl in E1. rewrite app_nil_r in E1. exact E1. }
  assert (LS : length A1 + length B1 <= length M).
  { destruct (Nat.le_gt_cases (length A1 + length B1) (length M)); auto. exfalso.
    assert (K : length M2 < length A1) by (apply (f_equal (@length _)) in EM2; rewrite app_length, rev_length in EM2; lia).
    assert (E1 : exists x, nth_error M (length M2) = Some x) by (apply nth_error_ex; rewrite EM2, app_length, rev_length; lia).
    destruct E1 as [x E1]. pose proof E1 as E2. rewrite EM1, nth_error_app1 in E1 by lia. apply nth_error_In in E1.
    rewrite EM2, nth_error_app2, Nat.sub_diag in E2 by lia. apply nth_error_In in E2. apply in_rev in E2.
    apply HA1 in E1. apply HB1 in E2. rewrite E2 in E1. discriminate. }
  rewrite !app_length. 
  destruct (Nat.eqb_spec (length A + length A1 + (length B + length B1)) (length A + (length M + length B))) as [Q|Q].
  - assert (M1 = rev B1).
    { assert (LM : length M2 = length A1) by (apply (f_equal (@length _)) in EM2; rewrite app_length, rev_length in EM2; lia).
      rewrite EM2 in EM1. apply (f_equal (skipn (length A1))) in EM1. rewrite <- LM in EM1 at 1. rewrite !skipn_app_l in EM1. auto. }
    exists (A ++ A1), (M1 ++ B). split; [|split; [|split]].
    + rewrite EM1, app_length. f_equal. f_equal. rewrite <- !app_assoc. reflexivity.
    + rewrite EM1. rewrite <- !app_assoc. apply Permutation_refl.
    + intros x Hx. apply in_app_iff in Hx. destruct Hx as [Hx|Hx]; auto. apply HA1 in Hx. destruct (low x); auto.
    + intros x Hx. apply in_app_iff in Hx. destruct Hx as [Hx|Hx]; auto. subst M1. apply in_rev in Hx. auto.
  - assert (exists x N, M1 = x :: N) as (x & N & ->).
    { destruct M1; eauto. exfalso. apply Q. rewrite app_nil_r in EM1. subst A1. lia. }
    assert (Lx : low x = false).
    { rewrite EM1 in EMB. rewrite <- app_assoc in EMB. apply app_inv_head in EMB. subst C. simpl in HC. destruct (low x); auto. }
    assert (exists y N2, M2 = N2 ++ [y]) as (y & N2 & ->).
    { destruct M2 as [|z M2 _] using rev_ind; eauto. exfalso. apply Q. apply (f_equal (@length _)) in EM2. simpl in EM2.
      rewrite rev_length in EM2. lia. }
    assert (Ly : low y = true).
    { rewrite EM2 in EMA. rewrite !rev_app_distr, rev_involutive in EMA. rewrite <- app_assoc in EMA. apply app_inv_head in EMA.
      rewrite <- EMA in HD. simpl in HD. exact HD. }
    (* the middle part: x ... y *)
    assert (exists P, x :: N = x :: P ++ y :: rev B1) as [P EN].
    { rewrite EM1 in EM2. rewrite <- app_assoc in EM2. simpl in EM2.
      assert (LL : length A1 < length (N2 ++ [y])).
      { apply (f_equal (@length _)) in EM2. rewrite !app_length in *. simpl in *. rewrite ?app_length, ?rev_length in *.
        rewrite EM1 in Q, LS. rewrite !app_length in *. simpl in *. lia. }
      assert (E1 : firstn (length A1) (A1 ++ x :: N) = firstn (length A1) N2).
      { rewrite EM2. rewrite firstn_app. replace (length A1 - length N2) with 0 by (rewrite app_length in LL; simpl in LL; lia).
        simpl. now rewrite app_nil_r. }
      rewrite firstn_app, firstn_all, Nat.sub_diag in E1. simpl in E1. rewrite app_nil_r in E1.
      rewrite <- (firstn_skipn (length A1) N2), <- E1, <- app_assoc in EM2. apply app_inv_head in EM2.
      destruct (skipn (length A1) N2) as [|w P].
      - simpl in EM2. inversion EM2. subst. congruence.
      - simpl in EM2. inversion EM2. subst w. exists P. reflexivity. }
    assert (EM : M = A1 ++ x :: P ++ y :: rev B1) by (rewrite EM1; f_equal; exact EN).
    assert (LM : length M = length A1 + S (length P + S (length B1))).
    { rewrite EM, app_length. simpl. rewrite app_length. simpl. rewrite rev_length. lia. }
    rewrite (proj2 (Nat.ltb_ge _ _)) by lia.
    assert (SW : swap (A ++ M ++ B) (length A + length A1) (length A + (length M + length B) - 1 - (length B + length B1))
      = Some ((A ++ A1) ++ (y :: P ++ [x]) ++ (rev B1 ++ B))).
    { replace (A ++ M ++ B) with ((A ++ A1) ++ x :: P ++ y :: rev B1 ++ B)
        by (rewrite EM, <- !app_assoc; simpl; rewrite <- !app_assoc; reflexivity).
      replace (length A + length A1) with (length (A ++ A1)) by apply app_length.
      replace (length A + (length M + length B) - 1 - (length B + length B1)) with (length (A ++ A1) + S (length P))
        by (rewrite app_length; lia).
      rewrite swap_mid. f_equal. simpl. rewrite <- !app_assoc. reflexivity. }
    rewrite SW. replace (length A + length A1) with (length (A ++ A1)) by apply app_length.
    replace (length B + length B1) with (length (rev B1 ++ B)) by (rewrite app_length, rev_length; lia).
    assert (PM : Permutation (A ++ M ++ B) ((A ++ A1) ++ (y :: P ++ [x]) ++ (rev B1 ++ B))).
    { rewrite EM. rewrite <- !app_assoc. apply Permutation_app_head. apply Permutation_app_head. simpl. rewrite <- !app_assoc. simpl.
      change (x :: P ++ y :: rev B1 ++ B) with ([x] ++ P ++ [y] ++ rev B1 ++ B).
      change (y :: P ++ x :: rev B1 ++ B) with ([y] ++ P ++ [x] ++ rev B1 ++ B).
      rewrite !app_assoc. apply Permutation_app_tail. apply Permutation_app_tail. rewrite <- !app_assoc.
      transitivity (P ++ [x] ++ [y]); [rewrite app_assoc; rewrite (app_assoc P); apply Permutation_app_tail; apply Permutation_app_comm|].
      transitivity (P ++ [y] ++ [x]); [apply Permutation_app_head; apply perm_swap|].
      rewrite !app_assoc. apply Permutation_app_tail. apply Permutation_app_comm. }
    destruct (IH (A ++ A1) (y :: P ++ [x]) (rev B1 ++ B)) as (A' & B' & E & PP & Q1 & Q2).
    + intros z Hz. apply H. eapply Permutation_in; [apply Permutation_sym; exact PM|exact Hz].
    + intros z Hz. apply in_app_iff in Hz. destruct Hz as [Hz|Hz]; auto. apply HA1 in Hz. destruct (low z); auto.
    + intros z Hz. apply in_app_iff in Hz. destruct Hz as [Hz|Hz]; auto. apply in_rev in Hz. auto.
    + right. exists y, P, x. split; [reflexivity|]. split; [exact Ly|]. split; [exact Lx|].
      destruct L as [L|(y0 & P0 & x0 & E0 & Y0 & X0 & L)]; [lia|].
      assert (length A1 <> 0).
      { destruct A1; [|discriminate]. simpl in EMB. subst C. rewrite E0 in HC. simpl in HC. rewrite Y0 in HC. discriminate. }
      assert (length B1 <> 0).
      { destruct B1; [|discriminate]. simpl in EMA. subst D. rewrite E0 in HD. simpl in HD. rewrite rev_app_distr in HD.
        simpl in HD. rewrite X0 in HD. discriminate. }
      assert (length M = S (S (length P0))) by (rewrite E0; simpl; rewrite app_length; simpl; lia). lia.
    + exists A', B'. split; [exact E|]. split; [|split; auto]. transitivity ((A ++ A1) ++ (y :: P ++ [x]) ++ rev B1 ++ B); auto.
Qed.

(** * Midpoints are never NaN *)

Lemma cmp_neg (a b : f64) : is_nan a = false -> is_nan b = false ->
  fle b a = negb (flt a b) /\ fge a b = negb (flt a b) /\ fgt a b = negb (fle a b).
Proof.
  intros Na Nb.
  assert (K : forall c d : f64, is_nan c = false -> is_nan d = false -> fle d c = negb (flt c d)).
  { intros c d Nc Nd. unfold fle, flt, Bleb, Bltb, SpecFloat.SFleb, SpecFloat.SFltb.
    change (SpecFloat.SFcompare (B2SF d) (B2SF c)) with (Bcompare d c).
    change (SpecFloat.SFcompare (B2SF c) (B2SF d)) with (Bcompare c d).
    rewrite (Bcompare_swap _ _ c d). destruct (Bcompare c d) as [[]|] eqn:E; auto.
    exfalso. destruct c as [s|s| |s m e B], d as [s'|s'| |s' m' e' B']; try discriminate;
      unfold Bcompare in E; simpl in E; repeat (match type of E with context [if ?b then _ else _] => destruct b end); try discriminate;
      destruct s, s'; try discriminate; destruct (Z.compare _ _); discriminate. }
  split; [apply K; auto|]. split; [unfold fge; apply K; auto|]. unfold fgt. rewrite (K b a Nb Na). rewrite negb_involutive. reflexivity.
Qed.

Definition between_ok (lo hi : f64) : Prop :=
  is_nan lo = false /\ is_nan hi = false /\
  ((is_finite lo = true /\ is_finite hi = true) \/ Bsign lo = Bsign hi).

Lemma half_val : is_finite half = true /\ B2R half = (/2)%R /\ Bsign half = false.
Proof.
  split; [vm_compute; reflexivity|]. split; [|vm_compute; reflexivity].
  rewrite <- SF2R_B2SF. replace (B2SF half) with (SpecFloat.S754_finite false 4503599627370496 (-53)) by (vm_compute; reflexivity).
  unfold SF2R, F2R. simpl. lra.
Qed.

Lemma sum_ok lo hi : between_ok lo hi ->
  is_nan (fadd lo hi) = false /\
  ((is_finite lo = true /\ is_finite hi = true /\ is_finite (fadd lo hi) = true) \/
   (Bsign lo = Bsign hi /\ Bsign (fadd lo hi) = Bsign hi)).
Proof.
  intros (Nl & Nh & K). unfold fadd.
  destruct (is_finite lo) eqn:Fl, (is_finite hi) eqn:Fh.
  - pose proof (Bplus_correct prec emax _ _ mode_NE lo hi Fl Fh) as H.
    destruct (Rlt_bool _ _).
    + destruct H as (_ & F & _). split; [destruct (Bplus mode_NE lo hi); try discriminate; reflexivity|]. left. auto.
    + destruct H as (E & S). rewrite overflow_NE in E. apply B2SF_inf in E. rewrite E. split; [reflexivity|].
      right. split; auto.
  - destruct K as [[_ K]|K]; [congruence|]. destruct hi; try discriminate.
    destruct lo; try discriminate; simpl in *; auto.
  - destruct K as [[K _]|K]; [congruence|]. destruct lo; try discriminate.
    destruct hi; try discriminate; simpl in *; subst; auto.
  - destruct K as [[K _]|K]; [congruence|]. destruct lo; try discriminate. destruct hi; try discriminate.
    simpl in *. subst. rewrite eqb_reflx. simpl. auto.
Qed.

Lemma half_ok s : is_nan s = false ->
  is_nan (fmul s half) = false /\ Bsign (fmul s half) = Bsign s /\ (is_finite s = true -> is_finite (fmul s half) = true).
Proof.
  intros N. destruct half_val as (Fh & Vh & Sh). unfold fmul.
  destruct (is_finite s) eqn:F.
  - pose proof (Bmult_correct prec emax _ _ mode_NE s half) as H. rewrite Rlt_bool_true in H.
    + destruct H as (_ & F2 & S). rewrite F, Fh in F2. simpl in F2.
      assert (N2 : is_nan (Bmult mode_NE s half) = false) by (destruct (Bmult mode_NE s half); try discriminate; reflexivity).
      split; auto. split; [|auto]. rewrite (S N2), Sh. apply xorb_false_r.
    + apply Rle_lt_trans with (bpow radix2 emax - bpow radix2 (emax - prec))%R; [|apply max_lt_emax].
      apply abs_round_le_generic; [typeclasses eauto|apply valid_rnd_round_mode|exact max_format|].
      rewrite Vh, Rabs_mult, (Rabs_pos_eq (/2)) by lra. pose proof (val_le_max s). pose proof (Rabs_pos (B2R s)). lra.
  - destruct s; try discriminate. pose proof Fh as Fh'. destruct half as [| | |s0 m0 e0 b0] eqn:E; try discriminate.
    cbn [Bsign] in Sh. subst s0. cbn. rewrite xorb_false_r. auto.
Qed.

Lemma mid_ok lo hi : between_ok lo hi -> let mid := fmul (fadd lo hi) half in
  is_nan mid = false /\ between_ok lo mid /\ between_ok mid hi.
Proof.
  intros H mid. destruct (sum_ok lo hi H) as [N K]. destruct (half_ok _ N) as (Nm & Sm & Fm). fold mid in Nm, Sm, Fm.
  destruct H as (Nl & Nh & H). split; [exact Nm|]. unfold between_ok. rewrite Sm.
  destruct K as [(K1 & K2 & K3)|(K1 & K2)].
  - split; (split; [auto|split; [auto|left; auto]]).
  - rewrite K2, K1. split; (split; [auto|split; [auto|right; auto]]).
Qed.

(** * The splits *)

Definition box_ok (bbox : list f64) : Prop :=
  length bbox = 6 /\ forall a lo hi, a < 3 -> nth_error bbox a = Some lo -> nth_error bbox (a + 3) = Some hi -> between_ok lo hi.
Definition no_nan (points : list f64) : Prop := forall p, In p points -> is_nan p = false.
Definition in_range (points : list f64) (l : list nat) : Prop := forall x, In x l -> 3 * x + 3 <= length points.

(** The side of the split plane a point is on: before it in the direction of
    the walk. *)
Definition before (points bbox : list f64) (gc0 axis x : nat) : Prop :=
  exists c lo hi, nth_error points (3 * x + axis) = Some c /\ nth_error bbox axis = Some lo /\ nth_error bbox (axis + 3) = Some hi /\
    let split := fmul (fadd lo hi) half in
    if Nat.testbit gc0 axis then flt split c = true else flt c split = true.

Lemma coord_ok points x axis : no_nan points -> 3 * x + 3 <= length points -> axis < 3 ->
  exists c, coord points x axis = Some c /\ nth_error points (3 * x + axis) = Some c /\ is_nan c = false.
Proof.
  intros N B A. unfold coord. rewrite (proj2 (Nat.leb_le _ _) B), (proj2 (Nat.ltb_lt _ _) A). cbn [andb].
  destruct (nth_error_ex points (3 * x + axis)) as [c E]; [lia|]. exists c. split; auto. split; auto. apply N. eapply nth_error_In; eauto.
Qed.

Lemma land_bit g a : Nat.land g (Nat.shiftl 1 a) =? 0 = negb (Nat.testbit g a).
Proof.
  destruct (Nat.testbit g a) eqn:E; simpl.
  - apply Nat.eqb_neq. intros K. assert (T : Nat.testbit (Nat.land g (Nat.shiftl 1 a)) a = true).
    { rewrite Nat.land_spec, E. rewrite Nat.shiftl_1_l, Nat.pow2_bits_true. reflexivity. }
    rewrite K, Nat.bits_0 in T. discriminate.
  - apply Nat.eqb_eq. apply Nat.bits_inj. intros i. rewrite Nat.land_spec, Nat.shiftl_1_l, Nat.bits_0.
    destruct (Nat.eq_dec a i) as [->|K]; [rewrite E; reflexivity|]. rewrite Nat.pow2_bits_false by auto. apply andb_false_r.
Qed.

Lemma hilbert_split_ok points l gc0 gc1 bbox : no_nan points -> in_range points l -> box_ok bbox ->
  Nat.shiftr (Nat.lxor gc0 gc1) 1 < 3 ->
  exists A B, hilbert_split points l gc0 gc1 bbox = Some (A ++ B, length A) /\ Permutation l (A ++ B) /\
    (length l <> 1 -> (forall x, In x A -> before points bbox gc0 (Nat.shiftr (Nat.lxor gc0 gc1) 1) x) /\
                      (forall x, In x B -> ~ before points bbox gc0 (Nat.shiftr (Nat.lxor gc0 gc1) 1) x)).
Proof.
  intros N R [LB BO] HA. unfold hilbert_split. destruct (Nat.eqb_spec (length l) 1) as [E1|E1].
  { exists [], l. simpl. split; auto. split; auto. intros K; congruence. }
  set (axis := Nat.shiftr (Nat.lxor gc0 gc1) 1) in *.
  destruct (nth_error_ex bbox axis) as [lo Elo]; [lia|]. destruct (nth_error_ex bbox (axis + 3)) as [hi Ehi]; [lia|].
  rewrite Elo, Ehi. destruct (mid_ok lo hi (BO _ _ _ HA Elo Ehi)) as (Nm & _ & _). set (split := fmul (fadd lo hi) half) in *.
  rewrite land_bit. destruct (Nat.testbit gc0 axis) eqn:TB; cbn [negb].
  - set (low := fun x => match coord points x axis with Some c => flt split c | None => false end).
    edestruct (split_loop_ok (fun x => c <- coord points x axis ;; Some (fle c split))
      (fun x => c <- coord points x axis ;; Some (fgt c split)) low (S (length l)) [] l []) as (A & B & E & P & QA & QB).
    + intros x Hx. simpl in Hx. rewrite app_nil_r in Hx. unfold low.
      destruct (coord_ok points x axis N (R x Hx) HA) as (c & -> & _ & Nc).
      destruct (cmp_neg c split Nc Nm) as (_ & _ & K). destruct (cmp_neg split c Nm Nc) as (K2 & _ & _).
      split; [f_equal; exact K2|reflexivity].
    + intros x [].
    + intros x [].
    + left. lia.
    + cbn [app length] in E, P. rewrite app_nil_r in E, P. exists A, B. split; [exact E|]. split; [exact P|]. intros _.
      assert (IN : forall x, In x (A ++ B) -> (before points bbox gc0 axis x <-> low x = true)).
      { intros x Hx. assert (Hl : In x l) by (eapply Permutation_in; [apply Permutation_sym; exact P|exact Hx]).
        destruct (coord_ok points x axis N (R x Hl) HA) as (c & E1' & E2 & Nc). unfold low. rewrite E1'. unfold before. rewrite TB.
        split.
        - intros (c' & lo' & hi' & K1 & K2 & K3 & K4). assert (c' = c) by congruence. assert (lo' = lo) by congruence.
          assert (hi' = hi) by congruence. subst. exact K4.
        - intros K. exists c, lo, hi. auto. }
      split; intros x Hx.
      * apply IN; [apply in_app_iff; auto|]. auto.
      * rewrite IN by (apply in_app_iff; auto). rewrite (QB x Hx). discriminate.
  - set (low := fun x => match coord points x axis with Some c => flt c split | None => false end).
    edestruct (split_loop_ok (fun x => c <- coord points x axis ;; Some (fge c split))
      (fun x => c <- coord points x axis ;; Some (flt c split)) low (S (length l)) [] l []) as (A & B & E & P & QA & QB).
    + intros x Hx. simpl in Hx. rewrite app_nil_r in Hx. unfold low.
      destruct (coord_ok points x axis N (R x Hx) HA) as (c & -> & _ & Nc).
      destruct (cmp_neg c split Nc Nm) as (_ & K & _).
      split; [f_equal; exact K|reflexivity].
    + intros x [].
    + intros x [].
    + left. lia.
    + cbn [app length] in E, P. rewrite app_nil_r in E, P. exists A, B. split; [exact E|]. split; [exact P|]. intros _.
      assert (IN : forall x, In x (A ++ B) -> (before points bbox gc0 axis x <-> low x = true)).
      { intros x Hx. assert (Hl : In x l) by (eapply Permutation_in; [apply Permutation_sym; exact P|exact Hx]).
        destruct (coord_ok points x axis N (R x Hl) HA) as (c & E1' & E2 & Nc). unfold low. rewrite E1'. unfold before. rewrite TB.
        split.
        - intros (c' & lo' & hi' & K1 & K2 & K3 & K4). assert (c' = c) by congruence. assert (lo' = lo) by congruence.
          assert (hi' = hi) by congruence. subst. exact K4.
        - intros K. exists c, lo, hi. auto. }
      split; intros x Hx.
      * apply IN; [apply in_app_iff; auto|]. auto.
      * rewrite IN by (apply in_app_iff; auto). rewrite (QB x Hx). discriminate.
Qed.

(** * The recursion *)

Lemma lt_cases n (P : nat -> Prop) : Forall P (seq 0 n) -> forall i, i < n -> P i.
Proof. intros H i L. rewrite Forall_forall in H. apply H. apply in_seq. lia. Qed.

Lemma trans_axis e d a : e < 8 -> d < 3 -> a < 7 ->
  exists g0 g1, trans_gc e d a = Some g0 /\ trans_gc e d (a + 1) = Some g1 /\ Nat.shiftr (Nat.lxor g0 g1) 1 < 3.
Proof.
  assert (K : forallb (fun e => forallb (fun d => forallb (fun a =>
     match trans_gc e d a, trans_gc e d (a + 1) with Some g0, Some g1 => Nat.shiftr (Nat.lxor g0 g1) 1 <? 3 | _, _ => false end)
     (seq 0 7)) (seq 0 3)) (seq 0 8) = true) by (vm_compute; reflexivity).
  intros He Hd Ha. rewrite forallb_forall in K. specialize (K e ltac:(apply in_seq; lia)). rewrite forallb_forall in K.
  specialize (K d ltac:(apply in_seq; lia)). rewrite forallb_forall in K. specialize (K a ltac:(apply in_seq; lia)).
  destruct (trans_gc e d a) as [g0|]; [|discriminate]. destruct (trans_gc e d (a + 1)) as [g1|]; [|discriminate].
  exists g0, g1. apply Nat.ltb_lt in K. auto.
Qed.
Lemma trans_some e d w : e < 8 -> d < 3 -> w < 8 -> exists g, trans_gc e d w = Some g.
Proof.
  intros He Hd Hw. unfold trans_gc. rewrite (proj2 (Nat.ltb_lt e 8) He), (proj2 (Nat.ltb_lt d 3) Hd), (proj2 (Nat.ltb_lt w 8) Hw). simpl. eauto.
Qed.
Lemma sub_ok e d w : e < 8 -> d < 3 -> w < 8 -> sub_e e d w < 8 /\ exists d', sub_d d w = Some d' /\ d' < 3.
Proof.
  assert (K : forallb (fun e => forallb (fun d => forallb (fun w =>
     (sub_e e d w <? 8) && match sub_d d w with Some d' => d' <? 3 | _ => false end)
     (seq 0 8)) (seq 0 3)) (seq 0 8) = true) by (vm_compute; reflexivity).
  intros He Hd Ha. rewrite forallb_forall in K. specialize (K e ltac:(apply in_seq; lia)). rewrite forallb_forall in K.
  specialize (K d ltac:(apply in_seq; lia)). rewrite forallb_forall in K. specialize (K w ltac:(apply in_seq; lia)).
  apply andb_true_iff in K. destruct K as [K1 K2]. apply Nat.ltb_lt in K1. split; auto.
  destruct (sub_d d w) as [d'|]; [|discriminate]. apply Nat.ltb_lt in K2. eauto.
Qed.

Lemma sub_box_ok bbox e d w : box_ok bbox -> e < 8 -> d < 3 -> w < 8 -> exists b, sub_box bbox e d w = Some b /\ box_ok b.
Proof.
  intros [LB BO] He Hd Hw. unfold sub_box. destruct (trans_some e d w He Hd Hw) as [g ->].
  assert (K : forall a, a < 3 -> exists lo hi, sub_axis bbox g a = Some (lo, hi) /\ between_ok lo hi).
  { intros a Ha. unfold sub_axis. destruct (nth_error_ex bbox a) as [lo Elo]; [lia|].
    destruct (nth_error_ex bbox (a + 3)) as [hi Ehi]; [lia|]. rewrite Elo, Ehi.
    destruct (mid_ok lo hi (BO _ _ _ Ha Elo Ehi)) as (_ & M1 & M2). destruct (Nat.land g (Nat.shiftl 1 a) =? 0); eauto. }
  destruct (K 0) as (x0 & x1 & -> & Kx); [lia|]. destruct (K 1) as (y0 & y1 & -> & Ky); [lia|].
  destruct (K 2) as (z0 & z1 & -> & Kz); [lia|]. eexists. split; [reflexivity|]. split; [reflexivity|].
  intros a lo hi Ha E1 E2. destruct a as [|[|[|a]]]; [| | |lia]; simpl in E1, E2; inversion E1; inversion E2; subst; auto.
Qed.

Lemma in_range_perm points l l' : Permutation l l' -> in_range points l -> in_range points l'.
Proof. intros P R x Hx. apply R. eapply Permutation_in; [apply Permutation_sym; exact P|exact Hx]. Qed.
Lemma in_range_app points l l' : in_range points (l ++ l') -> in_range points l /\ in_range points l'.
Proof. intros R. split; intros x Hx; apply R; apply in_app_iff; auto. Qed.

Lemma split_at_ok points bbox e d a l : no_nan points -> in_range points l -> box_ok bbox -> e < 8 -> d < 3 -> a < 7 ->
  exists A B, split_at points bbox e d a l = Some (A, B) /\ Permutation l (A ++ B) /\ in_range points A /\ in_range points B.
Proof.
  intros N R BO He Hd Ha. unfold split_at. destruct (trans_axis e d a He Hd Ha) as (g0 & g1 & -> & -> & HX).
  destruct (hilbert_split_ok points l g0 g1 bbox N R BO HX) as (A & B & -> & P & _).
  rewrite firstn_app, firstn_all, Nat.sub_diag, skipn_app_l. simpl. rewrite app_nil_r. exists A, B. split; auto. split; auto.
  apply in_range_app. eapply in_range_perm; eauto.
Qed.

Lemma eighths_ok points bbox e d l : no_nan points -> in_range points l -> box_ok bbox -> e < 8 -> d < 3 ->
  exists arr, eighths points bbox e d l = Some arr /\ Permutation l (concat arr) /\ length arr = 8 /\
    forall s, In s arr -> in_range points s.
Proof.
  intros N R BO He Hd. unfold eighths.
  assert (K : forall a k, a < 7 -> in_range points k -> exists A B, split_at points bbox e d a k = Some (A, B) /\
    Permutation k (A ++ B) /\ in_range points A /\ in_range points B) by (intros; apply split_at_ok; auto).
  destruct (K 3 l) as (L & Rr & -> & P1 & R1 & R2); [lia|auto|].
  destruct (K 1 L) as (LL & LR & -> & P2 & R3 & R4); [lia|auto|].
  destruct (K 0 LL) as (A1 & A2 & -> & P3 & ? & ?); [lia|auto|].
  destruct (K 2 LR) as (A3 & A4 & -> & P4 & ? & ?); [lia|auto|].
  destruct (K 5 Rr) as (RL & RR & -> & P5 & R5 & R6); [lia|auto|].
  destruct (K 4 RL) as (A5 & A6 & -> & P6 & ? & ?); [lia|auto|].
  destruct (K 6 RR) as (A7 & A8 & -> & P7 & ? & ?); [lia|auto|].
  eexists. split; [reflexivity|]. split; [|split; [reflexivity|]].
  - cbn [concat]. rewrite app_nil_r. rewrite P1, P2, P3, P4, P5, P6, P7. rewrite <- !app_assoc. reflexivity.
  - intros s Hs. repeat (destruct Hs as [<-|Hs]; [assumption|]). destruct Hs.
Qed.

Lemma each_ok f : forall arr w, (forall i s, nth_error arr i = Some s -> exists s', f (w + i) s = Some s' /\ Permutation s s') ->
  exists r, each f w arr = Some r /\ Permutation (concat arr) r.
Proof.
  induction arr as [|s t IH]; intros w H; simpl; [exists []; auto|].
  destruct (H 0 s eq_refl) as (s' & E & P). rewrite Nat.add_0_r in E. rewrite E.
  destruct (IH (S w)) as (r & -> & P2).
  { intros i x Hx. destruct (H (S i) x Hx) as (x' & E' & P'). exists x'. rewrite Nat.add_succ_r in E'. auto. }
  exists (s' ++ r). split; auto. apply Permutation_app; auto.
Qed.

Lemma hilbert_sort_ok o points : no_nan points -> 0 < hilbert_order o ->
  forall fuel l bbox e d depth, in_range points l -> box_ok bbox -> e < 8 -> d < 3 ->
  depth < hilbert_order o -> fuel = hilbert_order o - depth ->
  exists r, hilbert_sort o points l bbox e d depth fuel = Some r /\ Permutation l r.
Proof.
  intros N HO. induction fuel as [|k IH]; intros l bbox e d depth R BO He Hd HD HF; [lia|].
  cbn [hilbert_sort]. destruct (eighths_ok points bbox e d l N R BO He Hd) as (arr & -> & P & L8 & RA).
  rewrite (proj2 (Nat.ltb_lt 0 _) HO). cbn [andb]. destruct (Nat.eqb_spec (depth + 1) (hilbert_order o)) as [Q|Q].
  - eauto.
  - edestruct each_ok as (r & -> & P2); [|exists r; split; [reflexivity|rewrite P; exact P2]].
    intros i s Hs. cbn [plus]. assert (Hi : i < 8) by (rewrite <- L8; apply nth_error_Some; congruence).
    destruct (hilbert_limit o <? length s); [|eauto].
    destruct (sub_ok e d i He Hd Hi) as (Hse & d' & -> & Hd'). destruct (sub_box_ok bbox e d i BO He Hd Hi) as (b & -> & Bb).
    apply IH; auto; try lia. apply RA. eapply nth_error_In; eauto.
Qed.

Lemma brio_ok o points bbox : no_nan points -> 0 < hilbert_order o -> 0 < threshold o -> box_ok bbox ->
  forall fuel l, in_range points l -> length l < fuel ->
  exists r, brio_multiscale_sort o points l bbox fuel = Some r /\ Permutation l r.
Proof.
  intros N HO HT BO. induction fuel as [|k IH]; intros l R L; [lia|]. cbn [brio_multiscale_sort].
  assert (HS : forall s, in_range points s -> exists r, hilbert_sort o points s bbox 0 0 0 (hilbert_order o) = Some r /\ Permutation s r).
  { intros s Rs. apply hilbert_sort_ok; auto; lia. }
  destruct (Nat.leb_spec (threshold o) (length l)) as [Q|Q]; [|apply HS; auto].
  set (mid := length l / 8). assert (Hm : mid < length l) by (apply Nat.div_lt; lia).
  rewrite <- (firstn_skipn mid l) in R. apply in_range_app in R. destruct R as [R1 R2].
  destruct (IH (firstn mid l) R1) as (r1 & -> & P1); [rewrite firstn_length; lia|].
  destruct (HS _ R2) as (r2 & -> & P2). exists (r1 ++ r2). split; auto.
  rewrite <- (firstn_skipn mid l). apply Permutation_app; auto.
Qed.

(** * The bounding box *)

Lemma pcmp_fin a b : is_finite a = true -> is_finite b = true -> pcmp a b = Some (Rcompare (B2R a) (B2R b)).
Proof. apply Bcompare_correct. Qed.

Lemma min_from_ok l : forall a, (forall x, In x (a :: l) -> is_finite x = true) ->
  exists m, min_from a l = Some m /\ In m (a :: l).
Proof.
  induction l as [|b l IH]; intros a H; [exists a; simpl; auto|].
  cbn [min_from]. rewrite pcmp_fin by (apply H; simpl; auto).
  destruct (Rcompare (B2R a) (B2R b)).
  - destruct (IH a) as (m & E & I); [intros x [<-|Hx]; apply H; simpl; auto|]. exists m. split; auto. simpl in *. tauto.
  - destruct (IH a) as (m & E & I); [intros x [<-|Hx]; apply H; simpl; auto|]. exists m. split; auto. simpl in *. tauto.
  - destruct (IH b) as (m & E & I); [intros x [<-|Hx]; apply H; simpl; auto|]. exists m. split; auto. simpl in *. tauto.
Qed.
Lemma max_from_ok l : forall a, (forall x, In x (a :: l) -> is_finite x = true) ->
  exists m, max_from a l = Some m /\ In m (a :: l).
Proof.
  induction l as [|b l IH]; intros a H; [exists a; simpl; auto|].
  cbn [max_from]. rewrite pcmp_fin by (apply H; simpl; auto).
  destruct (Rcompare (B2R a) (B2R b)).
  - destruct (IH b) as (m & E & I); [intros x [<-|Hx]; apply H; simpl; auto|]. exists m. split; auto. simpl in *. tauto.
  - destruct (IH b) as (m & E & I); [intros x [<-|Hx]; apply H; simpl; auto|]. exists m. split; auto. simpl in *. tauto.
  - destruct (IH a) as (m & E & I); [intros x [<-|Hx]; apply H; simpl; auto|]. exists m. split; auto. simpl in *. tauto.
Qed.
Lemma step3_in l : forall k x, In x (step3 l k) -> In x l.
Proof.
  induction l as [|a l IH]; intros k x; simpl; auto. destruct k; simpl.
  - intros [->|H]; eauto.
  - eauto.
Qed.
Lemma step3_nonempty l k : k < length l -> exists a t, step3 l k = a :: t.
Proof.
  revert k. induction l as [|a l IH]; intros k H; simpl in *; [lia|]. destruct k; eauto. apply IH. lia.
Qed.
Lemma bbox_ok points : (forall p, In p points -> is_finite p = true) -> 3 <= length points ->
  exists b, bounding_box points = Some b /\ box_ok b.
Proof.
  intros F L. unfold bounding_box. rewrite (proj2 (Nat.ltb_ge _ _)) by lia.
  assert (Kmin : forall k, k < 3 -> exists m, of_list min_from (step3 points k) = Some m /\ is_finite m = true).
  { intros k Hk. destruct (step3_nonempty points k) as (a & t & E); [lia|]. rewrite E. simpl.
    destruct (min_from_ok t a) as (m & Em & I).
    - intros x Hx. apply F. apply (step3_in points k). rewrite E. exact Hx.
    - exists m. split; auto. apply F. apply (step3_in points k). rewrite E. exact I. }
  assert (Kmax : forall k, k < 3 -> exists m, of_list max_from (step3 points k) = Some m /\ is_finite m = true).
  { intros k Hk. destruct (step3_nonempty points k) as (a & t & E); [lia|]. rewrite E. simpl.
    destruct (max_from_ok t a) as (m & Em & I).
    - intros x Hx. apply F. apply (step3_in points k). rewrite E. exact Hx.
    - exists m. split; auto. apply F. apply (step3_in points k). rewrite E. exact I. }
  destruct (Kmin 0) as (x0 & -> & ?); [lia|]. destruct (Kmin 1) as (y0 & -> & ?); [lia|]. destruct (Kmin 2) as (z0 & -> & ?); [lia|].
  destruct (Kmax 0) as (x1 & -> & ?); [lia|]. destruct (Kmax 1) as (y1 & -> & ?); [lia|]. destruct (Kmax 2) as (z1 & -> & ?); [lia|].
  eexists. split; [reflexivity|]. split; [reflexivity|].
  assert (FF : forall u v, is_finite u = true -> is_finite v = true -> between_ok u v).
  { intros u v Hu Hv. split; [destruct u; try discriminate; reflexivity|]. split; [destruct v; try discriminate; reflexivity|]. auto. }
  intros a lo hi Ha E1 E2. destruct a as [|[|[|a]]]; [| | |lia]; simpl in E1, E2; inversion E1; inversion E2; subst; auto.
Qed.
