(** Lemmas on component lists that may hold zeros, as the fixed-length arrays
    of two_two_diff and the like do, and on the nonadjacent lists that
    two_one_sum/diff make of them. *)
From Coq Require Import ZArith Reals List Bool Lia Lra.
From Flocq Require Import Core BinarySingleNaN.
From Verif Require Import F64 F64Facts Expansion Explicit ExpReal ExpFloat.
Import ListNotations.
Local Open Scope R_scope.

(** ** Nonadjacent lists, largest component first *)
Definition NJ (o : list R) (k : Z) : Prop :=
  Jn o k /\ match o with [] => True | h :: _ => Rabs h < / 2 * B k end.
Fixpoint KN (l : list R) : Prop :=
  match l with
  | [] => True
  | x :: o => x <> 0 /\ fmt x /\ KN o /\ forall k, lsb k x -> NJ o k
  end.

Lemma NJ_JJ : forall o k, NJ o k -> JJ o k.
Proof.
  intros o k [H1 H2]. pose proof (B_pos k). split; [left; exact H1|].
  destruct o; simpl in *; auto. lra.
Qed.
Lemma KN_K : forall l, KN l -> K l.
Proof.
  induction l as [|x o IH]; simpl; auto. intros (N & F & H & J).
  split; auto. split; auto. split; auto. intros k L. apply NJ_JJ; auto.
Qed.
Lemma NJ_le : forall o j k, NJ o j -> (j <= k)%Z -> NJ o k.
Proof.
  intros o j k [H1 H2] L. split; [apply Jn_le with j; auto|].
  pose proof (B_le j k L). destruct o; auto. lra.
Qed.
Lemma NJ_nil : forall k, NJ [] k.
Proof. intros k. split; auto. unfold Jn. simpl. rewrite Rabs_R0. pose proof (B_pos k). lra. Qed.
Lemma NJ_one : forall x k, Rabs x < / 2 * B k -> NJ [x] k.
Proof. intros x k H. split; auto. unfold Jn. simpl. rewrite Rplus_0_r. auto. Qed.

Lemma err_le : forall x y, fmt x -> Rabs (x + y - rn (x + y)) <= Rabs y.
Proof.
  intros x y Fx.
  destruct (round_N_pt radix2 fexp64 (fun x => negb (Z.even x)) (x + y)) as [_ H].
  specialize (H x Fx). rewrite <- (Rabs_Ropp (x + y - rn (x + y))).
  replace (- (x + y - rn (x + y))) with (rn (x + y) - (x + y)) by lra.
  apply Rle_trans with (1 := H). replace (x - (x + y)) with (- y) by lra. rewrite Rabs_Ropp. lra.
Qed.

(** The chain of additions q + e1, + e2, ... over a nonadjacent list [er]
    (smallest first), [o] having been emitted. *)
Record GInv (er o : list R) (q : R) : Prop := {
  g_er : KN (rev er);
  g_o : KN o;
  g_q : fmt q;
  g_Jq : forall k, lsb k q -> NJ o k;
  g_Jr : forall t L, In t er -> lsb L t -> NJ o L }.

Lemma KN_app : forall l1 l2, KN (l1 ++ l2) -> KN l2.
Proof. induction l1; simpl; auto. intros l2 H. apply IHl1. tauto. Qed.
Lemma KN_in : forall l x, KN l -> In x l -> fmt x /\ x <> 0.
Proof. induction l as [|y l IH]; simpl; intros x H I; [tauto|]. destruct I as [<-|I]; [tauto|]. apply IH; tauto. Qed.
Lemma KN_small : forall l t y L, KN (t :: l) -> lsb L t -> In y l -> Rabs y < / 2 * B L.
Proof.
  induction l as [|h l IH]; intros t y L H Lt I; [destruct I|].
  destruct H as (_ & _ & H & J). destruct (J L Lt) as [_ Hh].
  destruct I as [<-|I]; auto.
  pose proof H as H'. destruct H' as (N & F & _).
  destruct (fmt_lsb_ex h F N) as (k & Lk & _).
  pose proof (IH h y k H Lk I). pose proof (lsb_ge k h Lk). pose proof (B_pos k). lra.
Qed.
Lemma KN_rev_small : forall l1 t y L, KN (rev l1) -> In t l1 -> lsb L t ->
  (exists l2 l3, l1 = l2 ++ t :: l3 /\ In y l2) -> Rabs y < / 2 * B L.
Proof.
  intros l1 t y L H _ Lt (l2 & l3 & -> & I).
  rewrite rev_app_distr in H. simpl in H. rewrite <- app_assoc in H. apply KN_app in H. simpl in H.
  apply KN_small with (t := t) (l := rev l2); auto. apply -> in_rev. auto.
Qed.

Lemma NJ_cons : forall x o L, KN (x :: o) -> Rabs x < / 2 * B L -> NJ (x :: o) L.
Proof.
  intros x o L H X. split; auto. destruct H as (N & F & _ & J).
  destruct (fmt_lsb_ex x F N) as (k & Lk & _). destruct (J k Lk) as [S _].
  unfold Jn in *. simpl. pose proof (B_pos k).
  assert (D : Rabs x + B k <= / 2 * B L).
  { rewrite half_B in *. apply mult_gap; auto.
    - apply mult_abs, lsb_mult; auto.
    - apply mult_B. pose proof (lsb_ge k x Lk).
      assert (B k < B (L - 1)) by lra. apply B_lt_inv in H1. lia. }
  pose proof (Rabs_triang x (sumR o)). lra.
Qed.

Lemma KN_prefix : forall l1 l2, KN (l1 ++ l2) -> KN l1.
Proof.
  induction l1 as [|x l IH]; simpl; auto. intros l2 (N & F & H & J).
  split; auto. split; auto. split; [eapply IH; eauto|]. intros k Lk. destruct (J k Lk) as [A1 A2].
  destruct l as [|y l]; [apply NJ_nil|]. apply NJ_cons; [|exact A2]. eapply IH; eauto.
Qed.

Lemma grow_step : forall g er o q, GInv (g :: er) o q ->
  GInv er (emit (q + g - rn (q + g)) o) (rn (q + g)).
Proof.
  intros g er o q [Ke Ko Fq Jq Jr].
  assert (Fg : fmt g /\ g <> 0) by (apply (KN_in _ _ Ke); apply -> in_rev; left; auto).
  destruct Fg as [Fg Ng]. destruct (fmt_lsb_ex g Fg Ng) as (kg & Lg & Tg).
  assert (Jg : NJ o kg) by (apply (Jr g); [left|]; auto).
  assert (exists t, (-1074 <= t)%Z /\ mult t q /\ mult t g /\ NJ o t) as (t & T & Mq & Mg & Jt).
  { destruct (Req_dec q 0) as [->|N].
    - exists kg. split; auto. split; [apply mult_0|]. split; auto. apply lsb_mult; auto.
    - destruct (fmt_lsb_ex q Fq N) as (j & Lj & Tj). destruct (Z_le_gt_dec j kg) as [C|C].
      + exists j. split; auto. split; [apply lsb_mult; auto|]. split; auto. apply mult_le with kg; auto. apply lsb_mult; auto.
      + exists kg. split; auto. split; [apply mult_le with j; [lia|apply lsb_mult; auto]|].
        split; auto. apply lsb_mult; auto. }
  assert (Mv : mult t (q + g)) by (apply mult_add; auto).
  unfold emit. destruct (Req_EM_T (q + g - rn (q + g)) 0) as [Z|N].
  - constructor; auto.
    + simpl in Ke. apply KN_prefix in Ke. auto.
    + apply rn_fmt.
    + intros k L. apply NJ_le with t; auto. apply (mult_lsb t k (rn (q + g))); auto. apply rn_mult; auto.
    + intros t0 L I. apply Jr. right; auto.
  - assert (KN (q + g - rn (q + g) :: o)) as Ko'.
    { simpl. split; auto. split; [apply err_fmt; auto|]. split; auto. intros k L. apply NJ_le with t; auto.
      apply (mult_lsb t k (q + g - rn (q + g))); auto. apply err_mult; auto. }
    constructor; auto.
    + simpl in Ke. apply KN_prefix in Ke. auto.
    + apply rn_fmt.
    + intros k L.
      destruct (rn_cases t (q + g) Mv T) as [E|(u & U & V & Mh & C)]; [tauto|].
      pose proof (B_le1 t u U). pose proof (B_pos t).
      apply NJ_cons; auto.
      destruct C as [[MQ A]|[MQ A]].
      * assert (B u <= B k) by (apply B_le; eapply mult_lsb; eauto). lra.
      * assert (2 * B u <= B k) by (apply B_le1; eapply mult_lsb; eauto). lra.
    + intros t0 L I Lt. apply NJ_cons; auto.
      pose proof (err_le q g Fq).
      assert (Rabs g < / 2 * B L); [|lra].
      apply (KN_rev_small (g :: er) t0); auto; [right; auto|].
      apply in_split in I. destruct I as (l2 & l3 & ->). exists (g :: l2), l3. split; auto. left; auto.
Qed.

(** ** Zeros do not matter *)
Definition nz (l : list f64) : list f64 := filter nonzero l.
Definition nzR (l : list R) : list R := filter (fun x => if Req_EM_T x 0 then false else true) l.

Lemma nz_vals : forall l, allfin l -> vals (nz l) = nzR (vals l).
Proof.
  induction 1 as [|x l F A IH]; auto. simpl. rewrite (nonzero_fin x F).
  destruct (Req_EM_T (val x) 0); simpl; rewrite ?IH; auto.
Qed.
Lemma nz_fin : forall l, allfin l -> allfin (nz l).
Proof. intros l H. unfold allfin, nz in *. rewrite Forall_forall in *. intros x I. apply filter_In in I. apply H; tauto. Qed.
Lemma nzR_sum : forall l, sumR (nzR l) = sumR l.
Proof. induction l as [|x l IH]; auto. simpl. destruct (Req_EM_T x 0) as [->|]; simpl; rewrite IH; lra. Qed.
Lemma nz_value : forall l, allfin l -> value (nz l) = value l.
Proof. intros. unfold value. rewrite nz_vals; auto. apply nzR_sum. Qed.
Lemma nzR_rev : forall l, nzR (rev l) = rev (nzR l).
Proof.
  induction l as [|x l IH]; auto. simpl. unfold nzR in *. rewrite filter_app, IH. simpl.
  destruct (Req_EM_T x 0); simpl; auto. apply app_nil_r.
Qed.
Lemma nzR_id : forall l, (forall x, In x l -> x <> 0) -> nzR l = l.
Proof.
  induction l as [|x l IH]; auto. simpl. intros H. destruct (Req_EM_T x 0) as [E|E]; [destruct (H x); auto|].
  rewrite IH; auto.
Qed.

Lemma chain_nz : forall gs q o, fmt q -> chain gs (q, o) = chain (nzR gs) (q, o).
Proof.
  induction gs as [|g gs IH]; intros q o F; auto. simpl nzR. destruct (Req_EM_T g 0) as [->|N].
  - rewrite chain_cons, Rplus_0_r, (rn_id q F). unfold emit. destruct (Req_EM_T (q - q) 0); [auto|lra].
  - rewrite !chain_cons. apply IH, rn_fmt.
Qed.
Lemma chain_grow : forall gs q o q' o', GInv (nzR gs) o q -> chain gs (q, o) = (q', o') -> GInv [] o' q'.
Proof.
  intros gs q o q' o' I. rewrite chain_nz by apply I. revert q o I.
  induction (nzR gs) as [|g l IH]; intros q o I E.
  - inversion E; subst; auto.
  - rewrite chain_cons in E. apply grow_step in I. eapply IH; eauto.
Qed.

Lemma nz_cons : forall a l, fin a = true -> nz (a :: l) = if Req_EM_T (val a) 0 then nz l else a :: nz l.
Proof. intros a l F. unfold nz. simpl. rewrite (nonzero_fin a F). destruct (Req_EM_T (val a) 0); auto. Qed.
Lemma nz_merge : forall e f, allfin e -> allfin f -> nz (merge e f) = merge (nz e) (nz f).
Proof.
  apply (merge_ind2 (fun e f => allfin e -> allfin f -> nz (merge e f) = merge (nz e) (nz f))).
  - intros f _ _. reflexivity.
  - intros e _ _. change (nz []) with (@nil f64). rewrite !merge_nil_r. reflexivity.
  - intros x e y f H1 H2 Fe Ff. inversion Fe as [|? ? Fx Fe']; inversion Ff as [|? ? Fy Ff']; subst.
    rewrite merge_cons, (nz_cons y f Fy), (nz_cons x e Fx).
    rewrite (nz_cons x e Fx) in H1. rewrite (nz_cons y f Fy) in H2.
    destruct (Req_EM_T (val y) 0) as [Zy|Ny].
    + rewrite (take_zero_second x y Fx Fy Zy), (nz_cons y _ Fy).
      destruct (Req_EM_T (val y) 0); [|tauto]. rewrite H1; auto.
    + destruct (Req_EM_T (val x) 0) as [Zx|Nx].
      * rewrite (take_zero_first x y Fx Fy Zx Ny), (nz_cons x _ Fx).
        destruct (Req_EM_T (val x) 0); [|tauto]. rewrite H2; auto.
      * rewrite merge_cons. destruct (take_second x y).
        -- rewrite (nz_cons y _ Fy). destruct (Req_EM_T (val y) 0); [tauto|]. rewrite H1; auto.
        -- rewrite (nz_cons x _ Fx). destruct (Req_EM_T (val x) 0); [tauto|]. rewrite H2; auto.
Qed.

(** An expansion whose components may be zero. *)
Definition wexpn (l : list f64) : Prop := allfin l /\ l <> [] /\ K (rev (vals (nz l))).
(** All components at most 2^m in magnitude. *)
Definition bd (m : Z) (l : list f64) : Prop := Forall (fun a : f64 => Rabs (val a) <= B m) l.

Lemma expn_wexpn : forall l, expn l -> wexpn l.
Proof.
  intros l (A & N & H). split; auto. split; auto. rewrite nz_vals; auto. rewrite <- nzR_rev. destruct H as [H|H].
  - rewrite nzR_id; auto. intros x I. apply (K_fmt _ x H I).
  - rewrite H. simpl. destruct (Req_EM_T 0 0); [exact I|tauto].
Qed.
Lemma bd_le : forall j k l, (j <= k)%Z -> bd j l -> bd k l.
Proof. intros j k l L. apply Forall_impl. intros a H. apply Rle_trans with (1 := H). apply B_le; auto. Qed.
Lemma bd_app : forall m a b, bd m (a ++ b) <-> bd m a /\ bd m b.
Proof. intros. apply Forall_app. Qed.
Lemma push_bd : forall m l h, bd m l -> Rabs (val h) <= B m -> bd m (push_nz l h).
Proof. intros m l h H1 H2. unfold push_nz. destruct (nonzero h); auto. apply bd_app. split; auto. constructor; [auto|constructor]. Qed.
Lemma push_fin : forall l h, allfin l -> fin h = true -> allfin (push_nz l h).
Proof. intros l h H1 H2. unfold push_nz. destruct (nonzero h); auto. apply allfin_app. split; auto. constructor; [auto|constructor]. Qed.
Lemma push_len : forall l h, (length (push_nz l h) <= S (length l))%nat.
Proof. intros. unfold push_nz. destruct (nonzero h); rewrite ?app_length; simpl; lia. Qed.
Lemma finish_fin : forall q l, allfin l -> fin q = true -> allfin (finish q l).
Proof.
  intros q l H1 H2. unfold finish. destruct (nonzero q || match l with [] => true | _ => false end); auto.
  apply allfin_app. split; auto. constructor; [auto|constructor].
Qed.
Lemma finish_bd : forall m q l, bd m l -> Rabs (val q) <= B m -> bd m (finish q l).
Proof.
  intros m q l H1 H2. unfold finish. destruct (nonzero q || match l with [] => true | _ => false end); auto.
  apply bd_app. split; auto. constructor; [auto|constructor].
Qed.
Lemma finish_len : forall q l, (length (finish q l) <= S (length l))%nat.
Proof. intros. unfold finish. destruct (nonzero q || _); rewrite ?app_length; simpl; lia. Qed.

(** Rounding keeps below a small multiple of a power of two. *)
Lemma rn_le : forall k m x, (0 <= k <= 2 ^ 53)%Z -> (-1074 <= m)%Z -> Rabs x <= IZR k * B m -> Rabs (rn x) <= IZR k * B m.
Proof.
  intros k m x Hk Hm H. apply abs_round_le_generic; try typeclasses eauto; auto.
  apply fmt_mult with m; auto.
  - exists k. reflexivity.
  - pose proof (B_pos m). assert (0 <= IZR k <= IZR (2 ^ 53)) by (split; apply IZR_le; lia).
    rewrite B_53. rewrite Rabs_right by nra. change (2 ^ 53)%Z with 9007199254740992%Z in *. nra.
Qed.
Lemma k_le : forall k m j, (k <= 2 ^ j)%Z -> (0 <= j)%Z -> IZR k * B m <= B (m + j).
Proof.
  intros k m j H J. rewrite bpow_plus, (Rmult_comm (B m)). apply Rmult_le_compat_r; [pose proof (B_pos m); lra|].
  rewrite (B_IZR j J). apply IZR_le; auto.
Qed.

Lemma fast_two_sum_zero : forall a b, val a = 0 -> fin (snd (fast_two_sum a b)) = true ->
  val (snd (fast_two_sum a b)) = val a + val b - rn (val a + val b).
Proof.
  intros a b Z H. simpl in *.
  destruct (fsub_ok _ _ H) as (Fb & F2 & V).
  destruct (fsub_ok _ _ F2) as (Fx & Fa & V1). destruct (fadd_ok _ _ Fx) as (_ & _ & Vx).
  rewrite V, V1, Vx, Z, !Rplus_0_l, Rminus_0_r, !(rn_id (val b)) by apply val_fmt.
  rewrite Rminus_diag_eq by auto. rewrite rn_id; [lra|apply generic_format_0].
Qed.

(** ** Sums, with finiteness from bounds on the operands *)
Local Opaque splitter split pps two_sum fast_two_sum.
Lemma B_1018 : forall x m, (m <= 1018)%Z -> Rabs x <= B m -> Rabs x <= B 1018.
Proof. intros x m H1 H2. apply Rle_trans with (1 := H2). apply B_le; auto. Qed.

Lemma sum_loop_fwd : forall m j gs q harr k, (-1074 <= m)%Z -> (0 <= j <= 53)%Z -> (m + j <= 1018)%Z ->
  allfin gs -> bd m gs -> fin q = true -> allfin harr -> bd m harr -> (0 <= k)%Z ->
  Rabs (val q) <= IZR k * B m -> (k + Z.of_nat (length gs) <= 2 ^ j)%Z ->
  exists q' h', sum_loop gs q harr = (q', h') /\ fin q' = true /\ allfin h' /\ bd m h' /\
    Rabs (val q') <= B (m + j) /\ (length h' <= length harr + length gs)%nat.
Proof.
  induction gs as [|g gs IH]; intros q harr k Tm Tj Tmj Ag Bg Fq Ah Bh Hk Qk Len.
  - exists q, harr. split; [reflexivity|]. repeat (split; [assumption|]). split; [|simpl; lia].
    apply Rle_trans with (1 := Qk). apply k_le; simpl in Len; lia.
  - inversion Ag as [|? ? Fg Ag']; inversion Bg as [|? ? Vg Bg']; subst.
    simpl length in Len. rewrite Nat2Z.inj_succ in Len.
    assert (P53 : (2 ^ j <= 2 ^ 53)%Z) by (apply Z.pow_le_mono_r; lia).
    assert (Qb : Rabs (val q) <= B (m + j)).
    { apply Rle_trans with (1 := Qk). apply k_le; lia. }
    assert (F2 : fin (snd (two_sum q g)) = true).
    { apply two_sum_fin; auto; [apply B_1018 with (m + j)%Z|apply B_1018 with m]; auto; lia. }
    destruct (two_sum_ok _ _ F2) as (_ & _ & F1 & V1 & V2).
    change (sum_loop (g :: gs) q harr) with (sum_loop gs (fst (two_sum q g)) (push_nz harr (snd (two_sum q g)))).
    destruct (IH (fst (two_sum q g)) (push_nz harr (snd (two_sum q g))) (k + 1)%Z) as (q' & h' & E & F & A & Bb & Q & L);
      auto; try lia.
    + apply push_fin; auto.
    + apply push_bd; auto. rewrite V2. apply Rle_trans with (Rabs (val g)); auto. apply err_le, val_fmt.
    + rewrite V1. apply rn_le; try lia. apply Rle_trans with (1 := Rabs_triang _ _). rewrite plus_IZR. lra.
    + exists q', h'. repeat (split; [assumption|]). pose proof (push_len harr (snd (two_sum q g))). simpl. lia.
Qed.

Lemma chain_wexpn : forall e f, wexpn e -> wexpn f ->
  exists q o, chain (vals (merge e f)) (0, []) = (q, o) /\
    (K (fin_out q o) \/ fin_out q o = [0]) /\ sumR (fin_out q o) = value e + value f.
Proof.
  intros e f (Fe & _ & Ke) (Ff & _ & Kf).
  rewrite chain_nz by apply generic_format_0.
  rewrite <- nz_vals by (apply merge_fin; auto). rewrite nz_merge by auto.
  destruct (chain_merge (nz e) (nz f) [] [] [] 0 (nz_fin e Fe) (nz_fin f Ff)) as (q & o & C & I).
  { constructor; rewrite ?app_nil_r; auto; simpl; try tauto; try lra.
    - apply generic_format_0.
    - intros; apply JJ_nil.
    - intros; apply JJ_nil.
    - left. split.
      + intros k _. unfold Jn. simpl. rewrite Rabs_R0. pose proof (B_pos k). lra.
      + intros t k _ _. unfold Jn. simpl. rewrite Rabs_R0. pose proof (B_pos k). lra. }
  rewrite !app_nil_r in I. exists q, o. split; auto.
  destruct I as [_ _ _ _ S HK Fq Jq _ _].
  destruct (fin_out_ok o q HK Fq Jq) as [H1 H2]. split; auto.
  rewrite H2, S, !sumR_rev. rewrite <- (nz_value e), <- (nz_value f) by auto. unfold value. lra.
Qed.

Lemma merge_bd : forall m e f, bd m e -> bd m f -> bd m (merge e f).
Proof. unfold bd. intros m e f He Hf. rewrite Forall_forall in *. intros x I. apply merge_in in I. destruct I; auto. Qed.

Lemma merge_first_w : forall e f a b gs, wexpn e -> wexpn f -> merge e f = a :: b :: gs ->
  val b = 0 \/ Rabs (val a) <= Rabs (val b).
Proof.
  intros e f a b gs (Fe & _ & Ke) (Ff & _ & Kf) M.
  assert (F : allfin (merge e f)) by (apply merge_fin; auto). rewrite M in F.
  inversion F as [|? ? Fa F']; inversion F' as [|? ? Fb _]; subst.
  destruct (Req_dec (val b) 0) as [Z|Nb]; auto. right.
  destruct (Req_dec (val a) 0) as [Z|Na]; [rewrite Z, Rabs_R0; apply Rabs_pos|].
  pose proof (nz_merge e f Fe Ff) as N. rewrite M, (nz_cons a _ Fa), (nz_cons b _ Fb) in N.
  destruct (Req_EM_T (val a) 0); [tauto|]. destruct (Req_EM_T (val b) 0); [tauto|].
  apply (merge_first (nz e) (nz f) a (b :: nz gs)); auto using nz_fin.
  - apply K_rev_sabs with []. rewrite app_nil_r; auto.
  - apply K_rev_sabs with []. rewrite app_nil_r; auto.
  - left; auto.
Qed.

Theorem fes_w : forall m j e f, wexpn e -> wexpn f -> (-1074 <= m)%Z -> (0 <= j <= 53)%Z -> (m + j <= 1018)%Z ->
  bd m e -> bd m f -> (Z.of_nat (length e + length f) <= 2 ^ j)%Z ->
  exists h, fast_expansion_sum_zeroelim e f = Some h /\ expn h /\ value h = value e + value f /\
    bd (m + j) h /\ (length h <= length e + length f)%nat /\
    forall g, (-1074 <= g)%Z -> grid g e -> grid g f -> grid g h.
Proof.
  intros m j e f He Hf Tm Tj Tmj Be Bf Len.
  destruct He as (Fe & Ne & Ke). destruct Hf as (Ff & Nf & Kf).
  pose proof (merge_length e f) as L. unfold fast_expansion_sum_zeroelim.
  destruct (merge e f) as [|a [|b gs]] eqn:M.
  { destruct e, f; simpl in L; try tauto; lia. }
  { destruct e, f; simpl in L; try tauto; lia. }
  assert (F : allfin (merge e f)) by (apply merge_fin; auto). assert (Bm := merge_bd m e f Be Bf).
  rewrite M in F, Bm.
  inversion F as [|? ? Fa F']; inversion F' as [|? ? Fb Fg]; subst.
  inversion Bm as [|? ? Va Bm']; inversion Bm' as [|? ? Vb Bg]; subst.
  simpl in L.
  assert (F2 : fin (snd (fast_two_sum b a)) = true).
  { apply fast_two_sum_fin; auto; apply B_1018 with m; auto; lia. }
  destruct (fast_two_sum_ok _ _ F2) as (_ & _ & F1 & V1 & V2).
  assert (V2' : val (snd (fast_two_sum b a)) = val b + val a - rn (val b + val a)).
  { destruct (merge_first_w e f a b gs (conj Fe (conj Ne Ke)) (conj Ff (conj Nf Kf)) M) as [Z|O]; auto.
    apply fast_two_sum_zero; auto. }
  assert (P53 : (2 ^ j <= 2 ^ 53)%Z) by (apply Z.pow_le_mono_r; lia).
  destruct (sum_loop_fwd m j gs (fst (fast_two_sum b a)) (push_nz [] (snd (fast_two_sum b a))) 2)
    as (q & harr & SL & Fq & Ah & Bh & Vq & Lh); auto; try lia.
  { apply push_fin; auto. constructor. }
  { apply push_bd; [constructor|]. rewrite V2'. apply Rle_trans with (Rabs (val a)); auto. apply err_le, val_fmt. }
  { rewrite V1. apply rn_le; try lia. apply Rle_trans with (1 := Rabs_triang _ _). lra. }
  exists (finish q harr).
  assert (A : allfin (finish q harr)) by (apply finish_fin; auto).
  destruct (finish_ok _ _ A) as (_ & _ & V).
  destruct (sum_loop_ok _ _ _ _ _ SL Fq Ah) as (_ & A2 & _ & C).
  destruct (push_ok _ _ A2) as (_ & _ & P). rewrite P, V2', V1 in C.
  assert (C' : chain (vals (merge e f)) (0, []) = (val q, rev (vals harr))).
  { rewrite M. change (vals (a :: b :: gs)) with (val a :: val b :: vals gs).
    rewrite !chain_cons. rewrite Rplus_0_l, (rn_id (val a)) by apply val_fmt.
    replace (emit (val a - val a) []) with (@nil R) by (unfold emit; destruct (Req_EM_T (val a - val a) 0); [auto|lra]).
    rewrite (Rplus_comm (val a)). exact C. }
  destruct (chain_wexpn e f (conj Fe (conj Ne Ke)) (conj Ff (conj Nf Kf))) as (q' & o' & C'' & HK & S).
  rewrite C' in C''. inversion C''; subst q' o'.
  split; [destruct (fast_two_sum b a); cbn [fst snd] in SL; rewrite SL; reflexivity|].
  split; [eapply expn_of_out; eauto; apply finish_nonempty|].
  split; [unfold value at 1; rewrite <- sumR_rev, V; exact S|].
  split; [apply finish_bd; auto; apply bd_le with m; auto; lia|].
  split.
  { pose proof (finish_len q harr). pose proof (push_len [] (snd (fast_two_sum b a))). simpl in *. lia. }
  intros g G Ge Gf. apply chain_mult with (g := g) in C'; auto using mult_0.
  - apply grid_vals, Forall_rev'. rewrite V. apply fin_out_mult; tauto.
  - apply grid_vals. unfold grid in *. rewrite Forall_forall in *. intros x I. apply merge_in in I. destruct I; auto.
Qed.

(** ** Scaling *)
Lemma err_le2 : forall x y, fmt y -> Rabs (x + y - rn (x + y)) <= Rabs x.
Proof. intros x y F. rewrite (Rplus_comm x y). apply err_le; auto. Qed.
Lemma err_le0 : forall v, Rabs (v - rn v) <= Rabs v.
Proof. intros v. pose proof (err_le 0 v (generic_format_0 _ _)). rewrite Rplus_0_l in H. auto. Qed.
Lemma rn_0 : rn 0 = 0.
Proof. apply rn_id. apply generic_format_0. Qed.

Section ScaleFwd.
Variables (b : f64) (ge gb m mb : Z).
Hypothesis Fb : fin b = true.
Hypothesis Mb : mult gb (val b).
Hypothesis Te : (-1074 <= ge)%Z.
Hypothesis Tb : (-1074 <= gb)%Z.
Hypothesis G : (-1074 <= ge + gb)%Z.
Hypothesis Vb : Rabs (val b) <= B mb.
Hypothesis Tm : (m <= 470)%Z.
Hypothesis Tmb : (mb <= 470)%Z.
Hypothesis Tp : (-1074 <= m + mb)%Z.

Lemma pps_fwd : forall e, fin e = true -> mult ge (val e) -> Rabs (val e) <= B m ->
  fin (fst (pps e b)) = true /\ fin (snd (pps e b)) = true /\
  val (fst (pps e b)) = rn (val e * val b) /\ val (snd (pps e b)) = val e * val b - rn (val e * val b) /\
  Rabs (val (fst (pps e b))) <= B (m + mb) /\ Rabs (val (snd (pps e b))) <= B (m + mb).
Proof.
  intros e Fe Me Ve.
  assert (F : fin (snd (pps e b)) = true).
  { apply pps_fin; auto; [apply Rle_trans with (1 := Ve)|apply Rle_trans with (1 := Vb)]; apply B_le; auto. }
  destruct (pps_ok _ _ F) as (_ & _ & F1 & V1 & V2). specialize (V2 ge gb Me Mb Te Tb G).
  assert (P : Rabs (val e * val b) <= B (m + mb)).
  { rewrite Rabs_mult, bpow_plus. apply Rmult_le_compat; auto; apply Rabs_pos. }
  repeat (split; [assumption|]). rewrite V1, V2. split.
  - rewrite <- (Rmult_1_l (B (m + mb))). apply rn_le; try lia. lra.
  - apply Rle_trans with (1 := err_le0 _). auto.
Qed.

(** One round: the conditions are those of the invariant when the component
    is not zero. *)
Lemma scale_step_fwd : forall j k q harr e, (0 <= j <= 53)%Z -> (m + mb + j <= 1018)%Z ->
  fin e = true -> mult ge (val e) -> Rabs (val e) <= B m ->
  fin q = true -> allfin harr -> bd (m + mb) harr -> (0 <= k)%Z -> Rabs (val q) <= IZR k * B (m + mb) -> (k + 2 <= 2 ^ j)%Z ->
  (val e <> 0 -> Rabs (sc_s (val b) (val e) (val q)) <= Rabs (rn (val e * val b))) ->
  exists q' h', scale_step b (fst (split b)) (snd (split b)) (q, harr) e = (q', h') /\ fin q' = true /\ allfin h' /\
    bd (m + mb) h' /\ Rabs (val q') <= IZR (k + 2) * B (m + mb) /\ (length h' <= length harr + 2)%nat /\
    val q' = sc_q (val b) (val e) (val q) /\
    rev (vals h') = emit (sc_h2 (val b) (val e) (val q)) (emit (sc_h1 (val b) (val e) (val q)) (rev (vals harr))).
Proof.
  intros j k q harr e Tj Tmj Fe Me Ve Fq Ah Bh Hk Qk Len S.
  destruct (pps_fwd e Fe Me Ve) as (Fp1 & Fp0 & V1 & V0 & B1 & B0).
  set (M := (m + mb)%Z) in *.
  assert (P53 : (2 ^ j <= 2 ^ 53)%Z) by (apply Z.pow_le_mono_r; lia).
  assert (Qb : Rabs (val q) <= B (M + j)) by (apply Rle_trans with (1 := Qk); apply k_le; lia).
  rewrite scale_step_eq.
  assert (F2 : fin (snd (two_sum q (snd (pps e b)))) = true).
  { apply two_sum_fin; auto; [apply B_1018 with (M + j)%Z|apply B_1018 with M]; auto; lia. }
  destruct (two_sum_ok _ _ F2) as (_ & _ & Fs & Vs & Vh).
  assert (Es : val (fst (two_sum q (snd (pps e b)))) = sc_s (val b) (val e) (val q)) by (rewrite Vs, V0; reflexivity).
  assert (Bs : Rabs (val (fst (two_sum q (snd (pps e b))))) <= IZR (k + 1) * B M).
  { rewrite Vs. apply rn_le; try lia. apply Rle_trans with (1 := Rabs_triang _ _). rewrite plus_IZR. lra. }
  set (s := fst (two_sum q (snd (pps e b)))) in *.
  assert (F3 : fin (snd (fast_two_sum (fst (pps e b)) s)) = true).
  { apply fast_two_sum_fin; auto; [apply B_1018 with M; auto; lia|].
    apply B_1018 with (M + j)%Z; auto. apply Rle_trans with (1 := Bs). apply k_le; lia. }
  destruct (fast_two_sum_ok _ _ F3) as (_ & _ & Fq' & Vq & Vh2).
  assert (Vh2' : val (snd (fast_two_sum (fst (pps e b)) s)) = val (fst (pps e b)) + val s - rn (val (fst (pps e b)) + val s)).
  { destruct (Req_dec (val e) 0) as [Z|N].
    - apply fast_two_sum_zero; auto. rewrite V1, Z, Rmult_0_l. apply rn_0.
    - apply Vh2. rewrite Es, V1. auto. }
  eexists. eexists. split; [reflexivity|]. split; auto.
  assert (A1 : allfin (push_nz harr (snd (two_sum q (snd (pps e b)))))) by (apply push_fin; auto).
  assert (A2 : allfin (push_nz (push_nz harr (snd (two_sum q (snd (pps e b))))) (snd (fast_two_sum (fst (pps e b)) s))))
    by (apply push_fin; auto).
  split; auto. split.
  { apply push_bd; [apply push_bd; auto|].
    - rewrite Vh. apply Rle_trans with (2 := B0). apply err_le, val_fmt.
    - rewrite Vh2'. apply Rle_trans with (2 := B1). apply err_le2, val_fmt. }
  split.
  { rewrite Vq. apply rn_le; try lia. apply Rle_trans with (1 := Rabs_triang _ _). rewrite !plus_IZR in *. lra. }
  split.
  { pose proof (push_len harr (snd (two_sum q (snd (pps e b))))).
    pose proof (push_len (push_nz harr (snd (two_sum q (snd (pps e b))))) (snd (fast_two_sum (fst (pps e b)) s))). lia. }
  split.
  { rewrite Vq, Es, V1. reflexivity. }
  destruct (push_ok _ _ A1) as (_ & _ & P1). destruct (push_ok _ _ A2) as (_ & _ & P2).
  rewrite P2, P1, Vh2', Vh, Es, V0, V1. unfold sc_h2, sc_h1, sc_q, sc_s. reflexivity.
Qed.

Lemma sc_zero : forall q, fmt q -> sc_q (val b) 0 q = q /\ sc_h1 (val b) 0 q = 0 /\ sc_h2 (val b) 0 q = 0.
Proof.
  intros q F. assert (S : sc_s (val b) 0 q = q).
  { unfold sc_s. rewrite Rmult_0_l, rn_0, Rminus_0_r, Rplus_0_r. apply rn_id; auto. }
  assert (Q : sc_q (val b) 0 q = q).
  { unfold sc_q. rewrite S, Rmult_0_l, rn_0, Rplus_0_l. apply rn_id; auto. }
  split; auto. split.
  - unfold sc_h1. rewrite S, Rmult_0_l, rn_0. lra.
  - unfold sc_h2. rewrite Q, S, Rmult_0_l, rn_0. lra.
Qed.
Lemma emit_0 : forall o, emit 0 o = o.
Proof. intros. unfold emit. destruct (Req_EM_T 0 0); tauto. Qed.

Lemma scale_fold_w : forall j l es eo q harr k, (0 <= j <= 53)%Z -> (m + mb + j <= 1018)%Z ->
  lsb l (val b) -> allfin es -> grid ge es -> bd m es ->
  fin q = true -> allfin harr -> bd (m + mb) harr -> (0 <= k)%Z -> Rabs (val q) <= IZR k * B (m + mb) ->
  (k + 2 * Z.of_nat (length es) <= 2 ^ j)%Z ->
  SInv (val b) l eo (nzR (vals es)) (rev (vals harr)) (val q) ->
  mult (ge + gb) (val q) -> grid (ge + gb) harr ->
  exists q' h', fold_left (scale_step b (fst (split b)) (snd (split b))) es (q, harr) = (q', h') /\
    fin q' = true /\ allfin h' /\ bd (m + mb) h' /\ Rabs (val q') <= B (m + mb + j) /\
    (length h' <= length harr + 2 * length es)%nat /\
    SInv (val b) l (rev (nzR (vals es)) ++ eo) [] (rev (vals h')) (val q') /\
    mult (ge + gb) (val q') /\ grid (ge + gb) h'.
Proof.
  induction es as [|e es IH]; intros eo q harr k Tj Tmj Lb Ae Ge Be Fq Ah Bh Hk Qk Len I Mq Mh.
  - exists q, harr. split; [reflexivity|]. repeat (split; [assumption|]).
    split; [apply Rle_trans with (1 := Qk); apply k_le; simpl in Len; lia|].
    split; [simpl; lia|]. auto.
  - inversion Ae as [|? ? Fe Ae']; inversion Ge as [|? ? Me Ge']; inversion Be as [|? ? Ve Be']; subst.
    simpl length in *. rewrite Nat2Z.inj_succ in Len.
    change (vals (e :: es)) with (val e :: vals es) in *.
    assert (HS : val e <> 0 -> exists L, lsb L (val e) /\ (-1074 <= L + l)%Z).
    { intros Ne. destruct (fmt_lsb_ex _ (val_fmt e) Ne) as (L & Le & TL). exists L. split; auto.
      assert (X1 := mult_lsb ge L _ Me Le). assert (X2 := mult_lsb gb l _ Mb Lb). lia. }
    assert (HI : SInv (val b) l (if Req_EM_T (val e) 0 then eo else val e :: eo) (nzR (vals es))
      (emit (sc_h2 (val b) (val e) (val q)) (emit (sc_h1 (val b) (val e) (val q)) (rev (vals harr)))) (sc_q (val b) (val e) (val q)) /\
      (val e <> 0 -> Rabs (sc_s (val b) (val e) (val q)) <= Rabs (rn (val e * val b)))).
    { simpl in I. destruct (Req_EM_T (val e) 0) as [Z|N].
      - rewrite Z. destruct (sc_zero (val q) (val_fmt q)) as (-> & -> & ->). rewrite !emit_0. split; auto. tauto.
      - destruct (HS N) as (L & Le & TL).
        destruct (SInv_step (val b) l (val_fmt b) Lb eo (val e) _ _ _ L I Le TL) as [I' Sm]. auto. }
    destruct HI as [HI HS']. clear HS I.
    destruct (scale_step_fwd j k q harr e) as (q1 & h1 & E1 & F1 & A1 & B1 & Q1 & L1 & V1 & VH); auto; try lia.
    destruct (sc_mult b ge gb Mb G (val e) (val q) Me Mq) as (M1 & M2 & M3).
    rewrite <- V1, <- VH in HI.
    destruct (IH _ q1 h1 (k + 2)%Z Tj Tmj Lb Ae' Ge' Be' F1 A1 B1 ltac:(lia) Q1 ltac:(lia) HI) as
      (q' & h' & E & F & A & Bb & Q & Ln & I2 & Mq' & Mh').
    { rewrite V1. exact M1. }
    { apply grid_vals, Forall_rev'. rewrite VH. apply emit_mult; auto. apply emit_mult; auto.
      apply Forall_rev', grid_vals. auto. }
    exists q', h'. split; [cbn [fold_left]; rewrite E1; exact E|]. repeat (split; [assumption|]).
    split; [lia|]. split; [|auto].
    simpl nzR. destruct (Req_EM_T (val e) 0); auto. rewrite rev_cons_app. auto.
Qed.

Lemma scale_fold_zero_w : forall es q harr, val b = 0 -> allfin es -> grid ge es -> bd m es -> fin q = true -> val q = 0 -> harr = [] ->
  exists q', fold_left (scale_step b (fst (split b)) (snd (split b))) es (q, harr) = (q', []) /\ fin q' = true /\ val q' = 0.
Proof.
  induction es as [|e es IH]; intros q harr Zb Ae Ge Be Fq Zq ->.
  - exists q. auto.
  - inversion Ae as [|? ? Fe Ae']; inversion Ge as [|? ? Me Ge']; inversion Be as [|? ? Ve Be']; subst.
    assert (S0 : sc_s (val b) (val e) (val q) = 0).
    { unfold sc_s. rewrite Zb, Zq, Rmult_0_r, rn_0, Rminus_0_r, Rplus_0_r. apply rn_0. }
    destruct (scale_step_fwd 1 0 q [] e) as (q1 & h1 & E1 & F1 & A1 & B1 & Q1 & L1 & V1 & VH); auto; try lia.
    { constructor. } { constructor. }
    { rewrite Zq, Rabs_R0, Rmult_0_l. lra. }
    { intros _. rewrite S0, Rabs_R0. apply Rabs_pos. }
    assert (h1 = []).
    { assert (S1 : sc_h1 (val b) (val e) (val q) = 0).
      { unfold sc_h1. rewrite S0, Zb, Zq, Rmult_0_r, rn_0. lra. }
      assert (S3 : sc_h2 (val b) (val e) (val q) = 0).
      { unfold sc_h2, sc_q. rewrite S0, Zb, Rmult_0_r, rn_0, Rplus_0_r, rn_0. lra. }
      rewrite S1, S3, !emit_0 in VH. apply (f_equal (@length R)) in VH. rewrite rev_length in VH. unfold vals in VH.
      rewrite map_length in VH. destruct h1; auto; discriminate. }
    subst h1. cbn [fold_left]. rewrite E1. apply IH; auto.
    rewrite V1. unfold sc_q. rewrite S0, Zb, Rmult_0_r, rn_0, Rplus_0_r. apply rn_0.
Qed.

Theorem scale_w : forall j e, wexpn e -> (0 <= j <= 53)%Z -> (m + mb + j <= 1018)%Z ->
  grid ge e -> bd m e -> (2 * Z.of_nat (length e) <= 2 ^ j)%Z ->
  exists h, scale_expansion_zeroelim e b = Some h /\ expn h /\ value h = value e * val b /\
    bd (m + mb + j) h /\ (length h <= 2 * length e)%nat /\ grid (ge + gb) h.
Proof.
  intros j e He Tj Tmj Ge Be Len. destruct He as (Ae & Ne & Ke).
  destruct e as [|e es]; [tauto|]. clear Ne. rewrite scale_eq.
  inversion Ae as [|? ? Fe Ae']; inversion Ge as [|? ? Me Ge']; inversion Be as [|? ? Ve Be']; subst.
  simpl length in *. rewrite Nat2Z.inj_succ in Len.
  destruct (pps_fwd e Fe Me Ve) as (Fp1 & Fp0 & V1 & V0 & B1 & B0).
  assert (Ah : allfin (push_nz [] (snd (pps e b)))) by (apply push_fin; auto; constructor).
  destruct (push_ok _ _ Ah) as (_ & _ & P). change (rev (vals [])) with (@nil R) in P.
  assert (Bh : bd (m + mb) (push_nz [] (snd (pps e b)))) by (apply push_bd; auto; constructor).
  assert (Lh := push_len [] (snd (pps e b))). simpl in Lh.
  destruct (Req_dec (val b) 0) as [Zb|Nb].
  { assert (Z1 : val (fst (pps e b)) = 0) by (rewrite V1, Zb, Rmult_0_r; apply rn_0).
    assert (Z2 : push_nz [] (snd (pps e b)) = []).
    { unfold push_nz. rewrite (nonzero_fin _ Fp0), V0, Zb, Rmult_0_r, rn_0.
      destruct (Req_EM_T (0 - 0) 0); [auto|lra]. }
    destruct (scale_fold_zero_w es _ _ Zb Ae' Ge' Be' Fp1 Z1 Z2) as (q & E & Fq & Zq). rewrite E.
    exists (finish q []). split; auto.
    assert (A : allfin (finish q [])) by (apply finish_fin; auto; constructor).
    destruct (finish_ok _ _ A) as (_ & _ & V). simpl in V. rewrite Zq in V. unfold fin_out in V.
    destruct (Req_EM_T 0 0); [|tauto].
    assert (V' : vals (finish q []) = [0]) by (rewrite <- (rev_involutive (vals _)), V; reflexivity).
    split; [split; auto; split; [apply finish_nonempty|right; auto]|].
    split; [unfold value at 1; rewrite V', Zb; simpl; lra|].
    split; [apply finish_bd; [constructor|]; rewrite Zq, Rabs_R0; apply Rlt_le, B_pos|].
    split; [pose proof (finish_len q []); simpl in *; lia|].
    apply grid_vals. rewrite V'. repeat constructor. apply mult_0. }
  destruct (fmt_lsb_ex _ (val_fmt b) Nb) as (l & Lb & Tl).
  rewrite nz_vals in Ke by auto. change (vals (e :: es)) with (val e :: vals es) in Ke.
  assert (Mp : mult (ge + gb) (val e * val b)) by (apply mult_mul; auto).
  assert (M1 : mult (ge + gb) (val (fst (pps e b)))) by (rewrite V1; apply rn_mult; auto).
  assert (M0 : mult (ge + gb) (val (snd (pps e b)))) by (rewrite V0; apply err_mult; auto).
  assert (Mh : grid (ge + gb) (push_nz [] (snd (pps e b)))).
  { apply grid_vals, Forall_rev'. rewrite P. apply emit_mult; auto. }
  assert (I0 : forall er, K (rev er) -> SInv (val b) l [] er [] 0).
  { intros er HK. constructor.
    - rewrite app_nil_r. auto.
    - simpl. lra.
    - simpl. auto.
    - apply generic_format_0.
    - intros; apply JJ_nil.
    - intros e0 er' L0 _ _. split; [apply JJ_nil|]. intros _. unfold Jn. simpl. rewrite Rabs_R0.
      pose proof (B_pos (L0 + l)). lra. }
  assert (I1 : SInv (val b) l (if Req_EM_T (val e) 0 then [] else [val e]) (nzR (vals es))
    (rev (vals (push_nz [] (snd (pps e b))))) (val (fst (pps e b)))).
  { simpl in Ke. rewrite P, V0, V1. destruct (Req_EM_T (val e) 0) as [Z|N].
    - rewrite Z, Rmult_0_l, rn_0. replace (0 - 0) with 0 by lra. rewrite emit_0. apply I0; auto.
    - destruct (fmt_lsb_ex _ (val_fmt e) N) as (L & Le & TL).
      assert (X1 := mult_lsb ge L _ Me Le). assert (X2 := mult_lsb gb l _ Mb Lb).
      destruct (SInv_step (val b) l (val_fmt b) Lb [] (val e) _ [] 0 L (I0 _ Ke) Le ltac:(lia)) as [I1 _].
      assert (S0 : sc_s (val b) (val e) 0 = val (snd (pps e b))).
      { unfold sc_s. rewrite Rplus_0_l, <- V0. apply rn_id, val_fmt. }
      assert (S1 : sc_h1 (val b) (val e) 0 = 0).
      { unfold sc_h1. rewrite S0, V0. lra. }
      assert (S2 : sc_q (val b) (val e) 0 = val (fst (pps e b))).
      { unfold sc_q. rewrite S0, V0, V1. f_equal. lra. }
      assert (S3 : sc_h2 (val b) (val e) 0 = val (snd (pps e b))).
      { unfold sc_h2. rewrite S2, S0, V1. lra. }
      rewrite S1, S2, S3, emit_0, V0, V1 in I1. exact I1. }
  destruct (scale_fold_w j l es _ _ _ 1 Tj Tmj Lb Ae' Ge' Be' Fp1 Ah Bh ltac:(lia) ltac:(lra) ltac:(lia) I1 M1 Mh)
    as (q & harr & E & Fq & A & Bb & Q & Ln & I2 & Mq & Mo).
  rewrite E. exists (finish q harr). split; auto.
  assert (Af : allfin (finish q harr)) by (apply finish_fin; auto).
  destruct (finish_ok _ _ Af) as (_ & _ & V).
  destruct I2 as [_ Sm HK2 Fq2 Jq2 _].
  destruct (fin_out_ok _ _ HK2 Fq2 Jq2) as [H1 H2].
  split; [eapply expn_of_out; eauto; apply finish_nonempty|].
  split.
  { unfold value at 1. rewrite <- sumR_rev, V, H2, Sm, sumR_app, sumR_rev, nzR_sum. unfold value. simpl.
    destruct (Req_EM_T (val e) 0) as [Z|N]; simpl; rewrite ?Z; lra. }
  split; [apply finish_bd; auto; apply bd_le with (m + mb)%Z; auto; lia|].
  split; [pose proof (finish_len q harr); lia|].
  apply grid_vals, Forall_rev'. rewrite V. apply fin_out_mult; auto. apply Forall_rev', grid_vals; auto.
Qed.
End ScaleFwd.

(** ** The fixed-length arrays *)
(** [a0] is nonadjacent to [a1]: what two_sum, two_product and square return. *)
Definition pairN (a1 a0 : R) : Prop := forall k, lsb k a1 -> Rabs a0 < / 2 * B k.

Lemma pairN_err : forall g v, mult g v -> (-1074 <= g)%Z -> pairN (rn v) (v - rn v).
Proof.
  intros g v M T k L. destruct (Req_dec (v - rn v) 0) as [->|N].
  - rewrite Rabs_R0. pose proof (B_pos k). lra.
  - destruct (rn_cases g v M T) as [E|(u & U & V & Mh & C)]; [tauto|].
    pose proof (B_le1 g u U). pose proof (B_pos g).
    destruct C as [[MQ A]|[MQ A]].
    + assert (B u <= B k) by (apply B_le; eapply mult_lsb; eauto). lra.
    + assert (2 * B u <= B k) by (apply B_le1; eapply mult_lsb; eauto). lra.
Qed.
Lemma pairN_opp : forall a1 a0, pairN a1 a0 -> pairN (- a1) (- a0).
Proof. intros a1 a0 H k L. rewrite Rabs_Ropp. apply H. apply ExpFloat.lsb_opp; auto. Qed.
Lemma KN_pair : forall a1 a0, fmt a1 -> fmt a0 -> pairN a1 a0 -> KN (rev (nzR [a0; a1])).
Proof.
  intros a1 a0 F1 F0 H. simpl.
  destruct (Req_EM_T a0 0) as [Z0|N0]; destruct (Req_EM_T a1 0) as [Z1|N1]; simpl; auto.
  - split; auto. split; auto. split; auto. intros. apply NJ_nil.
  - split; auto. split; auto. split; auto. intros. apply NJ_nil.
  - split; auto. split; auto. split; [split; auto; split; auto; split; auto; intros; apply NJ_nil|].
    intros k L. apply NJ_one. apply H; auto.
Qed.
Lemma in_nzR : forall x l, In x (nzR l) <-> In x l /\ x <> 0.
Proof. intros. unfold nzR. rewrite filter_In. destruct (Req_EM_T x 0); intuition; discriminate. Qed.

Lemma fin_GInv : forall o q, GInv [] o q -> KN (emit q o).
Proof.
  intros o q [_ Ko Fq Jq _]. unfold emit. destruct (Req_EM_T q 0); auto. simpl. auto.
Qed.

Lemma two_two_KN : forall a1 a0 b1 b0 x3 x2 x1 x0 j o,
  fmt a1 -> fmt a0 -> fmt b1 -> fmt b0 -> fmt j -> fmt o -> pairN a1 a0 -> pairN b1 b0 ->
  chain [a0; a1] (b0, []) = (j, emit o (emit x0 [])) -> Rabs x0 <= Rabs b0 ->
  chain [o; j] (b1, emit x0 []) = (x3, emit x2 (emit x1 (emit x0 []))) ->
  KN (emit x3 (emit x2 (emit x1 (emit x0 [])))).
Proof.
  intros a1 a0 b1 b0 x3 x2 x1 x0 j o F1 F0 G1 G0 Fj Fo Pa Pb C1 X0 C2.
  assert (I1 : GInv (nzR [a0; a1]) [] b0).
  { constructor; auto.
    - apply KN_pair; auto.
    - exact I.
    - intros; apply NJ_nil.
    - intros; apply NJ_nil. }
  assert (I2 := chain_grow _ _ _ _ _ I1 C1). assert (Kj := fin_GInv _ _ I2).
  apply fin_GInv. eapply chain_grow; [|exact C2].
  assert (Po : pairN j o).
  { intros k L. pose proof (lsb_nz k j L). unfold emit in Kj at 1. destruct (Req_EM_T j 0); [tauto|].
    destruct Kj as (_ & _ & _ & Jk). destruct (Jk k L) as [_ H2]. unfold emit in H2 at 1.
    destruct (Req_EM_T o 0) as [->|]; [rewrite Rabs_R0; pose proof (B_pos k); lra|exact H2]. }
  assert (X0' : forall t L, t = o \/ t = j -> t <> 0 -> lsb L t -> NJ (emit x0 []) L).
  { intros t L Ht Nt Lt. unfold emit. destruct (Req_EM_T x0 0) as [->|Nx]; [apply NJ_nil|]. apply NJ_one.
    assert (Ko : o <> 0 -> KN [o; x0]).
    { intros No. assert (Ko := g_o _ _ _ I2). unfold emit in Ko. destruct (Req_EM_T o 0); [tauto|].
      destruct (Req_EM_T x0 0); [tauto|]. exact Ko. }
    assert (So : o <> 0 -> forall k, lsb k o -> Rabs x0 < / 2 * B k).
    { intros No k Lk. apply (KN_small [x0] o x0 k (Ko No) Lk). left; auto. }
    destruct Ht as [->| ->].
    - apply So; auto.
    - destruct (Req_dec o 0) as [Zo|No].
      + assert (Kj' := Kj). unfold emit in Kj'. destruct (Req_EM_T j 0); [tauto|].
        destruct (Req_EM_T o 0); [|tauto]. destruct (Req_EM_T x0 0); [tauto|].
        apply (KN_small [x0] j x0 L Kj' Lt). left; auto.
      + destruct (fmt_lsb_ex o Fo No) as (k & Lk & _). pose proof (So No k Lk). pose proof (Po L Lt).
        pose proof (lsb_ge k o Lk). pose proof (B_pos k). lra. }
  constructor; auto.
  - apply KN_pair; auto.
  - unfold emit. destruct (Req_EM_T x0 0); simpl; auto.
    assert (Fx : fmt x0).
    { assert (Ko := g_o _ _ _ I2). apply (fun H => proj1 (KN_in _ x0 Ko H)).
      unfold emit. destruct (Req_EM_T o 0); destruct (Req_EM_T x0 0); simpl; tauto. }
    repeat (split; [assumption|]). split; auto. intros; apply NJ_nil.
  - intros k L. unfold emit. destruct (Req_EM_T x0 0); [apply NJ_nil|]. apply NJ_one.
    pose proof (Pb k L). lra.
  - intros t L It Lt. apply in_nzR in It. simpl in It. apply (X0' t L); auto; intuition.
Qed.

Lemma rev_nzR4 : forall x0 x1 x2 x3, rev (nzR [x0; x1; x2; x3]) = emit x3 (emit x2 (emit x1 (emit x0 []))).
Proof.
  intros. unfold emit. simpl.
  destruct (Req_EM_T x0 0); destruct (Req_EM_T x1 0); destruct (Req_EM_T x2 0); destruct (Req_EM_T x3 0); reflexivity.
Qed.

(** A float that is finite and at most 2^m in magnitude. *)
Definition sz (m : Z) (a : f64) : Prop := fin a = true /\ Rabs (val a) <= B m.

Lemma two_one_sum_fwd : forall m a1 a0 b x2 x1 x0, (-1074 <= m <= 1016)%Z -> sz m a1 -> sz m a0 -> sz m b ->
  two_one_sum a1 a0 b = (x2, x1, x0) ->
  sz (m + 2) x2 /\ sz (m + 2) x1 /\ sz (m + 2) x0 /\ Rabs (val x0) <= Rabs (val b) /\
  (forall g, (-1074 <= g)%Z -> mult g (val a1) -> mult g (val a0) -> mult g (val b) -> mult g (val x2) /\ mult g (val x1) /\ mult g (val x0)) /\
  forall o, chain [val a0; val a1] (val b, o) = (val x2, emit (val x1) (emit (val x0) o)).
Proof.
  intros m a1 a0 b x2 x1 x0 T [F1 V1] [F0 V0] [Fb Vb] E. unfold two_one_sum in E.
  pose proof (two_sum_ok a0 b) as K1.
  assert (K1f : fin (snd (two_sum a0 b)) = true) by (apply two_sum_fin; auto; apply B_1018 with m; auto; lia).
  destruct (two_sum a0 b) as [i y0]. cbn [fst snd] in *. destruct (K1 K1f) as (_ & _ & Fi & Vi & Vy0).
  assert (Bi : Rabs (val i) <= 2 * B m).
  { rewrite Vi. apply (rn_le 2 m); try lia. apply Rle_trans with (1 := Rabs_triang _ _). lra. }
  assert (E1 : B (m + 1) = 2 * B m) by apply B_succ. assert (E2 : B (m + 2) = 4 * B m) by apply B_plus2.
  pose proof (B_pos m) as Bm.
  pose proof (two_sum_ok a1 i) as K2.
  assert (K2f : fin (snd (two_sum a1 i)) = true).
  { apply two_sum_fin; auto; [apply B_1018 with m; auto; lia|apply B_1018 with (m + 1)%Z; [lia|lra]]. }
  destruct (two_sum a1 i) as [y2 y1]. cbn [fst snd] in *. destruct (K2 K2f) as (_ & _ & Fy2 & Vy2 & Vy1).
  apply pair_equal_spec in E. destruct E as [E <-]. apply pair_equal_spec in E. destruct E as [<- <-].
  split; [split; auto|].
  { apply Rle_trans with (3 * B m); [|lra]. rewrite Vy2. apply (rn_le 3 m); try lia.
    apply Rle_trans with (1 := Rabs_triang _ _). lra. }
  split; [split; auto|].
  { rewrite Vy1. pose proof (err_le2 (val a1) (val i) (val_fmt i)). lra. }
  assert (Y0 : Rabs (val y0) <= Rabs (val b)) by (rewrite Vy0; apply err_le, val_fmt).
  split; [split; auto; lra|]. split; auto. split.
  { intros g G M1 M0 Mb. assert (mult g (val i)) by (rewrite Vi; apply rn_mult; auto; apply mult_add; auto).
    rewrite Vy2, Vy1, Vy0. split; [apply rn_mult|split; apply err_mult]; auto; apply mult_add; auto. }
  intros o. rewrite !chain_cons, Vy2, Vy1, Vy0, Vi, (Rplus_comm (val b)), (Rplus_comm (rn (val a0 + val b))). reflexivity.
Qed.
Lemma two_one_diff_fwd : forall m a1 a0 b x2 x1 x0, (-1074 <= m <= 1016)%Z -> sz m a1 -> sz m a0 -> sz m b ->
  two_one_diff a1 a0 b = (x2, x1, x0) ->
  sz (m + 2) x2 /\ sz (m + 2) x1 /\ sz (m + 2) x0 /\ Rabs (val x0) <= Rabs (- val b) /\
  (forall g, (-1074 <= g)%Z -> mult g (val a1) -> mult g (val a0) -> mult g (val b) -> mult g (val x2) /\ mult g (val x1) /\ mult g (val x0)) /\
  forall o, chain [val a0; val a1] (- val b, o) = (val x2, emit (val x1) (emit (val x0) o)).
Proof.
  intros m a1 a0 b x2 x1 x0 T [F1 V1] [F0 V0] [Fb Vb] E. unfold two_one_diff in E.
  pose proof (two_diff_ok a0 b) as K1.
  assert (K1f : fin (snd (two_diff a0 b)) = true) by (apply two_diff_fin; auto; apply B_1018 with m; auto; lia).
  destruct (two_diff a0 b) as [i y0]. cbn [fst snd] in *. destruct (K1 K1f) as (_ & _ & Fi & Vi & Vy0).
  change (val a0 - val b) with (val a0 + - val b) in Vi, Vy0. rewrite <- (Rabs_Ropp (val b)) in Vb.
  assert (Bi : Rabs (val i) <= 2 * B m).
  { rewrite Vi. apply (rn_le 2 m); try lia. apply Rle_trans with (1 := Rabs_triang _ _). lra. }
  assert (E1 : B (m + 1) = 2 * B m) by apply B_succ. assert (E2 : B (m + 2) = 4 * B m) by apply B_plus2.
  pose proof (B_pos m) as Bm.
  pose proof (two_sum_ok a1 i) as K2.
  assert (K2f : fin (snd (two_sum a1 i)) = true).
  { apply two_sum_fin; auto; [apply B_1018 with m; auto; lia|apply B_1018 with (m + 1)%Z; [lia|lra]]. }
  destruct (two_sum a1 i) as [y2 y1]. cbn [fst snd] in *. destruct (K2 K2f) as (_ & _ & Fy2 & Vy2 & Vy1).
  apply pair_equal_spec in E. destruct E as [E <-]. apply pair_equal_spec in E. destruct E as [<- <-].
  split; [split; auto|].
  { apply Rle_trans with (3 * B m); [|lra]. rewrite Vy2. apply (rn_le 3 m); try lia.
    apply Rle_trans with (1 := Rabs_triang _ _). lra. }
  split; [split; auto|].
  { rewrite Vy1. pose proof (err_le2 (val a1) (val i) (val_fmt i)). lra. }
  assert (Y0 : Rabs (val y0) <= Rabs (- val b)) by (rewrite Vy0; apply err_le, val_fmt).
  split; [split; auto; lra|]. split; auto. split.
  { intros g G M1 M0 Mb. apply mult_opp in Mb.
    assert (mult g (val i)) by (rewrite Vi; apply rn_mult; auto; apply mult_add; auto).
    rewrite Vy2, Vy1, Vy0. split; [apply rn_mult|split; apply err_mult]; auto; apply mult_add; auto. }
  intros o. rewrite !chain_cons, Vy2, Vy1, Vy0, Vi, (Rplus_comm (- val b)), (Rplus_comm (rn (val a0 + - val b))). reflexivity.
Qed.

(** The four components of the sum or difference of two pairs. *)

Lemma two_two_sum_w : forall m a1 a0 b1 b0, (-1074 <= m <= 1014)%Z -> sz m a1 -> sz m a0 -> sz m b1 -> sz m b0 ->
  pairN (val a1) (val a0) -> pairN (val b1) (val b0) ->
  let l := quad (two_two_sum a1 a0 b1 b0) in
  wexpn l /\ value l = val a1 + val a0 + (val b1 + val b0) /\ bd (m + 4) l /\ length l = 4%nat /\
  (forall g, (-1074 <= g)%Z -> mult g (val a1) -> mult g (val a0) -> mult g (val b1) -> mult g (val b0) -> grid g l).
Proof.
  intros m a1 a0 b1 b0 T A1 A0 B1 B0 Pa Pb l. unfold l. destruct (two_two_sum a1 a0 b1 b0) as [[[x3 x2] x1] x0] eqn:E0.
  assert (E := E0). unfold two_two_sum in E.
  destruct (two_one_sum a1 a0 b0) as [[j o] y0] eqn:E1. destruct (two_one_sum j o b1) as [[y3 y2] y1] eqn:E2.
  apply pair_equal_spec in E. destruct E as [E <-]. apply pair_equal_spec in E. destruct E as [E <-].
  apply pair_equal_spec in E. destruct E as [<- <-].
  destruct (two_one_sum_fwd m _ _ _ _ _ _ ltac:(lia) A1 A0 B0 E1) as (Sj & So & S0 & Y0 & Gr1 & C1).
  assert (B1' : sz (m + 2) b1).
  { destruct B1. split; auto. apply Rle_trans with (B m); auto. apply B_le; lia. }
  destruct (two_one_sum_fwd (m + 2) _ _ _ _ _ _ ltac:(lia) Sj So B1' E2) as (S3 & S2 & S1 & _ & Gr2 & C2).
  replace (m + 2 + 2)%Z with (m + 4)%Z in * by lia.
  assert (Fl : allfin [y0; y1; y2; y3]) by (repeat constructor; [apply S0|apply S1|apply S2|apply S3]).
  simpl quad. split; [split; [exact Fl|split; [discriminate|]]|].
  { rewrite nz_vals by exact Fl. simpl vals. rewrite rev_nzR4. apply KN_K.
    apply (two_two_KN (val a1) (val a0) (val b1) (val b0) _ _ _ _ (val j) (val o)); auto using val_fmt. }
  split.
  { pose proof (two_two_sum_ok _ _ _ _ _ _ _ _ E0 (proj1 S3) (proj1 S2) (proj1 S1) (proj1 S0)). unfold value. simpl. lra. }
  split.
  { destruct S0, S1, S2, S3. repeat (apply Forall_cons; [auto|]); [|constructor].
    apply Rle_trans with (B (m + 2)); auto. apply B_le; lia. }
  split; auto. intros g G M1 M0 N1 N0.
  destruct (Gr1 g G M1 M0 N0) as (Mj & Mo & My0). destruct (Gr2 g G Mj Mo N1) as (My3 & My2 & My1).
  repeat (apply Forall_cons; [auto|]). constructor.
Qed.
Lemma two_two_diff_w : forall m a1 a0 b1 b0, (-1074 <= m <= 1014)%Z -> sz m a1 -> sz m a0 -> sz m b1 -> sz m b0 ->
  pairN (val a1) (val a0) -> pairN (val b1) (val b0) ->
  let l := quad (two_two_diff a1 a0 b1 b0) in
  wexpn l /\ value l = val a1 + val a0 - (val b1 + val b0) /\ bd (m + 4) l /\ length l = 4%nat /\
  (forall g, (-1074 <= g)%Z -> mult g (val a1) -> mult g (val a0) -> mult g (val b1) -> mult g (val b0) -> grid g l).
Proof.
  intros m a1 a0 b1 b0 T A1 A0 B1 B0 Pa Pb l. unfold l. destruct (two_two_diff a1 a0 b1 b0) as [[[x3 x2] x1] x0] eqn:E0.
  assert (E := E0). unfold two_two_diff in E.
  destruct (two_one_diff a1 a0 b0) as [[j o] y0] eqn:E1. destruct (two_one_diff j o b1) as [[y3 y2] y1] eqn:E2.
  apply pair_equal_spec in E. destruct E as [E <-]. apply pair_equal_spec in E. destruct E as [E <-].
  apply pair_equal_spec in E. destruct E as [<- <-].
  destruct (two_one_diff_fwd m _ _ _ _ _ _ ltac:(lia) A1 A0 B0 E1) as (Sj & So & S0 & Y0 & Gr1 & C1).
  assert (B1' : sz (m + 2) b1).
  { destruct B1. split; auto. apply Rle_trans with (B m); auto. apply B_le; lia. }
  destruct (two_one_diff_fwd (m + 2) _ _ _ _ _ _ ltac:(lia) Sj So B1' E2) as (S3 & S2 & S1 & _ & Gr2 & C2).
  replace (m + 2 + 2)%Z with (m + 4)%Z in * by lia.
  assert (Fl : allfin [y0; y1; y2; y3]) by (repeat constructor; [apply S0|apply S1|apply S2|apply S3]).
  simpl quad. split; [split; [exact Fl|split; [discriminate|]]|].
  { rewrite nz_vals by exact Fl. simpl vals. rewrite rev_nzR4. apply KN_K.
    apply (two_two_KN (val a1) (val a0) (- val b1) (- val b0) _ _ _ _ (val j) (val o));
      auto using val_fmt, fmt_opp, pairN_opp. }
  split.
  { pose proof (two_two_diff_ok _ _ _ _ _ _ _ _ E0 (proj1 S3) (proj1 S2) (proj1 S1) (proj1 S0)). unfold value. simpl. lra. }
  split.
  { destruct S0, S1, S2, S3. repeat (apply Forall_cons; [auto|]); [|constructor].
    apply Rle_trans with (B (m + 2)); auto. apply B_le; lia. }
  split; auto. intros g G M1 M0 N1 N0.
  destruct (Gr1 g G M1 M0 N0) as (Mj & Mo & My0). destruct (Gr2 g G Mj Mo N1) as (My3 & My2 & My1).
  repeat (apply Forall_cons; [auto|]). constructor.
Qed.

(** ** Summary: lists with value, grid, size and length *)
(** A finite float on the grid 2^g, at most 2^m in magnitude. *)
Definition num (g m : Z) (a : f64) : Prop := fin a = true /\ mult g (val a) /\ Rabs (val a) <= B m.
(** A list of at most [n] such floats, an expansion (zeros allowed) of [v]. *)
Definition rep (g m n : Z) (l : list f64) (v : R) : Prop :=
  wexpn l /\ value l = v /\ grid g l /\ bd m l /\ (Z.of_nat (length l) <= n)%Z.

Lemma num_neg : forall g m a, num g m a -> num g m (fneg a).
Proof.
  intros g m a (F & M & V). split; [rewrite fneg_fin; auto|]. rewrite fneg_val. split; [apply mult_opp; auto|].
  rewrite Rabs_Ropp. auto.
Qed.
Lemma num_weak : forall g m g' m' a, num g m a -> (g' <= g)%Z -> (m <= m')%Z -> num g' m' a.
Proof.
  intros g m g' m' a (F & M & V) G L. split; auto. split; [apply mult_le with g; auto|].
  apply Rle_trans with (1 := V). apply B_le; auto.
Qed.
Lemma num_sub : forall g m a b, num g m a -> num g m b -> (-1074 <= g)%Z -> (-1074 <= m <= 1016)%Z ->
  num g (m + 1) (fsub a b) /\ val (fsub a b) = rn (val a - val b) /\
  num g m (two_diff_tail a b (fsub a b)) /\
  val (fsub a b) + val (two_diff_tail a b (fsub a b)) = val a - val b.
Proof.
  intros g m a b (Fa & Ma & Va) (Fb & Mb & Vb) G T.
  assert (F : fin (snd (two_diff a b)) = true) by (apply two_diff_fin; auto; apply B_1018 with m; auto; lia).
  destruct (two_diff_ok _ _ F) as (_ & _ & F1 & V1 & V2).
  change (two_diff_tail a b (fsub a b)) with (snd (two_diff a b)). change (fsub a b) with (fst (two_diff a b)).
  split; [|split; [auto|split]].
  - split; auto. rewrite V1. split; [apply rn_mult; auto; apply mult_sub; auto|].
    rewrite B_succ. apply (rn_le 2 m); try lia. unfold Rminus.
    apply Rle_trans with (1 := Rabs_triang _ _). rewrite Rabs_Ropp. lra.
  - split; auto. rewrite V2. split; [apply err_mult; auto; apply mult_sub; auto|].
    apply Rle_trans with (Rabs (- val b)); [|rewrite Rabs_Ropp; auto]. apply (err_le (val a) (- val b)), val_fmt.
  - rewrite V1, V2. lra.
Qed.

Lemma rep_weak : forall g m n l v g' m' n', rep g m n l v -> (g' <= g)%Z -> (m <= m')%Z -> (n <= n')%Z -> rep g' m' n' l v.
Proof.
  intros g m n l v g' m' n' (W & V & G & M & N) Hg Hm Hn. split; auto. split; auto.
  split; [apply grid_le with g; auto|]. split; [apply bd_le with m; auto|]. lia.
Qed.

Lemma rep_fes : forall g m n e u g' m' n' f v, rep g m n e u -> rep g' m' n' f v ->
  (-1074 <= g)%Z -> (-1074 <= g')%Z -> (-1074 <= m)%Z ->
  (Z.max m m' + Z.log2_up (n + n') <= 1018)%Z -> (Z.log2_up (n + n') <= 53)%Z ->
  exists h, fast_expansion_sum_zeroelim e f = Some h /\ expn h /\
    rep (Z.min g g') (Z.max m m' + Z.log2_up (n + n')) (n + n') h (u + v).
Proof.
  intros g m n e u g' m' n' f v (We & Ve & Ge & Be & Ne) (Wf & Vf & Gf & Bf & Nf) T1 T2 T3 T4 T5.
  assert (P : (Z.of_nat (length e + length f) <= 2 ^ Z.log2_up (n + n'))%Z).
  { assert (1 <= length e)%nat by (destruct We as (_ & N & _); destruct e; simpl; [tauto|lia]).
    assert (0 < n + n')%Z by lia.
    apply Z.le_trans with (n + n')%Z; [lia|]. destruct (Z.eq_dec (n + n') 1) as [->|]; [simpl; lia|].
    apply Z.log2_up_spec. lia. }
  destruct (fes_w (Z.max m m') (Z.log2_up (n + n')) e f We Wf) as (h & E & X & V & Bh & L & G);
    try lia; try (apply bd_le with (2 := Be); lia); try (apply bd_le with (2 := Bf); lia).
  { split; [apply Z.log2_up_nonneg|auto]. }
  exists h. split; auto. split; auto. split; [apply expn_wexpn; auto|]. split; [rewrite V, Ve, Vf; auto|].
  split; [apply G; [lia| |]; [apply grid_le with g|apply grid_le with g']; auto; lia|]. split; auto. lia.
Qed.

Lemma rep_scale : forall g m n e u gb mb b, rep g m n e u -> num gb mb b ->
  (-1074 <= g)%Z -> (-1074 <= gb)%Z -> (-1074 <= g + gb)%Z -> (m <= 470)%Z -> (mb <= 470)%Z -> (-1074 <= m + mb)%Z ->
  (m + mb + Z.log2_up (2 * n) <= 1018)%Z -> (Z.log2_up (2 * n) <= 53)%Z ->
  exists h, scale_expansion_zeroelim e b = Some h /\ expn h /\
    rep (g + gb) (m + mb + Z.log2_up (2 * n)) (2 * n) h (u * val b).
Proof.
  intros g m n e u gb mb b (We & Ve & Ge & Be & Ne) (Fb & Mb & Vb) T1 T2 T3 T4 T5 T6 T7 T8.
  assert (P : (2 * Z.of_nat (length e) <= 2 ^ Z.log2_up (2 * n))%Z).
  { assert (1 <= length e)%nat by (destruct We as (_ & N & _); destruct e; simpl; [tauto|lia]).
    apply Z.le_trans with (2 * n)%Z; [lia|]. apply Z.log2_up_spec. lia. }
  destruct (scale_w b g gb m mb Fb Mb T1 T2 T3 Vb T4 T5 T6 (Z.log2_up (2 * n)) e We) as (h & E & X & V & Bh & L & G); auto.
  { split; [apply Z.log2_up_nonneg|auto]. }
  exists h. split; auto. split; auto. split; [apply expn_wexpn; auto|]. split; [rewrite V, Ve; auto|].
  split; auto. split; auto. lia.
Qed.

Lemma nzR_opp : forall xs, map Ropp (nzR xs) = nzR (map Ropp xs).
Proof.
  induction xs as [|x xs IH]; auto. unfold nzR in *. simpl.
  destruct (Req_EM_T x 0); destruct (Req_EM_T (- x) 0); try lra; auto. simpl. rewrite IH. auto.
Qed.
Lemma rep_neg : forall g m n l v, rep g m n l v -> rep g m n (expansion_invert l) (- v).
Proof.
  intros g m n l v ((F & N & HK) & V & G & M & Ln). unfold expansion_invert.
  split; [|split; [|split; [|split]]].
  - split; [apply allfin_neg; auto|]. split; [apply map_nil; auto|].
    rewrite nz_vals by (apply allfin_neg; auto). rewrite nz_vals in HK by auto. rewrite vals_neg.
    replace (rev (nzR (map Ropp (vals l)))) with (map Ropp (rev (nzR (vals l)))); [apply K_opp; auto|].
    rewrite map_rev. f_equal. apply nzR_opp.
  - rewrite value_neg, V. auto.
  - apply grid_neg; auto.
  - unfold bd. rewrite Forall_map. unfold bd in M. apply Forall_impl with (2 := M). intros a H.
    rewrite fneg_val, Rabs_Ropp. auto.
  - rewrite map_length. auto.
Qed.

(** *** Products of two floats *)
Lemma prod_pair : forall ga ma gb mb a b, num ga ma a -> num gb mb b ->
  (-1074 <= ga)%Z -> (-1074 <= gb)%Z -> (-1074 <= ga + gb)%Z -> (ma <= 470)%Z -> (mb <= 470)%Z -> (-1074 <= ma + mb)%Z ->
  let p := two_product a b in
  sz (ma + mb) (fst p) /\ sz (ma + mb) (snd p) /\ pairN (val (fst p)) (val (snd p)) /\
  mult (ga + gb) (val (fst p)) /\ mult (ga + gb) (val (snd p)) /\ val (fst p) + val (snd p) = val a * val b /\
  val (fst p) = rn (val a * val b).
Proof.
  intros ga ma gb mb a b (Fa & Ma & Va) (Fb & Mb & Vb) T1 T2 T3 T4 T5 T6 p. unfold p. rewrite two_product_pps.
  destruct (pps_fwd b ga gb ma mb Fb Mb T1 T2 T3 Vb T4 T5 T6 a Fa Ma Va) as (F1 & F0 & V1 & V0 & B1 & B0).
  assert (Mp : mult (ga + gb) (val a * val b)) by (apply mult_mul; auto).
  split; [split; auto|]. split; [split; auto|].
  split; [rewrite V1, V0; apply pairN_err with (ga + gb)%Z; auto|].
  split; [rewrite V1; apply rn_mult; auto|]. split; [rewrite V0; apply err_mult; auto|]. split; [rewrite V1, V0; lra|auto].
Qed.
Lemma square_pair : forall ga ma a, num ga ma a -> (-1074 <= ga)%Z -> (-1074 <= ga + ga)%Z -> (ma <= 470)%Z -> (-1074 <= ma + ma)%Z ->
  let p := square a in
  sz (ma + ma) (fst p) /\ sz (ma + ma) (snd p) /\ pairN (val (fst p)) (val (snd p)) /\
  mult (ga + ga) (val (fst p)) /\ mult (ga + ga) (val (snd p)) /\ val (fst p) + val (snd p) = val a * val a.
Proof.
  intros ga ma a (Fa & Ma & Va) T1 T3 T4 T6 p. unfold p.
  assert (F : fin (snd (square a)) = true).
  { apply square_fin; auto. apply Rle_trans with (1 := Va). apply B_le; auto. }
  destruct (square_ok a F) as (_ & F1 & V1 & V2).
  assert (Mp : mult (ga + ga) (val a * val a)) by (apply mult_mul; auto).
  assert (P : Rabs (val a * val a) <= B (ma + ma)).
  { rewrite Rabs_mult, bpow_plus. apply Rmult_le_compat; auto; apply Rabs_pos. }
  specialize (V2 ga Ma T1 T3).
  split; [split; auto; rewrite V1|].
  { rewrite <- (Rmult_1_l (B (ma + ma))). apply rn_le; try lia. lra. }
  split; [split; auto; rewrite V2; apply Rle_trans with (1 := err_le0 _); auto|].
  split; [rewrite V1, V2; apply pairN_err with (ga + ga)%Z; auto|].
  split; [rewrite V1; apply rn_mult; auto|]. split; [rewrite V2; apply err_mult; auto|]. rewrite V1, V2. lra.
Qed.

(** *** Fixed arrays of products *)
Lemma nz_app : forall a b, nz (a ++ b) = nz a ++ nz b.
Proof. intros. apply filter_app. Qed.
Lemma nz_push : forall l h, nz (push_nz l h) = nz l ++ nz [h].
Proof.
  intros. unfold push_nz. destruct (nonzero h) eqn:E; [apply nz_app|]. unfold nz at 3. simpl. rewrite E, app_nil_r. auto.
Qed.
Lemma nz_finish : forall q l, nz (finish q l) = nz l ++ nz [q].
Proof.
  intros. unfold finish. destruct (nonzero q) eqn:E; simpl orb; [apply nz_app|].
  assert (Eq : nz [q] = []) by (unfold nz; simpl; rewrite E; auto). rewrite Eq, app_nil_r.
  destruct l; [exact Eq|auto].
Qed.
Lemma nz_allfin : forall l, allfin (nz l) -> allfin l.
Proof.
  induction l as [|a l IH]; intros H; [constructor|]. unfold nz in *. simpl in H. destruct (nonzero a) eqn:E.
  - inversion H; subst. constructor; [assumption|]. apply IH. assumption.
  - apply nonzero_false in E. constructor; [tauto|]. apply IH. assumption.
Qed.
Lemma nz_Forall : forall (P : R -> Prop) l, P 0 -> Forall (fun a : f64 => P (val a)) (nz l) -> Forall (fun a : f64 => P (val a)) l.
Proof.
  intros P l P0. induction l as [|a l IH]; intros H; [constructor|]. unfold nz in *. simpl in H. destruct (nonzero a) eqn:E.
  - inversion H; subst. constructor; auto.
  - apply nonzero_false in E. constructor; auto. replace (val a) with 0 by (symmetry; tauto). auto.
Qed.
Lemma Forall_filter : forall A (P : A -> Prop) f l, Forall P l -> Forall P (filter f l).
Proof. intros A P f l H. induction H; simpl; auto. destruct (f x); auto. Qed.
Lemma rep_nz : forall g m n h v l n', rep g m n h v -> nz l = nz h -> l <> [] -> (Z.of_nat (length l) <= n')%Z -> rep g m n' l v.
Proof.
  intros g m n h v l n' ((F & N & HK) & V & G & M & Ln) E Nl L'.
  assert (Fl : allfin l) by (apply nz_allfin; rewrite E; apply nz_fin; auto).
  split; [|split; [|split; [|split]]]; auto.
  - split; auto. split; auto. rewrite E. auto.
  - rewrite <- nz_value by auto. rewrite E. rewrite nz_value; auto.
  - apply (nz_Forall (mult g)); [apply mult_0|]. rewrite E. apply Forall_filter; auto.
  - apply (nz_Forall (fun x => Rabs x <= B m)); [rewrite Rabs_R0; left; apply B_pos|]. rewrite E. apply Forall_filter; auto.
Qed.

Lemma rep_pair : forall g m x1 x0 v, sz m x1 -> sz m x0 -> pairN (val x1) (val x0) -> mult g (val x1) -> mult g (val x0) ->
  val x1 + val x0 = v -> rep g m 2 [x0; x1] v.
Proof.
  intros g m x1 x0 v (F1 & B1) (F0 & B0) P M1 M0 E.
  assert (F : allfin [x0; x1]) by (constructor; [auto|constructor; [auto|constructor]]).
  split; [|split; [|split; [|split]]].
  - split; auto. split; [discriminate|]. rewrite nz_vals by auto. apply KN_K, KN_pair; auto using val_fmt.
  - unfold value. simpl. lra.
  - constructor; [auto|constructor; [auto|constructor]].
  - constructor; [auto|constructor; [auto|constructor]].
  - simpl. lia.
Qed.
Lemma rep_prod : forall ga ma gb mb a b, num ga ma a -> num gb mb b ->
  (-1074 <= ga)%Z -> (-1074 <= gb)%Z -> (-1074 <= ga + gb)%Z -> (ma <= 470)%Z -> (mb <= 470)%Z -> (-1074 <= ma + mb)%Z ->
  rep (ga + gb) (ma + mb) 2 [snd (two_product a b); fst (two_product a b)] (val a * val b).
Proof.
  intros ga ma gb mb a b Na Nb T1 T2 T3 T4 T5 T6.
  destruct (prod_pair ga ma gb mb a b Na Nb T1 T2 T3 T4 T5 T6) as (S1 & S0 & P & M1 & M0 & V & _).
  apply rep_pair; auto.
Qed.
Lemma rep_zero : forall g m n, (1 <= n)%Z -> rep g m n [fzero] 0.
Proof.
  intros g m n Hn. split; [|split; [|split; [|split]]].
  - split; [constructor; [reflexivity|constructor]|]. split; [discriminate|exact I].
  - unfold value. simpl. lra.
  - constructor; [|constructor]. apply mult_0.
  - constructor; [|constructor]. simpl. rewrite Rabs_R0. left; apply B_pos.
  - simpl. lia.
Qed.
Lemma rep_zeros4 : forall g m, rep g m 4 zeros4 0.
Proof. intros. apply rep_nz with (1 := rep_zero g m 1 ltac:(lia)); [reflexivity|discriminate|simpl; lia]. Qed.
Lemma rep_pair4 : forall ga ma gb mb a b, num ga ma a -> num gb mb b ->
  (-1074 <= ga)%Z -> (-1074 <= gb)%Z -> (-1074 <= ga + gb)%Z -> (ma <= 470)%Z -> (mb <= 470)%Z -> (-1074 <= ma + mb)%Z ->
  rep (ga + gb) (ma + mb) 4 (pair4 (two_product a b)) (val a * val b).
Proof.
  intros ga ma gb mb a b Na Nb T1 T2 T3 T4 T5 T6. pose proof (rep_prod ga ma gb mb a b Na Nb T1 T2 T3 T4 T5 T6) as H.
  destruct (two_product a b) as [x1 x0]. simpl in H. simpl pair4.
  apply rep_nz with (1 := H); [|discriminate|simpl; lia].
  change [x0; x1; fzero; fzero] with ([x0; x1] ++ [fzero; fzero]). rewrite nz_app, app_nil_r. auto.
Qed.

(** [a*b - c*d] and [a*b + c*d] in four components *)
Lemma rep_ttd : forall ga ma gb mb gc mc gd md a b c d x1 x0 y1 y0, num ga ma a -> num gb mb b -> num gc mc c -> num gd md d ->
  two_product a b = (x1, x0) -> two_product c d = (y1, y0) ->
  (-1074 <= ga)%Z -> (-1074 <= gb)%Z -> (-1074 <= ga + gb)%Z -> (ma <= 470)%Z -> (mb <= 470)%Z -> (-1074 <= ma + mb)%Z ->
  (-1074 <= gc)%Z -> (-1074 <= gd)%Z -> (-1074 <= gc + gd)%Z -> (mc <= 470)%Z -> (md <= 470)%Z -> (-1074 <= mc + md)%Z ->
  rep (Z.min (ga + gb) (gc + gd)) (Z.max (ma + mb) (mc + md) + 4) 4 (quad (two_two_diff x1 x0 y1 y0)) (val a * val b - val c * val d).
Proof.
  intros ga ma gb mb gc mc gd md a b c d x1 x0 y1 y0 Na Nb Nc Nd E1 E2 T1 T2 T3 T4 T5 T6 U1 U2 U3 U4 U5 U6.
  pose proof (prod_pair ga ma gb mb a b Na Nb T1 T2 T3 T4 T5 T6) as P. pose proof (prod_pair gc mc gd md c d Nc Nd U1 U2 U3 U4 U5 U6) as Q.
  rewrite E1 in P. rewrite E2 in Q. cbn [fst snd] in P, Q.
  destruct P as ((P1 & P2) & (P3 & P4) & P5 & P6 & P7 & P8 & _). destruct Q as ((Q1 & Q2) & (Q3 & Q4) & Q5 & Q6 & Q7 & Q8 & _).
  set (m := Z.max (ma + mb) (mc + md)).
  assert (W : forall x k, (k <= m)%Z -> fin x = true -> Rabs (val x) <= B k -> sz m x).
  { intros x k Hk F H. split; auto. apply Rle_trans with (1 := H). apply B_le; auto. }
  destruct (two_two_diff_w m x1 x0 y1 y0) as (W1 & V & Bd & L & G); auto;
    try (apply (W _ (ma + mb)%Z); auto; lia); try (apply (W _ (mc + md)%Z); auto; lia); try lia.
  split; auto. split; [rewrite V, <- P8, <- Q8; lra|].
  split; [apply G; [lia|..]; (apply mult_le with (ga + gb)%Z; auto; lia) || (apply mult_le with (gc + gd)%Z; auto; lia)|].
  split; auto. rewrite L. simpl. lia.
Qed.
Lemma rep_tts : forall ga ma gb mb gc mc gd md a b c d x1 x0 y1 y0, num ga ma a -> num gb mb b -> num gc mc c -> num gd md d ->
  two_product a b = (x1, x0) -> two_product c d = (y1, y0) ->
  (-1074 <= ga)%Z -> (-1074 <= gb)%Z -> (-1074 <= ga + gb)%Z -> (ma <= 470)%Z -> (mb <= 470)%Z -> (-1074 <= ma + mb)%Z ->
  (-1074 <= gc)%Z -> (-1074 <= gd)%Z -> (-1074 <= gc + gd)%Z -> (mc <= 470)%Z -> (md <= 470)%Z -> (-1074 <= mc + md)%Z ->
  rep (Z.min (ga + gb) (gc + gd)) (Z.max (ma + mb) (mc + md) + 4) 4 (quad (two_two_sum x1 x0 y1 y0)) (val a * val b + val c * val d).
Proof.
  intros ga ma gb mb gc mc gd md a b c d x1 x0 y1 y0 Na Nb Nc Nd E1 E2 T1 T2 T3 T4 T5 T6 U1 U2 U3 U4 U5 U6.
  pose proof (prod_pair ga ma gb mb a b Na Nb T1 T2 T3 T4 T5 T6) as P. pose proof (prod_pair gc mc gd md c d Nc Nd U1 U2 U3 U4 U5 U6) as Q.
  rewrite E1 in P. rewrite E2 in Q. cbn [fst snd] in P, Q.
  destruct P as ((P1 & P2) & (P3 & P4) & P5 & P6 & P7 & P8 & _). destruct Q as ((Q1 & Q2) & (Q3 & Q4) & Q5 & Q6 & Q7 & Q8 & _).
  set (m := Z.max (ma + mb) (mc + md)).
  assert (W : forall x k, (k <= m)%Z -> fin x = true -> Rabs (val x) <= B k -> sz m x).
  { intros x k Hk F H. split; auto. apply Rle_trans with (1 := H). apply B_le; auto. }
  destruct (two_two_sum_w m x1 x0 y1 y0) as (W1 & V & Bd & L & G); auto;
    try (apply (W _ (ma + mb)%Z); auto; lia); try (apply (W _ (mc + md)%Z); auto; lia); try lia.
  split; auto. split; [rewrite V, <- P8, <- Q8; lra|].
  split; [apply G; [lia|..]; (apply mult_le with (ga + gb)%Z; auto; lia) || (apply mult_le with (gc + gd)%Z; auto; lia)|].
  split; auto. rewrite L. simpl. lia.
Qed.
Lemma rep_sq : forall ga ma a b, num ga ma a -> num ga ma b -> (-1074 <= ga)%Z -> (-1074 <= ga + ga)%Z -> (ma <= 470)%Z -> (-1074 <= ma + ma)%Z ->
  rep (ga + ga) (ma + ma + 4) 4 (ic_sq true a b) (val a * val a + val b * val b).
Proof.
  intros ga ma a b Na Nb T1 T3 T4 T6. unfold ic_sq.
  pose proof (square_pair ga ma a Na T1 T3 T4 T6) as P. pose proof (square_pair ga ma b Nb T1 T3 T4 T6) as Q.
  destruct (square a) as [x1 x0]. destruct (square b) as [y1 y0]. cbn [fst snd] in P, Q.
  destruct P as (P1 & P3 & P5 & P6 & P7 & P8). destruct Q as (Q1 & Q3 & Q5 & Q6 & Q7 & Q8).
  destruct (two_two_sum_w (ma + ma) x1 x0 y1 y0) as (W1 & V & Bd & L & G); auto; try lia.
  split; auto. split; [rewrite V, <- P8, <- Q8; lra|]. split; [apply G; auto|]. split; auto. rewrite L. simpl. lia.
Qed.
(** [(a * b) * c] in four components *)
Lemma rep_top : forall ga ma gb mb gc mc a b c, num ga ma a -> num gb mb b -> num gc mc c ->
  (-1074 <= ga)%Z -> (-1074 <= gb)%Z -> (-1074 <= ga + gb)%Z -> (ma <= 470)%Z -> (mb <= 470)%Z -> (-1074 <= ma + mb)%Z ->
  (-1074 <= gc)%Z -> (-1074 <= ga + gb + gc)%Z -> (ma + mb <= 470)%Z -> (mc <= 470)%Z -> (-1074 <= ma + mb + mc)%Z ->
  rep (ga + gb + gc) (ma + mb + mc + 2) 4
    (quad (two_one_product (fst (two_product a b)) (snd (two_product a b)) c)) (val a * val b * val c).
Proof.
  intros ga ma gb mb gc mc a b c Na Nb Nc T1 T2 T3 T4 T5 T6 T7 T8 T9 TA TB.
  pose proof (rep_prod ga ma gb mb a b Na Nb T1 T2 T3 T4 T5 T6) as H.
  destruct (two_product a b) as [a1 a0]. cbn [fst snd] in *.
  destruct (rep_scale _ _ _ _ _ gc mc c H Nc) as (h & E & X & R); auto;
    try change (Z.log2_up (2 * 2)) with 2%Z; try lia.
  apply rep_nz with (1 := R); [| |].
  - unfold scale_expansion_zeroelim in E. unfold two_one_product. destruct (split c) as [chi clo]. simpl in E.
    destruct (two_product_pre_split a0 c chi clo) as [i x0]. destruct (two_product_pre_split a1 c chi clo) as [j o].
    destruct (two_sum i o) as [k x1]. destruct (fast_two_sum j k) as [x3 x2]. injection E as <-.
    rewrite nz_finish, !nz_push. simpl quad.
    change [x0; x1; x2; x3] with ([x0] ++ [x1] ++ [x2] ++ [x3]). rewrite !nz_app, !app_assoc. reflexivity.
  - destruct (two_one_product a1 a0 c) as [[[? ?] ?] ?]. discriminate.
  - destruct (two_one_product a1 a0 c) as [[[? ?] ?] ?]. simpl. lia.
Qed.

(** The sign of the last component is that of the value. *)
Lemma rep_last : forall g m n l v, rep g m n l v -> expn l -> exists x, last_opt l = Some x /\ fin x = true /\
  (0 < val x <-> 0 < v) /\ (val x < 0 <-> v < 0).
Proof.
  intros g m n l v (W & V & _) X. destruct (last_some l) as (x & E); [apply X|]. exists x. split; auto.
  destruct (last_sign l x X E) as (F & H1 & H2). rewrite <- V. split; auto. split; tauto.
Qed.
