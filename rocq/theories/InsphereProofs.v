(** Facts for the in-sphere test with symbolic perturbation. *)
From Coq Require Import List Arith Bool ZArith Reals Lia Lra Permutation Sorted.
From Verif Require Import Lib Geo Tet TetSpec.
Import ListNotations.

(** * The bubble sort *)
Lemma bubble_spec n : forall u v, length u = S n ->
  exists u' x, fst (bubble n (u ++ v)) = u' ++ x :: v /\ Permutation (u' ++ [x]) u /\ Forall (fun y => y <= x) u' /\
    (snd (bubble n (u ++ v)) = 0 -> u' ++ [x] = u /\ Sorted le u).
Proof.
  induction n as [|n IH]; intros u v H.
  - destruct u as [|a [|? ?]]; cbn in H; try discriminate.
    exists [], a; cbn; repeat (split; auto).
  - destruct u as [|a [|b t]]; cbn in H; try discriminate; try lia.
    cbn [bubble app]. destruct (Nat.ltb_spec b a) as [Hab|Hab].
    + destruct (IH (a :: t) v) as (u' & x & E & P & F & Z); [cbn in *; lia|].
      cbn [app] in *. destruct (bubble n (a :: t ++ v)) as [r c]; cbn [fst snd] in *.
      exists (b :: u'), x. split; [|split; [|split]].
      * rewrite E; reflexivity.
      * cbn [app]. eapply perm_trans; [apply perm_skip, P|]. apply perm_swap.
      * constructor; auto. assert (In a (u' ++ [x])) by (eapply Permutation_in; [symmetry; exact P|now left]).
        apply in_app_or in H0. destruct H0 as [H0|[<-|[]]]; [|lia].
        rewrite Forall_forall in F. specialize (F _ H0); cbn in F; lia.
      * discriminate.
    + destruct (IH (b :: t) v) as (u' & x & E & P & F & Z); [cbn in *; lia|].
      cbn [app] in *. destruct (bubble n (b :: t ++ v)) as [r c]; cbn [fst snd] in *.
      exists (a :: u'), x. split; [|split; [|split]].
      * rewrite E; reflexivity.
      * cbn [app]. apply perm_skip, P.
      * constructor; auto. assert (In b (u' ++ [x])) by (eapply Permutation_in; [symmetry; exact P|now left]).
        apply in_app_or in H0. destruct H0 as [H0|[<-|[]]]; [|lia].
        rewrite Forall_forall in F. specialize (F _ H0); cbn in F; lia.
      * intros H0. destruct (Z H0) as [E1 S]. split; [cbn; congruence|]. constructor; auto.
Qed.

Lemma sorted_app u v : Sorted le u -> Sorted le v -> (forall x y, In x u -> In y v -> x <= y) -> Sorted le (u ++ v).
Proof.
  induction u as [|a u IH]; cbn; auto. intros Su Sv H. inversion Su; subst. constructor.
  - apply IH; auto; intros; apply H; auto.
  - destruct u; cbn; [|inversion H3; constructor; auto].
    destruct v; constructor. apply H; cbn; auto.
Qed.

Lemma bubble_sort_spec n : forall u v, length u = n -> Sorted le v -> (forall x y, In x u -> In y v -> x <= y) ->
  Permutation (fst (bubble_sort n (u ++ v))) (u ++ v) /\ Sorted le (fst (bubble_sort n (u ++ v))).
Proof.
  induction n as [|n IH]; intros u v L Sv H.
  - destruct u; [|discriminate]. cbn. auto.
  - cbn [bubble_sort]. destruct (bubble_spec n u v L) as (u' & x & E & P & F & Z).
    destruct (bubble n (u ++ v)) as [l1 c]; cbn [fst snd] in *. subst l1.
    destruct (Nat.eqb_spec c 0) as [->|Hc].
    + cbn [fst]. destruct (Z eq_refl) as [<- Su]. change (u' ++ x :: v) with (u' ++ [x] ++ v). rewrite app_assoc.
      split; auto. apply sorted_app; auto.
    + assert (L' : length u' = n) by (apply Permutation_length in P; rewrite app_length in P; cbn in P; lia).
      destruct (IH u' (x :: v) L') as [P2 S2].
      * constructor; auto. destruct v; constructor. apply H; [|now left].
        eapply Permutation_in; [exact P|]. apply in_or_app; right; now left.
      * intros y z Hy [<-|Hz].
        -- rewrite Forall_forall in F; apply (F _ Hy).
        -- apply H; auto. eapply Permutation_in; [exact P|]. apply in_or_app; now left.
      * destruct (bubble_sort n (u' ++ x :: v)) as [l2 c']; cbn [fst] in *. split; auto.
        eapply perm_trans; [exact P2|]. change (u' ++ x :: v) with (u' ++ [x] ++ v). rewrite app_assoc.
        now apply Permutation_app_tail.
Qed.

Section Alternating.
  Variable F : list nat -> R.
  Variable alt : forall l1 a b l2, F (l1 ++ a :: b :: l2) = (- F (l1 ++ b :: a :: l2))%R.
  Definition parity (n : nat) (x : R) : R := if Nat.odd n then (- x)%R else x.
  Lemma parity_S n x : parity (S n) x = (- parity n x)%R.
  Proof. unfold parity. rewrite Nat.odd_succ, <- Nat.negb_odd. destruct (Nat.odd n); cbn; lra. Qed.
  Lemma parity_add n m x : parity (n + m) x = parity n (parity m x).
  Proof. induction n; [reflexivity|]. cbn [Nat.add]. rewrite !parity_S, IHn; auto. Qed.
  Lemma bubble_alt n : forall p l, F (p ++ l) = parity (snd (bubble n l)) (F (p ++ fst (bubble n l))).
  Proof.
    induction n as [|n IH]; intros p l; [reflexivity|].
    destruct l as [|a [|b t]]; [reflexivity|reflexivity|]. cbn [bubble].
    destruct (b <? a).
    - specialize (IH (p ++ [b]) (a :: t)). rewrite <- !app_assoc in IH. cbn [app] in IH.
      destruct (bubble n (a :: t)) as [r c]; cbn [fst snd] in *. rewrite alt, parity_S, IH. reflexivity.
    - specialize (IH (p ++ [a]) (b :: t)). rewrite <- !app_assoc in IH. cbn [app] in IH.
      destruct (bubble n (b :: t)) as [r c]; cbn [fst snd] in *. rewrite IH. reflexivity.
  Qed.
  Lemma bubble_sort_alt n : forall l, F l = parity (snd (bubble_sort n l)) (F (fst (bubble_sort n l))).
  Proof.
    induction n as [|n IH]; intros l; [reflexivity|]. cbn [bubble_sort].
    pose proof (bubble_alt n [] l) as E. cbn [app] in E. destruct (bubble n l) as [l1 c]; cbn [fst snd] in *.
    destruct (c =? 0); [exact E|]. rewrite E. rewrite (IH l1).
    destruct (bubble_sort n l1) as [l2 c']; cbn [fst snd]. symmetry; apply parity_add.
  Qed.
End Alternating.

(** * Signs of sums of powers *)
Local Open Scope R_scope.

Fixpoint psum (l : list (R * nat)) (d : R) : R :=
  match l with [] => 0 | (c, n) :: t => c * d ^ n + psum t d end.
Fixpoint leading (l : list (R * nat)) : R :=
  match l with [] => 0 | (c, n) :: t => if Req_EM_T c 0 then leading t else c end.

Lemma psum_bound l n : (forall c k, In (c, k) l -> (n <= k)%nat) ->
  exists K, 0 <= K /\ forall d, 0 < d <= 1 -> Rabs (psum l d) <= K * d ^ n.
Proof.
  induction l as [|[c k] t IH]; intros H.
  - exists 0; split; [lra|]. intros; cbn. rewrite Rabs_R0; lra.
  - destruct IH as (K & HK & B); [intros; eapply H; right; eauto|].
    exists (Rabs c + K). split; [pose proof (Rabs_pos c); lra|]. intros d Hd. cbn [psum].
    eapply Rle_trans; [apply Rabs_triang|]. rewrite Rabs_mult, Rmult_plus_distr_r. apply Rplus_le_compat; auto.
    apply Rmult_le_compat_l; [apply Rabs_pos|]. rewrite Rabs_pos_eq by (apply pow_le; lra).
    assert (L : (n <= k)%nat) by (eapply H; now left). replace k with (n + (k - n))%nat by lia. rewrite pow_add.
    rewrite <- (Rmult_1_r (d ^ n)) at 2. apply Rmult_le_compat_l; [apply pow_le; lra|].
    rewrite <- (pow1 (k - n)). apply pow_incr; lra.
Qed.

Lemma psum_sign l : Sorted (fun a b => (snd a < snd b)%nat) l ->
  exists d0, 0 < d0 /\ forall d, 0 < d < d0 -> sgn (psum l d) = sgn (leading l).
Proof.
  induction l as [|[c n] t IH]; intros H.
  - exists 1; split; [lra|auto].
  - apply Sorted_StronglySorted in H; [|intros [] [] []; cbn; lia]. inversion H as [|? ? Ht Hf]; subst.
    cbn [leading psum]. destruct (Req_EM_T c 0) as [->|Hc].
    + destruct IH as (d0 & P & B); [now apply StronglySorted_Sorted|]. exists d0; split; auto. intros d Hd.
      rewrite Rmult_0_l, Rplus_0_l; auto.
    + destruct (psum_bound t (S n)) as (K & HK & B).
      { intros c' k Hi. rewrite Forall_forall in Hf. apply (Hf (c', k) Hi). }
      assert (Hc' : 0 < Rabs c) by now apply Rabs_pos_lt.
      set (d1 := Rabs c / (K + 1)).
      assert (D1 : 0 < d1) by (apply Rdiv_lt_0_compat; lra).
      exists (Rmin 1 d1). split; [apply Rmin_pos; lra|]. intros d [Hd0 Hd].
      assert (d < 1) by (eapply Rlt_le_trans; [exact Hd|apply Rmin_l]).
      assert (L1 : d < d1) by (eapply Rlt_le_trans; [exact Hd|apply Rmin_r]).
      assert (Hp : 0 < d ^ n) by (apply pow_lt; lra).
      assert (BB : Rabs (psum t d) < Rabs c * d ^ n).
      { eapply Rle_lt_trans; [apply B; lra|]. cbn [pow]. rewrite <- Rmult_assoc. apply Rmult_lt_compat_r; auto.
        apply Rle_lt_trans with ((K + 1) * d); [nra|]. unfold d1 in L1.
        apply (Rmult_lt_compat_l (K + 1)) in L1; [|lra]. replace ((K + 1) * (Rabs c / (K + 1))) with (Rabs c) in L1 by (field; lra).
        exact L1. }
      destruct (Rtotal_order c 0) as [Hn|[Hz|Hn]]; [|contradiction|].
      * rewrite (Rabs_left c) in BB by lra. pose proof (Rle_abs (psum t d)).
        assert (c * d ^ n + psum t d < 0) by lra. rewrite !sgn_neg by lra; auto.
      * rewrite (Rabs_right c) in BB by lra. pose proof (Rle_abs (- psum t d)) as HA. rewrite Rabs_Ropp in HA.
        assert (0 < c * d ^ n + psum t d) by lra. rewrite !sgn_pos by lra; auto.
Qed.

(** * The in-sphere determinant with given lifts *)
Ltac unf := unfold lift_det, orient3, det3, dot, cross, vsub; cbn [vx vy vz].

Section Five.
  Variables (P : nat -> vec3) (w : nat -> R).
  Definition det_list (l : list nat) : R :=
    match l with
    | [a; b; c; d; e] => lift_det (P a) (P b) (P c) (P d) (P e) (w a) (w b) (w c) (w d) (w e)
    | _ => 0
    end.
  Lemma det_list_alt l1 a b l2 : det_list (l1 ++ a :: b :: l2) = - det_list (l1 ++ b :: a :: l2).
  Proof.
    destruct l1 as [|x1 [|x2 [|x3 [|x4 l1]]]].
    - destruct l2 as [|y1 [|y2 [|y3 [|y4 l2]]]]; cbn; try (unf; ring).
    - destruct l2 as [|y1 [|y2 [|y3 l2]]]; cbn; try (unf; ring).
    - destruct l2 as [|y1 [|y2 l2]]; cbn; try (unf; ring).
    - destruct l2 as [|y1 l2]; cbn; try (unf; ring).
    - destruct l1 as [|? [|? ?]]; cbn; try ring.
  Qed.
End Five.

(** The coefficients of the lifts. *)
Lemma lift_det_linear a b c d e wa wb wc wd we :
  lift_det a b c d e wa wb wc wd we =
  - orient3 b c d e * wa + orient3 a c d e * wb - orient3 a b d e * wc + orient3 a b c e * wd - orient3 a b c d * we.
Proof. unf. ring. Qed.

(** If three points only carry the dependency, they coincide. *)
Lemma three_points (p q r : vec3) (x y z : R) :
  p <> q -> p <> r -> q <> r ->
  x + y + z = 0 -> x * vx p + y * vx q + z * vx r = 0 -> x * vy p + y * vy q + z * vy r = 0 ->
  x * vz p + y * vz q + z * vz r = 0 -> x * dot p p + y * dot q q + z * dot r r = 0 ->
  x = 0 /\ y = 0 /\ z = 0.
Proof.
  intros Npq Npr Nqr S X Y Z W.
  assert (Ez : z = - x - y) by lra. subst z. clear S.
  destruct p as [p1 p2 p3], q as [q1 q2 q3], r as [r1 r2 r3]. unfold dot in W; cbn [vx vy vz] in *.
  set (u1 := p1 - r1) in *. set (u2 := p2 - r2). set (u3 := p3 - r3).
  set (v1 := q1 - r1) in *. set (v2 := q2 - r2). set (v3 := q3 - r3).
  assert (X' : x * u1 + y * v1 = 0) by (unfold u1, v1; lra).
  assert (Y' : x * u2 + y * v2 = 0) by (unfold u2, v2; lra).
  assert (Z' : x * u3 + y * v3 = 0) by (unfold u3, v3; lra).
  assert (W' : x * (u1 * u1 + u2 * u2 + u3 * u3) + y * (v1 * v1 + v2 * v2 + v3 * v3) = 0).
  { replace (x * (u1 * u1 + u2 * u2 + u3 * u3) + y * (v1 * v1 + v2 * v2 + v3 * v3)) with
     ((x * (p1 * p1 + p2 * p2 + p3 * p3) + y * (q1 * q1 + q2 * q2 + q3 * q3) + (- x - y) * (r1 * r1 + r2 * r2 + r3 * r3))
      - 2 * r1 * (x * u1 + y * v1) - 2 * r2 * (x * u2 + y * v2) - 2 * r3 * (x * u3 + y * v3))
      by (unfold u1, u2, u3, v1, v2, v3; ring).
    rewrite W, X', Y', Z'. ring. }
  assert (Nu : ~ (u1 = 0 /\ u2 = 0 /\ u3 = 0)).
  { intros (A & B & C). apply Npr. unfold u1, u2, u3 in *. f_equal; lra. }
  assert (Nv : ~ (v1 = 0 /\ v2 = 0 /\ v3 = 0)).
  { intros (A & B & C). apply Nqr. unfold v1, v2, v3 in *. f_equal; lra. }
  assert (Nuv : ~ (u1 = v1 /\ u2 = v2 /\ u3 = v3)).
  { intros (A & B & C). apply Npq. unfold u1, u2, u3, v1, v2, v3 in *. f_equal; lra. }
  clearbody u1 u2 u3 v1 v2 v3. clear X Y Z W Npq Npr Nqr.
  assert (Pos : forall a b c : R, ~ (a = 0 /\ b = 0 /\ c = 0) -> 0 < a * a + b * b + c * c).
  { intros a b c N. destruct (Req_dec a 0) as [->|]; [|nra]. destruct (Req_dec b 0) as [->|]; [|nra].
    destruct (Req_dec c 0) as [->|]; [exfalso; apply N; auto|nra]. }
  destruct (Req_dec x 0) as [->|Hx].
  - assert (y = 0); [|subst; split; [|split]; lra].
    pose proof (Pos _ _ _ Nv). apply (Rmult_eq_reg_r (v1 * v1 + v2 * v2 + v3 * v3)); lra.
  - exfalso. set (k := - y / x).
    assert (E1 : u1 = k * v1) by (unfold k; apply (Rmult_eq_reg_l x); auto; field_simplify; auto; lra).
    assert (E2 : u2 = k * v2) by (unfold k; apply (Rmult_eq_reg_l x); auto; field_simplify; auto; lra).
    assert (E3 : u3 = k * v3) by (unfold k; apply (Rmult_eq_reg_l x); auto; field_simplify; auto; lra).
    assert (Ey : y = - k * x) by (unfold k; field; auto).
    pose proof (Pos _ _ _ Nv) as Hv.
    assert (HH : x * (k * (k - 1)) * (v1 * v1 + v2 * v2 + v3 * v3) = 0).
    { rewrite <- W', E1, E2, E3, Ey. ring. }
    apply Rmult_integral in HH. destruct HH as [HH|HH]; [|lra]. apply Rmult_integral in HH.
    destruct HH as [HH|HH]; [lra|]. apply Rmult_integral in HH. destruct HH as [HH|HH].
    + apply Nu. rewrite E1, E2, E3, HH. repeat split; ring.
    + apply Nuv. replace k with 1 in * by lra. rewrite E1, E2, E3. repeat split; ring.
Qed.

(** The other orientations vanish too when the first two do and the points are
    on a common sphere. *)
Lemma rest_vanishes a b c d e : c <> d -> c <> e -> d <> e ->
  lift_det a b c d e (dot a a) (dot b b) (dot c c) (dot d d) (dot e e) = 0 ->
  orient3 b c d e = 0 -> orient3 a c d e = 0 ->
  orient3 a b d e = 0 /\ orient3 a b c e = 0 /\ orient3 a b c d = 0.
Proof.
  intros N1 N2 N3 W A B. rewrite lift_det_linear, A, B in W.
  destruct (three_points c d e (- orient3 a b d e) (orient3 a b c e) (- orient3 a b c d)) as (X & Y & Z); auto.
  - transitivity (orient3 b c d e - orient3 a c d e); [unf; ring|rewrite A, B; ring].
  - transitivity (orient3 b c d e * vx a - orient3 a c d e * vx b); [unf; ring|rewrite A, B; ring].
  - transitivity (orient3 b c d e * vy a - orient3 a c d e * vy b); [unf; ring|rewrite A, B; ring].
  - transitivity (orient3 b c d e * vz a - orient3 a c d e * vz b); [unf; ring|rewrite A, B; ring].
  - lra.
  - repeat split; lra.
Qed.

(** * Vanishing sums of powers with distinct exponents *)
Lemma psum_perm l l' d : Permutation l l' -> psum l d = psum l' d.
Proof. induction 1 as [|[] ? ? ? IH|[] [] ?|]; cbn; try lra. Qed.

Lemma sort_exists (l : list (R * nat)) : NoDup (map snd l) ->
  exists l', Permutation l l' /\ Sorted (fun a b => (snd a < snd b)%nat) l'.
Proof.
  induction l as [|x l IH]; intros H; [exists []; split; constructor|].
  inversion H as [|? ? Hx Hl]; subst. destruct (IH Hl) as (l' & Pm & So). clear IH.
  assert (Hx' : ~ In (snd x) (map snd l')).
  { intros Hi. apply Hx. eapply Permutation_in; [symmetry; apply Permutation_map; exact Pm|exact Hi]. }
  assert (exists l'', Permutation (x :: l') l'' /\ Sorted (fun a b => (snd a < snd b)%nat) l'' /\
            forall y, HdRel (fun a b => (snd a < snd b)%nat) y l' -> (snd y < snd x)%nat ->
              HdRel (fun a b => (snd a < snd b)%nat) y l'') as (l'' & P2 & S2 & _).
  { clear Pm Hl H Hx. induction l' as [|y l' IH].
    - exists [x]. split; [auto|split; [repeat constructor|intros; constructor; auto]].
    - inversion So; subst. cbn in Hx'. destruct (lt_dec (snd x) (snd y)) as [L|L].
      + exists (x :: y :: l'). split; [auto|split; [repeat constructor; auto|intros; constructor; auto]].
      + destruct IH as (l'' & P2 & S2 & HH); auto. exists (y :: l''). split; [|split].
        * eapply perm_trans; [apply perm_swap|]. now apply perm_skip.
        * constructor; auto. apply HH; auto. lia.
        * intros z Hz _. inversion Hz; constructor; auto. }
  exists l''. split; auto. eapply perm_trans; [apply perm_skip; exact Pm|exact P2].
Qed.

Lemma leading_zero l : leading l = 0 -> forall c n, In (c, n) l -> c = 0.
Proof.
  induction l as [|[c n] t IH]; cbn; [intros ? ? ? []|].
  destruct (Req_EM_T c 0) as [->|Hc]; [|intros; contradiction].
  intros H c' n' [E|Hi]; [now inversion E|eauto].
Qed.

Lemma psum_zero l d0 : NoDup (map snd l) -> 0 < d0 -> (forall d, 0 < d < d0 -> psum l d = 0) ->
  forall c n, In (c, n) l -> c = 0.
Proof.
  intros ND Hd0 H c n Hi. destruct (sort_exists l ND) as (l' & Pm & So).
  destruct (psum_sign l' So) as (d1 & Hd1 & Hs).
  assert (Hm : 0 < Rmin d0 d1 / 2 /\ Rmin d0 d1 / 2 < d0 /\ Rmin d0 d1 / 2 < d1).
  { pose proof (Rmin_l d0 d1). pose proof (Rmin_r d0 d1). assert (0 < Rmin d0 d1) by (apply Rmin_pos; auto). lra. }
  specialize (Hs (Rmin d0 d1 / 2)). rewrite <- (psum_perm _ _ _ Pm), H, sgn_zero in Hs by lra.
  unfold sgn in Hs. destruct (total_order_T (leading l') 0) as [[|E]|]; try (specialize (Hs ltac:(lra)); discriminate).
  eapply (leading_zero l' E c n). eapply Permutation_in; eauto.
Qed.

Lemma sgn_parity n x : sgn (parity n x) = if Nat.odd n then (- sgn x)%Z else sgn x.
Proof. unfold parity. destruct (Nat.odd n); auto using sgn_opp. Qed.
Lemma sgn_zero_inv x : sgn x = 0%Z -> x = 0.
Proof. unfold sgn. destruct (total_order_T x 0) as [[|]|]; try discriminate; auto. Qed.
Lemma sgn_sgn x : Z.sgn (sgn x) = sgn x.
Proof. unfold sgn. destruct (total_order_T x 0) as [[|]|]; auto. Qed.

Lemma insphere_s_correct (P : nat -> vec3) (o3 : sign3) (isp : sign4) (pa pb pc pd pe : nat) :
  (forall a b c d, Z.sgn (o3 a b c d) = sgn (orient3 (P a) (P b) (P c) (P d))) ->
  (forall a b c d e, Z.sgn (isp a b c d e) =
     sgn (lift_det (P a) (P b) (P c) (P d) (P e) (dot (P a) (P a)) (dot (P b) (P b)) (dot (P c) (P c))
            (dot (P d) (P d)) (dot (P e) (P e)))) ->
  NoDup [pa; pb; pc; pd; pe] ->
  (forall i j, In i [pa; pb; pc; pd; pe] -> In j [pa; pb; pc; pd; pe] -> P i = P j -> i = j) ->
  exists d0, 0 < d0 /\ forall d, 0 < d < d0 ->
    insphere_s o3 isp pa pb pc pd pe =
    Some (sgn (det_list P (fun i => dot (P i) (P i) - d ^ (S i)) [pa; pb; pc; pd; pe])).
Proof.
  intros O I ND Inj.
  destruct (bubble_sort_spec 5 [pa; pb; pc; pd; pe] [] eq_refl (Sorted_nil _)) as [Pm So]; [intros ? ? ? []|].
  rewrite app_nil_r in Pm, So.
  assert (Alt : forall w, det_list P w [pa; pb; pc; pd; pe] =
     parity (snd (bubble_sort 5 [pa; pb; pc; pd; pe])) (det_list P w (fst (bubble_sort 5 [pa; pb; pc; pd; pe]))))
    by (intros w; apply bubble_sort_alt, det_list_alt).
  unfold insphere_s.
  destruct (bubble_sort 5 [pa; pb; pc; pd; pe]) as [pt swaps]. cbn [fst snd] in *.
  assert (L : length pt = 5%nat) by (apply Permutation_length in Pm; exact Pm).
  destruct pt as [|p0 [|p1 [|p2 [|p3 [|p4 [|? ?]]]]]]; cbn in L; try discriminate. clear L.
  assert (ND' : NoDup [p0; p1; p2; p3; p4]) by (eapply Permutation_NoDup; [symmetry; exact Pm|exact ND]).
  assert (Inj' : forall i j, In i [p0; p1; p2; p3; p4] -> In j [p0; p1; p2; p3; p4] -> P i = P j -> i = j)
    by (intros i j Hi Hj; apply Inj; eapply Permutation_in; eauto).
  assert (S5 : (p0 < p1 < p2 /\ p2 < p3 < p4)%nat).
  { clear -So ND'.
    repeat match goal with H : Sorted _ (_ :: _) |- _ => inversion H; clear H; subst end.
    repeat match goal with H : HdRel _ _ (_ :: _) |- _ => inversion H; clear H; subst end.
    repeat match goal with H : NoDup (_ :: _) |- _ => inversion H; clear H; subst end. cbn [In] in *. lia. }
  assert (Sum : forall d, det_list P (fun i => dot (P i) (P i) - d ^ S i) [p0; p1; p2; p3; p4] =
    psum [(det_list P (fun i => dot (P i) (P i)) [p0; p1; p2; p3; p4], 0%nat);
          (orient3 (P p1) (P p2) (P p3) (P p4), S p0); (- orient3 (P p0) (P p2) (P p3) (P p4), S p1);
          (orient3 (P p0) (P p1) (P p3) (P p4), S p2); (- orient3 (P p0) (P p1) (P p2) (P p4), S p3);
          (orient3 (P p0) (P p1) (P p2) (P p3), S p4)] d).
  { intros d. unfold det_list. rewrite !lift_det_linear. cbn [psum]. rewrite pow_O. ring. }
  assert (I0 : Z.sgn (isp pa pb pc pd pe) = sgn (parity swaps (det_list P (fun i => dot (P i) (P i)) [p0; p1; p2; p3; p4]))).
  { rewrite <- Alt. apply I. }
  match type of Sum with forall d, _ = psum ?l d => destruct (psum_sign l) as (d0 & Hd0 & Hs) end.
  { repeat first [apply Sorted_nil | apply Sorted_cons | apply HdRel_nil | apply HdRel_cons]; cbn; lia. }
  exists d0. split; auto. intros d Hd. rewrite Alt, sgn_parity, Sum, (Hs d Hd). clear Hs Sum Alt.
  rewrite sgn_parity in I0. cbn [leading].
  destruct (Req_EM_T (det_list P (fun i => dot (P i) (P i)) [p0; p1; p2; p3; p4]) 0) as [Z0|N0].
  - rewrite Z0, sgn_zero in I0. replace (if Nat.odd swaps then (- 0)%Z else 0%Z) with 0%Z in I0 by (destruct (Nat.odd swaps); auto).
    apply (proj1 (Z.sgn_null_iff _)) in I0. rewrite I0. cbn [negb Z.eqb].
    assert (O4 : forall a b c d, (o3 a b c d =? 0)%Z = true <-> orient3 (P a) (P b) (P c) (P d) = 0).
    { intros. rewrite Z.eqb_eq, <- Z.sgn_null_iff, O. split; [apply sgn_zero_inv|intros ->; apply sgn_zero]. }
    assert (Goal1 : forall z x, Z.sgn z = sgn x ->
      Some (if Nat.odd swaps then (- Z.sgn z)%Z else Z.sgn z) = Some (if Nat.odd swaps then (- sgn x)%Z else sgn x))
      by (intros z x ->; reflexivity).
    destruct (Req_EM_T (orient3 (P p1) (P p2) (P p3) (P p4)) 0) as [Z1|N1].
    + rewrite (proj2 (O4 _ _ _ _) Z1). apply Goal1. rewrite Z.sgn_opp, O, <- sgn_opp. f_equal.
      destruct (Req_EM_T (- orient3 (P p0) (P p2) (P p3) (P p4)) 0) as [Z2|N2]; auto.
      destruct (rest_vanishes (P p0) (P p1) (P p2) (P p3) (P p4)) as (A & B & C); auto; try lra.
      * intros E. apply Inj' in E; cbn; auto; lia.
      * intros E. apply Inj' in E; cbn; auto; lia.
      * intros E. apply Inj' in E; cbn; auto 6; lia.
      * rewrite Z2, A, B, C, Ropp_0.
        destruct (Req_EM_T 0 0); auto.
    + destruct (o3 p1 p2 p3 p4 =? 0)%Z eqn:E; [apply O4 in E; contradiction|]. apply Goal1, O.
  - destruct (Z.eqb_spec (isp pa pb pc pd pe) 0) as [E|E].
    + exfalso. rewrite E in I0. change (Z.sgn 0) with 0%Z in I0. apply N0, sgn_zero_inv. revert I0. destruct (Nat.odd swaps); lia.
    + cbn [negb]. rewrite I0. reflexivity.
Qed.
