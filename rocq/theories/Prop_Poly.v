(** C52: the triangle-polygon test finds exactly the overlaps of the interiors.

    [side] is positive strictly inside of the line through a and b; a convex
    polygon lies weakly inside of the line of each of its sides, and its
    interior is what lies strictly inside of all of them. *)
From Coq Require Import Reals Lra Psatz List Arith Bool Lia.
From Verif Require Import Lib Geo Dispatch Orient PointTests Prop_PointTests Poly.
Import ListNotations.
Local Open Scope R_scope.

Definition pt : Type := R * R.
Definition area2 (a b c : pt) : R := orient2 (fst a) (snd a) (fst b) (snd b) (fst c) (snd c).
(** [base] is Positive for counterclockwise polygons, Negative for clockwise. *)
Definition sgn_of (base : Orientation) : R := match base with Positive => 1 | Negative => -1 | _ => 0 end.
Definition side (base : Orientation) (a b c : pt) : R := sgn_of base * area2 a b c.
(** (a, b) is a side of the closed polygon l. *)
Definition is_side (l : list pt) (a b : pt) : Prop :=
  exists i, nth_error l i = Some a /\ nth_error l (S i mod length l) = Some b.
Definition inside (base : Orientation) (l : list pt) (x : pt) : Prop := forall a b, is_side l a b -> 0 < side base a b x.
Definition convex (base : Orientation) (l : list pt) : Prop := forall a b c, is_side l a b -> In c l -> 0 <= side base a b c.

(** * Sides *)
Lemma windows_spec {A} (f : A) l : forall a b, In (a, b) (windows f l) <->
  exists i, nth_error l i = Some a /\ (nth_error l (S i) = Some b \/ (S i = length l /\ b = f)).
Proof.
  induction l as [|x l IH]; intros a b; [cbn; split; [tauto|intros (i & H & _); destruct i; discriminate]|].
  destruct l as [|y l].
  - cbn. split.
    + intros [H|[]]. inversion H; subst. exists 0%nat. auto.
    + intros (i & H & H'). destruct i as [|[|i]]; [|discriminate|discriminate]. cbn in H, H'. inversion H; subst.
      destruct H' as [H'|(_ & ->)]; [discriminate|auto].
  - cbn [windows In]. rewrite IH. split.
    + intros [H|(i & H & H')]; [inversion H; subst; exists 0%nat; cbn; auto|].
      exists (S i). split; auto. destruct H' as [H'|(H' & ->)]; [left; auto|right; split; auto; cbn in *; lia].
    + intros (i & H & H'). destruct i as [|i].
      * left. cbn in H. inversion H; subst. destruct H' as [H'|(H' & _)]; [cbn in H'; inversion H'; auto|cbn in H'; lia].
      * right. exists i. split; auto. destruct H' as [H'|(H' & ->)]; [auto|right; split; auto; cbn in *; lia].
Qed.
Lemma pairs_spec (l : list pt) a b : In (a, b) (circular_pairs l) <-> is_side l a b.
Proof.
  unfold circular_pairs, is_side. destruct l as [|x l]; [cbn; split; [tauto|intros (i & H & _); destruct i; discriminate]|].
  rewrite windows_spec. split; intros (i & H & H'); exists i; split; auto.
  - assert (Hi : (i < length (x :: l))%nat) by (apply nth_error_Some; congruence).
    destruct H' as [H'|(H' & ->)].
    + rewrite Nat.mod_small by (apply nth_error_Some; congruence). auto.
    + rewrite H', Nat.mod_same by (cbn; lia). auto.
  - assert (Hi : (i < length (x :: l))%nat) by (apply nth_error_Some; congruence).
    destruct (Nat.eq_dec (S i) (length (x :: l))) as [E|E].
    + right. split; auto. rewrite E, Nat.mod_same in H' by (cbn; lia). cbn in H'. congruence.
    + left. rewrite Nat.mod_small in H' by lia. auto.
Qed.

(** * The loops *)
Definition right_base (base : Orientation) := base = Positive \/ base = Negative.
Lemma ori_side base x : right_base base ->
  (ori_of x = Zero <-> sgn_of base * x = 0) /\ (ori_of x = base <-> 0 < sgn_of base * x).
Proof.
  intros [-> | ->]; cbn [sgn_of]; destruct (ori_cases x) as [[H E]|[[H E]|[H E]]]; rewrite E; split; split; intros; try lra; try congruence; try discriminate.
Qed.
Section Loops.
Variable (P : Type) (at_ : P -> pt) (o2 : P -> P -> P -> Orientation) (base : Orientation).
Hypothesis O2 : forall a b c, o2 a b c = ori_of (area2 (at_ a) (at_ b) (at_ c)).
Hypothesis RB : right_base base.
Let sd a b c := side base (at_ a) (at_ b) (at_ c).

Lemma side_loop_spec a b : forall poly h al h' al', side_loop o2 base a b poly h al = (h', al') ->
  (h' = true <-> h = true \/ exists c, In c poly /\ 0 < sd a b c) /\
  (al' = true <-> al = true /\ forall c, In c poly -> 0 <= sd a b c).
Proof.
  induction poly as [|c t IH]; intros h al h' al' E; cbn [side_loop] in E.
  - inversion E; subst. split; split.
    + auto.
    + intros [H|(c & H & _)]; [auto|destruct H].
    + intros H. split; [auto|]. intros c Hc. destruct Hc.
    + intros (H & _). exact H.
  - rewrite !O2 in E. destruct (ori_side base (area2 (at_ a) (at_ b) (at_ c)) RB) as (Z & Q).
    change (sgn_of base * area2 (at_ a) (at_ b) (at_ c)) with (sd a b c) in Z, Q.
    destruct (ori_eqb_spec (ori_of (area2 (at_ a) (at_ b) (at_ c))) Zero) as [e|n].
    + apply Z in e. apply IH in E. destruct E as (E1 & E2). rewrite E1, E2. split; split.
      * intros [H|(d & H & H')]; auto. right. exists d. split; [now right|auto].
      * intros [H|(d & [<-|H] & H')]; auto; [lra|]. right. eauto.
      * intros (H & H'). split; auto. intros d [<-|Hd]; [lra|auto].
      * intros (H & H'). split; auto. intros d Hd. apply H'. now right.
    + destruct (ori_eqb_spec (ori_of (area2 (at_ a) (at_ b) (at_ c))) base) as [e|m].
      * apply Q in e. apply IH in E. destruct E as (E1 & E2). rewrite E1, E2. split; split.
        { intros _. right. exists c. split; [now left|auto]. }
        { intros _. auto. }
        { intros (H & H'). split; auto. intros d [<-|Hd]; [lra|auto]. }
        { intros (H & H'). split; auto. intros d Hd. apply H'. now right. }
      * assert (N : sd a b c < 0).
        { destruct (Rtotal_order (sd a b c) 0) as [H|[H|H]]; auto; exfalso; [apply n, Z|apply m, Q]; auto. }
        apply IH in E. destruct E as (E1 & E2). rewrite E1, E2. split; split.
        { intros [H|(d & H & H')]; auto. right. exists d. split; [now right|auto]. }
        { intros [H|(d & [<-|H] & H')]; auto; [lra|]. right. eauto. }
        { intros (H & _). discriminate. }
        { intros (H & H'). exfalso. specialize (H' c (or_introl eq_refl)). lra. }
Qed.
Lemma tri_sides_spec poly : forall sides all,
  match tri_sides o2 base sides poly all with
  | None => exists a b, In (a, b) sides /\ forall c, In c poly -> sd a b c <= 0
  | Some r => (forall a b, In (a, b) sides -> exists c, In c poly /\ 0 < sd a b c) /\
      (r = true <-> all = true /\ forall a b c, In (a, b) sides -> In c poly -> 0 <= sd a b c)
  end.
Proof.
  induction sides as [|(a, b) t IH]; intros all; cbn [tri_sides].
  - split; [intros a b []|]. split; [intros H; split; auto; intros a b c []|intros (H & _); auto].
  - destruct (side_loop o2 base a b poly false true) as (h & al) eqn:E. apply side_loop_spec in E. destruct E as (E1 & E2).
    destruct h; cbn [negb].
    + specialize (IH (all && al)). destruct (tri_sides o2 base t poly (all && al)) as [r|].
      * destruct IH as (H1 & H2). split.
        { intros a' b' [H|H]; [inversion H; subst|auto]. destruct (proj1 E1 eq_refl) as [H'|H']; [discriminate|auto]. }
        rewrite H2. rewrite andb_true_iff, E2. split.
        { intros ((A & _ & B) & C). split; auto. intros a' b' c [H|H] Hc; [inversion H; subst; auto|eauto]. }
        { intros (A & B). split; [split; auto; split; auto; intros c Hc; apply B; auto; now left|]. intros a' b' c H Hc. apply B; auto. now right. }
      * destruct IH as (a' & b' & H & H'). exists a', b'. split; [now right|auto].
    + exists a, b. split; [now left|]. intros c Hc. destruct (Rle_lt_dec (sd a b c) 0) as [|H]; auto. exfalso.
      assert (false = true) by (apply E1; right; eauto). discriminate.
Qed.
Lemma poly_sides_spec tri : forall sides,
  if poly_sides o2 base sides tri then forall a b, In (a, b) sides -> exists c, In c tri /\ 0 < sd a b c
  else exists a b, In (a, b) sides /\ forall c, In c tri -> sd a b c <= 0.
Proof.
  induction sides as [|(a, b) t IH]; cbn [poly_sides]; [intros a b []|].
  destruct (side_loop o2 base a b tri false true) as (h & al) eqn:E. apply side_loop_spec in E. destruct E as (E1 & _).
  destruct h; cbn [negb].
  - destruct (poly_sides o2 base t tri).
    + intros a' b' [H|H]; [inversion H; subst|auto]. destruct (proj1 E1 eq_refl) as [H'|H']; [discriminate|auto].
    + destruct IH as (a' & b' & H & H'). exists a', b'. split; [now right|auto].
  - exists a, b. split; [now left|]. intros c Hc. destruct (Rle_lt_dec (sd a b c) 0) as [|H]; auto. exfalso.
    assert (false = true) by (apply E1; right; eauto). discriminate.
Qed.
Lemma in_pairs_map (l : list P) : forall a b, In (a, b) (circular_pairs (map at_ l)) <->
  exists a' b', a = at_ a' /\ b = at_ b' /\ In (a', b') (circular_pairs l).
Proof.
  intros a b. assert (E : circular_pairs (map at_ l) = map (fun p => (at_ (fst p), at_ (snd p))) (circular_pairs l)).
  { destruct l as [|x l]; [reflexivity|]. unfold circular_pairs. cbn [map].
    change (at_ x :: map at_ l) with (map at_ (x :: l)). generalize (x :: l) at 1 2. clear. intros l. 
    induction l as [|y l IH]; [reflexivity|]. destruct l as [|z l]; [reflexivity|]. cbn [map windows] in *. now rewrite IH. }
  rewrite E, in_map_iff. split.
  - intros ((a' & b') & H & H'). cbn in H. inversion H; subst. eauto.
  - intros (a' & b' & -> & -> & H). exists (a', b'). auto.
Qed.
End Loops.

(** * Helly's theorem for open half-planes *)
Definition lin (f : R * R * R) (x : pt) : R := let '(a, b, c) := f in a * fst x + b * snd x + c.

Lemma dependent (u0 u1 u2 : pt) : exists l0 l1 l2, (l0 <> 0 \/ l1 <> 0 \/ l2 <> 0) /\
  l0 * fst u0 + l1 * fst u1 + l2 * fst u2 = 0 /\ l0 * snd u0 + l1 * snd u1 + l2 * snd u2 = 0.
Proof.
  destruct u0 as (x0, y0), u1 as (x1, y1), u2 as (x2, y2). cbn.
  set (c0 := x1 * y2 - y1 * x2). set (c1 := x2 * y0 - y2 * x0). set (c2 := x0 * y1 - y0 * x1).
  destruct (Req_EM_T c0 0) as [Z0|N0]; [|exists c0, c1, c2; split; [auto|unfold c0, c1, c2; split; ring]].
  destruct (Req_EM_T c1 0) as [Z1|N1]; [|exists c0, c1, c2; split; [auto|unfold c0, c1, c2; split; ring]].
  destruct (Req_EM_T c2 0) as [Z2|N2]; [|exists c0, c1, c2; split; [auto|unfold c0, c1, c2; split; ring]].
  unfold c2 in Z2. 
  destruct (Req_EM_T x0 0) as [X|X]; [destruct (Req_EM_T y0 0) as [Y|Y]|].
  - subst. exists 1, 0, 0. split; [left; lra|split; lra].
  - exists y1, (- y0), 0. split; [right; left; lra|]. split; lra.
  - exists x1, (- x0), 0. split; [right; left; lra|]. split; lra.
Qed.
Lemma radon (p0 p1 p2 p3 : pt) : exists z : pt, forall f0 f1 f2 f3 : R * R * R, True ->
  exists a0 a1 a2 a3 b0 b1 b2 b3,
   (0 <= a0 /\ 0 <= a1 /\ 0 <= a2 /\ 0 <= a3) /\ (0 <= b0 /\ 0 <= b1 /\ 0 <= b2 /\ 0 <= b3) /\
   (a0 * b0 = 0 /\ a1 * b1 = 0 /\ a2 * b2 = 0 /\ a3 * b3 = 0) /\
   a0 + a1 + a2 + a3 = 1 /\ b0 + b1 + b2 + b3 = 1 /\
   (forall f, lin f z = a0 * lin f p0 + a1 * lin f p1 + a2 * lin f p2 + a3 * lin f p3) /\
   (forall f, lin f z = b0 * lin f p0 + b1 * lin f p1 + b2 * lin f p2 + b3 * lin f p3).
Proof.
  destruct (dependent (fst p0 - fst p3, snd p0 - snd p3) (fst p1 - fst p3, snd p1 - snd p3) (fst p2 - fst p3, snd p2 - snd p3))
    as (l0 & l1 & l2 & N & E1 & E2). cbn [fst snd] in E1, E2.
  set (l3 := - (l0 + l1 + l2)).
  set (pos x := Rmax x 0). set (neg x := Rmax (- x) 0).
  assert (PN : forall x, 0 <= pos x /\ 0 <= neg x /\ pos x * neg x = 0 /\ x = pos x - neg x).
  { intros x. unfold pos, neg, Rmax. destruct (Rle_dec x 0), (Rle_dec (- x) 0); repeat split; try lra. }
  destruct (PN l0) as (P0 & Q0 & M0 & D0), (PN l1) as (P1 & Q1 & M1 & D1), (PN l2) as (P2 & Q2 & M2 & D2), (PN l3) as (P3 & Q3 & M3 & D3).
  set (S := pos l0 + pos l1 + pos l2 + pos l3).
  assert (S' : S = neg l0 + neg l1 + neg l2 + neg l3) by (unfold S, l3 in *; lra).
  assert (Sp : 0 < S).
  { destruct (Rle_lt_or_eq_dec 0 S) as [|Z]; auto; [unfold S; lra|]. exfalso.
    assert (pos l0 = 0 /\ pos l1 = 0 /\ pos l2 = 0) by (unfold S in Z; lra).
    assert (neg l0 = 0 /\ neg l1 = 0 /\ neg l2 = 0) by lra. lra. }
  assert (X1 : pos l0 * fst p0 + pos l1 * fst p1 + pos l2 * fst p2 + pos l3 * fst p3 = neg l0 * fst p0 + neg l1 * fst p1 + neg l2 * fst p2 + neg l3 * fst p3).
  { assert (l0 * fst p0 + l1 * fst p1 + l2 * fst p2 + l3 * fst p3 = 0) by (unfold l3; lra).
    rewrite D0, D1, D2, D3 in H at 1. lra. }
  assert (X2 : pos l0 * snd p0 + pos l1 * snd p1 + pos l2 * snd p2 + pos l3 * snd p3 = neg l0 * snd p0 + neg l1 * snd p1 + neg l2 * snd p2 + neg l3 * snd p3).
  { assert (l0 * snd p0 + l1 * snd p1 + l2 * snd p2 + l3 * snd p3 = 0) by (unfold l3; lra).
    rewrite D0, D1, D2, D3 in H at 1. lra. }
  exists ((pos l0 * fst p0 + pos l1 * fst p1 + pos l2 * fst p2 + pos l3 * fst p3) / S,
          (pos l0 * snd p0 + pos l1 * snd p1 + pos l2 * snd p2 + pos l3 * snd p3) / S).
  intros _ _ _ _ _.
  exists (pos l0 / S), (pos l1 / S), (pos l2 / S), (pos l3 / S), (neg l0 / S), (neg l1 / S), (neg l2 / S), (neg l3 / S).
  assert (Dv : forall x, 0 <= x -> 0 <= x / S) by (intros; apply Rmult_le_pos; auto; left; apply Rinv_0_lt_compat; auto).
  assert (Mv : forall x y, x * y = 0 -> x / S * (y / S) = 0) by (intros x y H; unfold Rdiv; replace (x * / S * (y * / S)) with (x * y * / S * / S) by ring; rewrite H; ring).
  split; [auto|]. split; [auto|]. split; [auto|].
  split; [unfold S; field; fold S; lra|]. split; [rewrite S'; field; rewrite <- S'; lra|].
  split; intros ((a, b), c); cbn [lin fst snd].
  - unfold S. field. fold S. lra.
  - rewrite X1, X2. rewrite S'. field. rewrite <- S'. lra.
Qed.

Lemma pos4 a0 a1 a2 a3 v0 v1 v2 v3 : (0 <= a0 /\ 0 <= a1 /\ 0 <= a2 /\ 0 <= a3) -> a0 + a1 + a2 + a3 = 1 ->
  (a0 = 0 \/ 0 < v0) -> (a1 = 0 \/ 0 < v1) -> (a2 = 0 \/ 0 < v2) -> (a3 = 0 \/ 0 < v3) ->
  0 < a0 * v0 + a1 * v1 + a2 * v2 + a3 * v3.
Proof.
  intros (A0 & A1 & A2 & A3) S H0 H1 H2 H3.
  assert (T : forall a v, 0 <= a -> (a = 0 \/ 0 < v) -> 0 <= a * v /\ (a = 0 \/ 0 < a * v)).
  { intros a v A [->|H]; [split; [lra|auto]|]. split; [apply Rmult_le_pos; lra|]. destruct (Req_EM_T a 0); auto. right. apply Rmult_lt_0_compat; lra. }
  destruct (T _ _ A0 H0) as (B0 & [C0|C0]), (T _ _ A1 H1) as (B1 & [C1|C1]), (T _ _ A2 H2) as (B2 & [C2|C2]), (T _ _ A3 H3) as (B3 & [C3|C3]); lra.
Qed.

Theorem helly : forall n fs, (length fs <= n)%nat ->
  (forall f g h, In f fs -> In g fs -> In h fs -> exists x, 0 < lin f x /\ 0 < lin g x /\ 0 < lin h x) ->
  exists x, forall f, In f fs -> 0 < lin f x.
Proof.
  induction n as [|n IH]; intros fs L H.
  - destruct fs; [|cbn in L; lia]. exists (0, 0). intros f [].
  - destruct fs as [|f0 [|f1 [|f2 [|f3 r]]]].
    + exists (0, 0). intros f [].
    + destruct (H f0 f0 f0) as (x & A & _); try now left. exists x. intros f [<-|[]]; auto.
    + destruct (H f0 f1 f1) as (x & A & B & _); cbn; auto. exists x. intros f [<-|[<-|[]]]; auto.
    + destruct (H f0 f1 f2) as (x & A & B & C); cbn; auto. exists x. intros f [<-|[<-|[<-|[]]]]; auto.
    + cbn [length] in L.
      destruct (IH (f1 :: f2 :: f3 :: r)) as (p0 & H0); [cbn; lia|intros; apply H; cbn in *; tauto|].
      destruct (IH (f0 :: f2 :: f3 :: r)) as (p1 & H1); [cbn; lia|intros; apply H; cbn in *; tauto|].
      destruct (IH (f0 :: f1 :: f3 :: r)) as (p2 & H2); [cbn; lia|intros; apply H; cbn in *; tauto|].
      destruct (IH (f0 :: f1 :: f2 :: r)) as (p3 & H3); [cbn; lia|intros; apply H; cbn in *; tauto|].
      destruct (radon p0 p1 p2 p3) as (z & Hz). destruct (Hz f0 f1 f2 f3 I) as (a0 & a1 & a2 & a3 & b0 & b1 & b2 & b3 & A & Bb & (M0 & M1 & M2 & M3) & Sa & Sb & Fa & Fb).
      exists z. intros f Hf.
      assert (Z : forall x y, x * y = 0 -> x = 0 \/ y = 0) by (intros; now apply Rmult_integral).
      cbn [In] in *. destruct Hf as [<-|[<-|[<-|[<-|Hf]]]].
      * destruct (Z _ _ M0) as [E|E]; [rewrite Fa|rewrite Fb]; apply pos4; auto.
      * destruct (Z _ _ M1) as [E|E]; [rewrite Fa|rewrite Fb]; apply pos4; auto.
      * destruct (Z _ _ M2) as [E|E]; [rewrite Fa|rewrite Fb]; apply pos4; auto 6.
      * destruct (Z _ _ M3) as [E|E]; [rewrite Fa|rewrite Fb]; apply pos4; auto 7.
      * rewrite Fa. apply pos4; auto 10.
Qed.

(** * A point inside a closed polygon has a corner on either side *)
Definition side_lin (base : Orientation) (a b : pt) : R * R * R :=
  let s := sgn_of base in
  (s * (snd a - snd b), s * (fst b - fst a), s * (fst a * snd b - snd a * fst b)).
Lemma side_lin_spec base a b x : lin (side_lin base a b) x = side base a b x.
Proof. unfold lin, side_lin, side, area2, orient2. ring. Qed.

Lemma inside_corner base l x f : right_base base -> l <> [] -> inside base l x -> 0 < lin f x -> exists v, In v l /\ 0 < lin f v.
Proof.
  intros RB Ne Ins Hf.
  assert (Dec : (exists v, In v l /\ 0 < lin f v) \/ (forall v, In v l -> lin f v <= 0)).
  { clear. induction l as [|a l IH]; [right; intros v []|]. destruct (Rlt_le_dec 0 (lin f a)); [left; exists a; cbn; auto|].
    destruct IH as [(v & H & H')|H]; [left; exists v; cbn; auto|right]. intros v [<-|Hv]; auto. }
  destruct Dec as [|All]; auto. exfalso.
  destruct f as ((n1, n2), n3). cbn [lin] in Hf, All.
  set (N v := - (n1 * (fst v - fst x) + n2 * (snd v - snd x))).
  set (C v := sgn_of base * (n1 * (snd v - snd x) - n2 * (fst v - fst x))).
  assert (NP : forall v, In v l -> 0 < N v) by (intros v Hv; specialize (All v Hv); unfold N; lra).
  assert (Step : forall a b, In a l -> In b l -> is_side l a b -> C b * N a < C a * N b).
  { intros a b Ha Hb Hs. apply Ins in Hs.
    assert (Q : 0 < n1 * n1 + n2 * n2).
    { destruct (Req_EM_T n1 0) as [->|]; [destruct (Req_EM_T n2 0) as [->|]|].
      - specialize (All a Ha). lra.
      - pose proof (Rsqr_pos_lt n2 ltac:(auto)). unfold Rsqr in H. nra.
      - pose proof (Rsqr_pos_lt n1 ltac:(auto)). unfold Rsqr in H. nra. }
    assert (Id : C a * N b - C b * N a = (n1 * n1 + n2 * n2) * side base a b x).
    { unfold C, N, side, area2, orient2. ring. }
    assert (0 < (n1 * n1 + n2 * n2) * side base a b x) by (apply Rmult_lt_0_compat; auto). lra. }
  assert (Ch : forall m first, (forall v, In v m -> In v l) -> In first l ->
     (forall a b, In (a, b) (windows first m) -> is_side l a b) ->
     match m with [] => True | a :: _ => C first * N a < C a * N first end).
  { induction m as [|a m IH]; intros first Hm Hfst Hw; auto. destruct m as [|b m].
    - apply Step; auto; [apply Hm; now left|]. apply Hw. now left.
    - pose proof (IH first ltac:(intros; apply Hm; now right) Hfst ltac:(intros; apply Hw; now right)) as B.
      assert (A : C b * N a < C a * N b) by (apply Step; [apply Hm; cbn; auto|apply Hm; cbn; auto|apply Hw; cbn; auto]).
      pose proof (NP a (Hm a ltac:(now left))) as Pa. pose proof (NP b (Hm b ltac:(cbn; auto))) as Pb. pose proof (NP first Hfst) as Pf.
      (* C first / N first < C b / N b < C a / N a *)
      assert (T1 : C first * N a * N b < C b * N first * N a) by (apply Rmult_lt_compat_r with (r := N a) in B; lra).
      assert (T2 : C b * N a * N first < C a * N b * N first) by (apply Rmult_lt_compat_r; auto).
      apply Rmult_lt_reg_r with (N b); auto. lra. }
  destruct l as [|a l]; [congruence|].
  specialize (Ch (a :: l) a ltac:(auto) ltac:(now left)). cbn match in Ch.
  assert (C a * N a < C a * N a); [|lra]. apply Ch. intros u v H. apply (proj1 (pairs_spec (a :: l) u v)). exact H.
Qed.

(** A corner strictly inside of a line pulls in a point inside the polygon. *)
Lemma pull base l x v f : inside base l x -> convex base l -> In v l -> 0 < lin f v ->
  forall s, 0 < s -> exists y, 0 < lin f y /\ inside base l y.
Proof.
  intros Ins Cv Hv Hf s Hs.
  set (d := lin f x). 
  assert (E : exists e, 0 < e < 1 /\ 0 < (1 - e) * lin f v + e * d).
  { destruct (Rle_lt_dec 0 d) as [D|D].
    - exists (1 / 2). split; [lra|]. lra.
    - exists (lin f v / (2 * (lin f v - d))). set (q := lin f v) in *.
      assert (P : 0 < 2 * (q - d)) by lra.
      assert (R : q / (2 * (q - d)) * (2 * (q - d)) = q) by (field; lra).
      set (e := q / (2 * (q - d))) in *.
      assert (0 < e) by (apply Rmult_lt_0_compat; [auto|apply Rinv_0_lt_compat; auto]).
      assert (e < 1). { apply Rmult_lt_reg_r with (2 * (q - d)); auto. lra. }
      split; [lra|]. replace ((1 - e) * q + e * d) with (q - e * (2 * (q - d)) / 2) by field. rewrite R. lra. }
  destruct E as (e & He & E).
  exists ((1 - e) * fst v + e * fst x, (1 - e) * snd v + e * snd x).
  assert (A : forall g, lin g ((1 - e) * fst v + e * fst x, (1 - e) * snd v + e * snd x) = (1 - e) * lin g v + e * lin g x).
  { intros ((a, b), c). cbn. ring. }
  split; [rewrite A; exact E|].
  intros a b Hab. rewrite <- side_lin_spec, A, !side_lin_spec.
  pose proof (Ins a b Hab) as Q1. pose proof (Cv a b v Hab Hv) as Q2.
  assert (0 <= (1 - e) * side base a b v) by (apply Rmult_le_pos; lra).
  assert (0 < e * side base a b x) by (apply Rmult_lt_0_compat; lra). lra.
Qed.

(** * C52 *)
Section Claims.
Variable (P : Type) (at_ : P -> pt) (o2 : P -> P -> P -> Orientation) (base : Orientation).
Hypothesis O2 : forall a b c, o2 a b c = ori_of (area2 (at_ a) (at_ b) (at_ c)).
Hypothesis RB : right_base base.

(** A negative answer always comes with a separating line along a side. *)
Theorem C52_false tri poly : is_triangle_intersects_poly o2 tri poly base = false ->
  (exists a b, is_side (map at_ tri) a b /\ forall c, In c (map at_ poly) -> side base a b c <= 0) \/
  (exists a b, is_side (map at_ poly) a b /\ forall c, In c (map at_ tri) -> side base a b c <= 0).
Proof.
  unfold is_triangle_intersects_poly. pose proof (tri_sides_spec P at_ o2 base O2 RB poly (circular_pairs tri) true) as T.
  destruct (tri_sides o2 base (circular_pairs tri) poly true) as [[]|]; [discriminate| |].
  - intros E. pose proof (poly_sides_spec P at_ o2 base O2 RB tri (circular_pairs poly)) as Q. rewrite E in Q.
    destruct Q as (a & b & H & H'). right. exists (at_ a), (at_ b). split.
    + apply pairs_spec, (in_pairs_map P at_). eauto.
    + intros c Hc. apply in_map_iff in Hc. destruct Hc as (c' & <- & Hc). auto.
  - intros _. destruct T as (a & b & H & H'). left. exists (at_ a), (at_ b). split.
    + apply pairs_spec, (in_pairs_map P at_). eauto.
    + intros c Hc. apply in_map_iff in Hc. destruct Hc as (c' & <- & Hc). auto.
Qed.

(** Overlapping interiors are always found. *)
Theorem C52_overlap tri poly x : tri <> [] -> poly <> [] -> inside base (map at_ tri) x -> inside base (map at_ poly) x ->
  is_triangle_intersects_poly o2 tri poly base = true.
Proof.
  intros N1 N2 I1 I2. destruct (is_triangle_intersects_poly o2 tri poly base) eqn:E; auto. exfalso.
  apply C52_false in E.
  assert (M1 : map at_ tri <> []) by (destruct tri; [congruence|discriminate]).
  assert (M2 : map at_ poly <> []) by (destruct poly; [congruence|discriminate]).
  destruct E as [(a & b & Hs & H)|(a & b & Hs & H)].
  - destruct (inside_corner base _ x (side_lin base a b) RB M2 I2) as (v & Hv & Q).
    + rewrite side_lin_spec. auto.
    + rewrite side_lin_spec in Q. specialize (H v Hv). lra.
  - destruct (inside_corner base _ x (side_lin base a b) RB M1 I1) as (v & Hv & Q).
    + rewrite side_lin_spec. auto.
    + rewrite side_lin_spec in Q. specialize (H v Hv). lra.
Qed.

(** For convex figures with interior points, nothing else is reported. *)
Theorem C52_exact a b c poly : let tri := map at_ [a; b; c] in
  (exists t, inside base tri t) -> convex base tri -> (exists p, inside base (map at_ poly) p) -> convex base (map at_ poly) -> poly <> [] ->
  is_triangle_intersects_poly o2 [a; b; c] poly base = true <-> exists x, inside base tri x /\ inside base (map at_ poly) x.
Proof.
  intros tri (t & It) Ct (p & Ip) Cp Np. split; [|intros (x & I1 & I2); apply (C52_overlap _ _ x); auto; discriminate].
  assert (Mp : map at_ poly <> []) by (destruct poly; [congruence|discriminate]).
  intros E.
  assert (H1 : forall u v, is_side tri u v -> exists w, In w (map at_ poly) /\ 0 < side base u v w).
  { intros u v Hs. unfold is_triangle_intersects_poly in E. pose proof (tri_sides_spec P at_ o2 base O2 RB poly (circular_pairs [a; b; c]) true) as T.
    destruct (tri_sides o2 base (circular_pairs [a; b; c]) poly true) as [r|]; [|discriminate].
    destruct T as (T & _). apply pairs_spec, (in_pairs_map P at_) in Hs. destruct Hs as (u' & v' & -> & -> & Hs).
    destruct (T u' v' Hs) as (w & Hw & Q). exists (at_ w). split; auto. now apply in_map. }
  assert (H2 : forall u v, is_side (map at_ poly) u v -> exists w, In w tri /\ 0 < side base u v w).
  { intros u v Hs. unfold is_triangle_intersects_poly in E. pose proof (tri_sides_spec P at_ o2 base O2 RB poly (circular_pairs [a; b; c]) true) as T.
    destruct (tri_sides o2 base (circular_pairs [a; b; c]) poly true) as [[]|]; [| |discriminate].
    - (* all corners of the polygon lie in the triangle *)
      destruct T as (_ & T). destruct (proj1 T eq_refl) as (_ & T').
      destruct (inside_corner base _ p (side_lin base u v) RB Mp Ip) as (w & Hw & Q); [rewrite side_lin_spec; auto|].
      rewrite side_lin_spec in Q.
      assert (Bw : forall x y, In (x, y) (circular_pairs [a; b; c]) -> 0 <= side base (at_ x) (at_ y) w).
      { apply in_map_iff in Hw. destruct Hw as (w' & <- & Hw). intros x y Hxy. apply T'; auto. }
      pose proof (Bw a b ltac:(cbn; auto)) as B1. pose proof (Bw b c ltac:(cbn; auto)) as B2. pose proof (Bw c a ltac:(cbn; auto)) as B3.
      set (A := at_ a) in *. set (Bp := at_ b) in *. set (C := at_ c) in *.
      assert (D : 0 < side base A Bp C).
      { pose proof (It A Bp) as I1. pose proof (It Bp C) as I2. pose proof (It C A) as I3.
        assert (0 < side base A Bp t) by (apply I1; exists 0%nat; auto). assert (0 < side base Bp C t) by (apply I2; exists 1%nat; auto).
        assert (0 < side base C A t) by (apply I3; exists 2%nat; auto).
        replace (side base A Bp C) with (side base A Bp t + side base Bp C t + side base C A t) by (unfold side, area2, orient2; ring). lra. }
      assert (Id : side base A Bp C * side base u v w = side base Bp C w * side base u v A + side base C A w * side base u v Bp + side base A Bp w * side base u v C).
      { unfold side, area2, orient2. ring. }
      assert (0 < side base A Bp C * side base u v w) by (apply Rmult_lt_0_compat; auto).
      destruct (Rlt_le_dec 0 (side base u v A)) as [G|G1]; [exists A; cbn; auto|].
      destruct (Rlt_le_dec 0 (side base u v Bp)) as [G|G2]; [exists Bp; cbn; auto|].
      destruct (Rlt_le_dec 0 (side base u v C)) as [G|G3]; [exists C; cbn; auto|]. exfalso.
      assert (M : forall x y, 0 <= x -> y <= 0 -> x * y <= 0) by (intros x y Hx Hy; replace (x * y) with (- (x * - y)) by ring; apply Ropp_le_cancel; rewrite Ropp_involutive, Ropp_0; apply Rmult_le_pos; lra).
      pose proof (M _ _ B2 G1). pose proof (M _ _ B3 G2). pose proof (M _ _ B1 G3). lra.
    - pose proof (poly_sides_spec P at_ o2 base O2 RB [a; b; c] (circular_pairs poly)) as Q. rewrite E in Q.
      apply pairs_spec, (in_pairs_map P at_) in Hs. destruct Hs as (u' & v' & -> & -> & Hs).
      destruct (Q u' v' Hs) as (w & Hw & Q'). exists (at_ w). split; auto. now apply in_map. }
  set (fs := map (fun s => side_lin base (fst s) (snd s)) (circular_pairs tri ++ circular_pairs (map at_ poly))).
  destruct (helly (length fs) fs (le_n _)) as (x & Hx).
  - assert (Cl : forall f, In f fs -> exists u v, f = side_lin base u v /\ (is_side tri u v \/ is_side (map at_ poly) u v)).
    { intros f Hf. unfold fs in Hf. apply in_map_iff in Hf. destruct Hf as ((u & v) & <- & Hf). exists u, v. split; auto.
      apply in_app_or in Hf. destruct Hf as [Hf|Hf]; apply pairs_spec in Hf; auto. }
    assert (T1 : forall u v, is_side (map at_ poly) u v -> exists y, 0 < side base u v y /\ inside base tri y).
    { intros u v Hs. destruct (H2 u v Hs) as (w & Hw & Q). rewrite <- side_lin_spec in Q.
      destruct (pull base tri t w _ It Ct Hw Q 1 ltac:(lra)) as (y & Y1 & Y2). rewrite side_lin_spec in Y1. eauto. }
    assert (T2 : forall u v, is_side tri u v -> exists y, 0 < side base u v y /\ inside base (map at_ poly) y).
    { intros u v Hs. destruct (H1 u v Hs) as (w & Hw & Q). rewrite <- side_lin_spec in Q.
      destruct (pull base (map at_ poly) p w _ Ip Cp Hw Q 1 ltac:(lra)) as (y & Y1 & Y2). rewrite side_lin_spec in Y1. eauto. }
    intros f g h Hf Hg Hh. destruct (Cl f Hf) as (u1 & v1 & -> & S1), (Cl g Hg) as (u2 & v2 & -> & S2), (Cl h Hh) as (u3 & v3 & -> & S3).
    setoid_rewrite side_lin_spec.
    destruct S1 as [S1|S1], S2 as [S2|S2], S3 as [S3|S3].
    + exists t. auto.
    + destruct (T1 _ _ S3) as (y & Y1 & Y2). exists y. auto.
    + destruct (T1 _ _ S2) as (y & Y1 & Y2). exists y. auto.
    + destruct (T2 _ _ S1) as (y & Y1 & Y2). exists y. auto.
    + destruct (T1 _ _ S1) as (y & Y1 & Y2). exists y. auto.
    + destruct (T2 _ _ S2) as (y & Y1 & Y2). exists y. auto.
    + destruct (T2 _ _ S3) as (y & Y1 & Y2). exists y. auto.
    + exists p. auto.
  - exists x. split; intros u v Hs; rewrite <- side_lin_spec; apply Hx; unfold fs; apply in_map_iff; exists (u, v); split; auto;
      apply in_or_app; [left|right]; now apply pairs_spec.
Qed.
End Claims.

(** A triangle and a square with a common corner region. *)
Example C52_case : let tri := [(0, 0); (4, 0); (0, 4)] in let sq := [(1, 1); (5, 1); (5, 5); (1, 5)] in
  (exists x, inside Positive tri x /\ inside Positive sq x) /\ convex Positive tri /\ convex Positive sq /\
  is_triangle_intersects_poly (fun a b c => ori_of (area2 a b c)) tri sq Positive = true.
Proof.
  intros tri sq.
  assert (S3 : forall a b, is_side tri a b -> In (a, b) [((0, 0), (4, 0)); ((4, 0), (0, 4)); ((0, 4), (0, 0))]) by (intros a b H; apply pairs_spec in H; exact H).
  assert (S4 : forall a b, is_side sq a b -> In (a, b) [((1, 1), (5, 1)); ((5, 1), (5, 5)); ((5, 5), (1, 5)); ((1, 5), (1, 1))]) by (intros a b H; apply pairs_spec in H; exact H).
  assert (I1 : inside Positive tri (5/4, 5/4)).
  { intros a b H. apply S3 in H. cbn [In] in H. destruct H as [H|[H|[H|[]]]]; inversion H; subst; unfold side, area2, orient2; cbn [fst snd sgn_of]; lra. }
  assert (I2 : inside Positive sq (5/4, 5/4)).
  { intros a b H. apply S4 in H. cbn [In] in H. destruct H as [H|[H|[H|[H|[]]]]]; inversion H; subst; unfold side, area2, orient2; cbn [fst snd sgn_of]; lra. }
  split; [eauto|]. split; [|split].
  - intros a b c H Hc. apply S3 in H. cbn [In tri] in H, Hc. destruct H as [H|[H|[H|[]]]]; inversion H; subst; destruct Hc as [<-|[<-|[<-|[]]]]; unfold side, area2, orient2; cbn [fst snd sgn_of]; lra.
  - intros a b c H Hc. apply S4 in H. cbn [In sq] in H, Hc. destruct H as [H|[H|[H|[H|[]]]]]; inversion H; subst; destruct Hc as [<-|[<-|[<-|[<-|[]]]]]; unfold side, area2, orient2; cbn [fst snd sgn_of]; lra.
  - apply (C52_overlap pt (fun x => x) _ Positive ltac:(reflexivity) ltac:(left; reflexivity) tri sq (5/4, 5/4)); try discriminate; rewrite map_id; auto.
Qed.
(** The polygon has to be wound like the triangle.  split_cell
    (bsp_complex.rs:364-373) tests every coplanar triangle against one polygon,
    each with its own orientation: of two triangles wound in opposite ways one
    is tested against the wrong winding, and lying strictly inside the polygon
    it is then reported as disjoint. *)
Theorem C52_winding_refuted : exists tri poly, let o := fun a b c => ori_of (area2 a b c) in
  convex Negative tri /\ convex Positive poly /\ (exists x, inside Negative tri x /\ inside Positive poly x) /\
  is_triangle_intersects_poly o tri poly Negative = false /\
  is_triangle_intersects_poly o (rev tri) poly Positive = true.
Proof.
  exists [(1, 1); (1, 2); (2, 1)], [(0, 0); (5, 0); (5, 5); (0, 5)]. cbn zeta.
  set (tri := [(1, 1); (1, 2); (2, 1)] : list pt). set (sq := [(0, 0); (5, 0); (5, 5); (0, 5)] : list pt).
  assert (S3 : forall a b, is_side tri a b -> In (a, b) [((1, 1), (1, 2)); ((1, 2), (2, 1)); ((2, 1), (1, 1))]) by (intros a b H; apply pairs_spec in H; exact H).
  assert (S3' : forall a b, is_side (rev tri) a b -> In (a, b) [((2, 1), (1, 2)); ((1, 2), (1, 1)); ((1, 1), (2, 1))]) by (intros a b H; apply pairs_spec in H; exact H).
  assert (S4 : forall a b, is_side sq a b -> In (a, b) [((0, 0), (5, 0)); ((5, 0), (5, 5)); ((5, 5), (0, 5)); ((0, 5), (0, 0))]) by (intros a b H; apply pairs_spec in H; exact H).
  assert (I1 : inside Negative tri (5/4, 5/4)).
  { intros a b H. apply S3 in H. cbn [In] in H. destruct H as [H|[H|[H|[]]]]; inversion H; subst; unfold side, area2, orient2; cbn [fst snd sgn_of]; lra. }
  assert (I1' : inside Positive (rev tri) (5/4, 5/4)).
  { intros a b H. apply S3' in H. cbn [In] in H. destruct H as [H|[H|[H|[]]]]; inversion H; subst; unfold side, area2, orient2; cbn [fst snd sgn_of]; lra. }
  assert (I2 : inside Positive sq (5/4, 5/4)).
  { intros a b H. apply S4 in H. cbn [In] in H. destruct H as [H|[H|[H|[H|[]]]]]; inversion H; subst; unfold side, area2, orient2; cbn [fst snd sgn_of]; lra. }
  split; [|split; [|split; [eauto|split]]].
  - intros a b c H Hc. apply S3 in H. cbn [In tri] in H, Hc. destruct H as [H|[H|[H|[]]]]; inversion H; subst; destruct Hc as [<-|[<-|[<-|[]]]]; unfold side, area2, orient2; cbn [fst snd sgn_of]; lra.
  - intros a b c H Hc. apply S4 in H. cbn [In sq] in H, Hc. destruct H as [H|[H|[H|[H|[]]]]]; inversion H; subst; destruct Hc as [<-|[<-|[<-|[<-|[]]]]]; unfold side, area2, orient2; cbn [fst snd sgn_of]; lra.
  - set (o := fun a b c : pt => ori_of (area2 a b c)). change (@is_triangle_intersects_poly pt o tri sq Negative = false).
    pose proof (tri_sides_spec pt (fun x => x) o Negative ltac:(reflexivity) ltac:(right; reflexivity) sq (circular_pairs tri) true) as T.
    change (match @tri_sides pt o Negative (@circular_pairs pt tri) sq true with None => false | Some true => true
            | Some false => @poly_sides pt o Negative (@circular_pairs pt sq) tri end = false).
    destruct (tri_sides o Negative (circular_pairs tri) sq true) as [r|]; [|reflexivity].
    destruct T as (_ & T). destruct r.
    + exfalso. destruct (proj1 T eq_refl) as (_ & T'). specialize (T' (1, 1) (1, 2) (0, 0)). cbn in T'.
      specialize (T' ltac:(auto) ltac:(auto)). unfold side, area2, orient2 in T'. cbn [fst snd sgn_of] in T'. lra.
    + pose proof (poly_sides_spec pt (fun x => x) o Negative ltac:(reflexivity) ltac:(right; reflexivity) tri (circular_pairs sq)) as Q.
      destruct (poly_sides o Negative (circular_pairs sq) tri); [exfalso|reflexivity].
      destruct (Q (0, 0) (5, 0)) as (c & Hc & P); [cbn; auto|]. cbn [In tri] in Hc. destruct Hc as [<-|[<-|[<-|[]]]]; unfold side, area2, orient2 in P; cbn [fst snd sgn_of] in P; lra.
  - apply (C52_overlap pt (fun x => x) _ Positive ltac:(reflexivity) ltac:(left; reflexivity) (rev tri) sq (5/4, 5/4)); try discriminate; rewrite map_id; auto.
Qed.
Print Assumptions C52_false.
Print Assumptions C52_overlap.
Print Assumptions C52_exact.
Print Assumptions C52_winding_refuted.
