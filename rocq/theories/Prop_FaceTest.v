(** C78: the tests that tell which faces lie on which triangles.

    [side], [inside], [convex], [is_side] are those of Prop_Poly.v: a polygon is
    convex if all its corners are weakly inside of the line of each of its sides,
    and a point is inside if it is strictly inside of all these lines. *)
From Coq Require Import Reals Lra Psatz List Arith Bool Lia.
From Verif Require Import Lib Geo Dispatch Orient PointTests Prop_PointTests Poly Prop_Dispatch Prop_Poly FaceTest.
Import ListNotations.
Local Open Scope R_scope.

(** In the closed polygon. *)
Definition within (base : Orientation) (l : list pt) (x : pt) : Prop := forall a b, is_side l a b -> 0 <= side base a b x.
(** Convex, with corners off the line of every side. *)
Definition proper (base : Orientation) (l : list pt) : Prop :=
  convex base l /\ forall a b, is_side l a b -> exists c, In c l /\ 0 < side base a b c.
(** The interiors have a point in common. *)
Definition overlap (b1 : Orientation) (l1 : list pt) (b2 : Orientation) (l2 : list pt) : Prop :=
  exists x, inside b1 l1 x /\ inside b2 l2 x.

(** * Mixing points *)
Definition mix (t : R) (p q : pt) : pt := ((1 - t) * fst p + t * fst q, (1 - t) * snd p + t * snd q).
Lemma mix_lin f t p q : lin f (mix t p q) = (1 - t) * lin f p + t * lin f q.
Proof. destruct f as ((a, b), c). cbn. ring. Qed.
Lemma mix_side base a b t p q : side base a b (mix t p q) = (1 - t) * side base a b p + t * side base a b q.
Proof. now rewrite <- !side_lin_spec, mix_lin. Qed.

(** The sides as linear forms. *)
Definition forms (base : Orientation) (l : list pt) : list (R * R * R) :=
  map (fun s => side_lin base (fst s) (snd s)) (circular_pairs l).
Lemma forms_spec base l f : In f (forms base l) <-> exists a b, is_side l a b /\ f = side_lin base a b.
Proof.
  unfold forms. rewrite in_map_iff. split.
  - intros ((a & b) & <- & H). exists a, b. split; auto. now apply pairs_spec.
  - intros (a & b & H & ->). exists (a, b). split; auto. now apply pairs_spec.
Qed.
Lemma inside_forms base l x : inside base l x <-> forall f, In f (forms base l) -> 0 < lin f x.
Proof.
  split.
  - intros H f Hf. apply forms_spec in Hf. destruct Hf as (a & b & Hs & ->). rewrite side_lin_spec. auto.
  - intros H a b Hs. rewrite <- side_lin_spec. apply H, forms_spec. eauto.
Qed.

(** Moving a little keeps the strict inequalities. *)
Lemma small fs p q : (forall f, In f fs -> 0 < lin f p \/ (lin f p = 0 /\ 0 < lin f q)) ->
  exists e, 0 < e < 1 /\ forall t, 0 < t <= e -> forall f, In f fs -> 0 < lin f (mix t p q).
Proof.
  induction fs as [|f fs IH]; intros H.
  - exists (1 / 2). split; [lra|]. intros t _ f [].
  - destruct IH as (e & He & IH); [intros; apply H; now right|].
    destruct (H f (or_introl eq_refl)) as [Hp|(Hp & Hq)].
    + destruct (Rle_lt_dec 0 (lin f q)) as [Q|Q].
      * exists e. split; auto. intros t Ht g [<-|Hg]; [|auto]. rewrite mix_lin.
        assert (0 < (1 - t) * lin f p) by (apply Rmult_lt_0_compat; lra).
        assert (0 <= t * lin f q) by (apply Rmult_le_pos; lra). lra.
      * set (p' := lin f p) in *. set (q' := lin f q) in *.
        set (d := p' / (2 * (p' - q'))).
        assert (Dp : 0 < d) by (apply Rmult_lt_0_compat; [lra|apply Rinv_0_lt_compat; lra]).
        assert (De : d * (p' - q') = p' / 2) by (unfold d; field; lra).
        exists (Rmin e d). split; [unfold Rmin; destruct (Rle_dec e d); lra|].
        intros t Ht g [<-|Hg].
        -- rewrite mix_lin. fold p' q'. assert (t <= d) by (pose proof (Rmin_r e d); lra).
           assert (t * (p' - q') <= d * (p' - q')) by (apply Rmult_le_compat_r; lra).
           replace ((1 - t) * p' + t * q') with (p' - t * (p' - q')) by ring. lra.
        -- apply IH; auto. pose proof (Rmin_l e d). lra.
    + exists e. split; auto. intros t Ht g [<-|Hg]; [|auto]. rewrite mix_lin, Hp.
      assert (0 < t * lin f q) by (apply Rmult_lt_0_compat; lra). lra.
Qed.

Lemma mix_within base l t p q : 0 <= t <= 1 -> within base l p -> within base l q -> within base l (mix t p q).
Proof.
  intros Ht Hp Hq a b Hs. rewrite mix_side. specialize (Hp a b Hs). specialize (Hq a b Hs).
  assert (0 <= (1 - t) * side base a b p) by (apply Rmult_le_pos; lra).
  assert (0 <= t * side base a b q) by (apply Rmult_le_pos; lra). lra.
Qed.
Lemma mix_inside base l t p q : 0 < t <= 1 -> within base l p -> inside base l q -> inside base l (mix t p q).
Proof.
  intros Ht Hp Hq a b Hs. rewrite mix_side. specialize (Hp a b Hs). specialize (Hq a b Hs).
  assert (0 <= (1 - t) * side base a b p) by (apply Rmult_le_pos; lra).
  assert (0 < t * side base a b q) by (apply Rmult_lt_0_compat; lra). lra.
Qed.

(** Two points of the closed polygon l1, the first in the closed polygon l2 and the
    second strictly inside of the sides of l2 the first is on. *)
Lemma touch b1 l1 b2 l2 m x a : inside b1 l1 m -> within b1 l1 x -> within b1 l1 a ->
  (forall u v, is_side l2 u v -> 0 < side b2 u v x \/ (side b2 u v x = 0 /\ 0 < side b2 u v a)) -> overlap b1 l1 b2 l2.
Proof.
  intros Hm Hx Ha H.
  destruct (small (forms b2 l2) x a) as (e & He & S1).
  { intros f Hf. apply forms_spec in Hf. destruct Hf as (u & v & Hs & ->). rewrite !side_lin_spec. auto. }
  set (y := mix e x a). assert (Hy : inside b2 l2 y) by (apply inside_forms; apply S1; lra).
  assert (Wy : within b1 l1 y) by (apply mix_within; auto; lra).
  destruct (small (forms b2 l2) y m) as (e' & He' & S2).
  { intros f Hf. left. revert f Hf. now apply inside_forms. }
  exists (mix e' y m). split; [apply mix_inside; auto; lra|]. apply inside_forms, S2. lra.
Qed.

(** * The mean of the corners *)
Lemma center_coord_sum (l : list R) : l <> [] -> center_coord l = fold_right Rplus 0 l / INR (length l).
Proof.
  intros Ne. unfold center_coord. assert (N : INR (length l) <> 0) by (apply not_0_INR; destruct l; [congruence|cbn; lia]).
  set (n := INR (length l)) in *. clearbody n. clear Ne.
  assert (G : forall s, fold_left (fun s x => s + x / n) l s = s + fold_right Rplus 0 l / n).
  { induction l as [|x l IH]; intros s; cbn [fold_left fold_right]; [unfold Rdiv; ring|]. rewrite IH. unfold Rdiv. ring. }
  rewrite G. ring.
Qed.
Definition mean (l : list pt) : pt := (center_coord (map fst l), center_coord (map snd l)).
Lemma mean_lin f l : l <> [] -> lin f (mean l) * INR (length l) = fold_right Rplus 0 (map (lin f) l).
Proof.
  intros Ne. assert (N : INR (length l) <> 0) by (apply not_0_INR; destruct l; [congruence|cbn; lia]).
  unfold mean. rewrite !center_coord_sum by (destruct l; [congruence|discriminate]). rewrite !map_length.
  destruct f as ((a, b), c). cbn [lin fst snd].
  assert (G : fold_right Rplus 0 (map (fun x : pt => a * fst x + b * snd x + c) l) =
    a * fold_right Rplus 0 (map fst l) + b * fold_right Rplus 0 (map snd l) + c * INR (length l)).
  { clear. induction l as [|x l IH]; [cbn; ring|]. cbn [map fold_right length]. rewrite S_INR, IH. ring. }
  change (map (lin (a, b, c)) l) with (map (fun x : pt => a * fst x + b * snd x + c) l). rewrite G. unfold pt in *. field. auto.
Qed.
Lemma sum_pos {A} (f : A -> R) l : (forall x, In x l -> 0 <= f x) -> 0 <= fold_right Rplus 0 (map f l) /\
  ((exists x, In x l /\ 0 < f x) -> 0 < fold_right Rplus 0 (map f l)).
Proof.
  induction l as [|x l IH]; intros H; cbn [map fold_right].
  - split; [lra|]. intros (x & [] & _).
  - destruct IH as (I1 & I2); [intros; apply H; now right|]. pose proof (H x (or_introl eq_refl)).
    split; [lra|]. intros (y & [<-|Hy] & Hp); [lra|]. assert (0 < fold_right Rplus 0 (map f l)) by (apply I2; eauto). lra.
Qed.
Lemma mean_inside base l : proper base l -> l <> [] -> inside base l (mean l).
Proof.
  intros (C & E) Ne a b Hs. rewrite <- side_lin_spec.
  destruct (sum_pos (lin (side_lin base a b)) l) as (_ & Q).
  { intros x Hx. rewrite side_lin_spec. now apply C. }
  rewrite <- mean_lin in Q by auto.
  assert (N : 0 < INR (length l)) by (apply lt_0_INR; destruct l; [congruence|cbn; lia]).
  apply Rmult_lt_reg_r with (INR (length l)); auto. rewrite Rmult_0_l. apply Q.
  destruct (E a b Hs) as (c & Hc & Hp). exists c. split; auto. now rewrite side_lin_spec.
Qed.
Lemma mean_within base l l' : (forall v, In v l' -> within base l v) -> l' <> [] -> within base l (mean l').
Proof.
  intros H Ne a b Hs. rewrite <- side_lin_spec.
  destruct (sum_pos (lin (side_lin base a b)) l') as (Q & _).
  { intros x Hx. rewrite side_lin_spec. now apply H. }
  rewrite <- mean_lin in Q by auto.
  assert (N : 0 < INR (length l')) by (apply lt_0_INR; destruct l'; [congruence|cbn; lia]).
  apply Rmult_le_reg_r with (INR (length l')); auto. now rewrite Rmult_0_l.
Qed.
Lemma proj_center axis l : proj axis (face_center l) = mean (map (proj axis) l).
Proof. unfold face_center, mean. rewrite !map_map. destruct axis as [|[|]]; reflexivity. Qed.

(** * Triangles *)
Lemma tri_sides_are (a b c : pt) u v : is_side [a; b; c] u v <-> (u = a /\ v = b) \/ (u = b /\ v = c) \/ (u = c /\ v = a).
Proof.
  rewrite <- pairs_spec. cbn. intuition (try congruence); subst; auto.
  all: match goal with H : (_, _) = (_, _) |- _ => injection H as <- <-; auto end.
Qed.
Lemma tri_rot base a b c : side base b c a = side base a b c /\ side base c a b = side base a b c.
Proof. unfold side, area2, orient2. split; ring. Qed.
Lemma side_end base a b : side base a b a = 0 /\ side base a b b = 0.
Proof. unfold side, area2, orient2. split; ring. Qed.
Lemma tri_sum base a b c x : side base a b x + side base b c x + side base c a x = side base a b c.
Proof. unfold side, area2, orient2. ring. Qed.
Lemma tri_proper base a b c : 0 < side base a b c -> proper base [a; b; c].
Proof.
  intros H. destruct (tri_rot base a b c) as (R1 & R2). split.
  - intros u v x Hs Hx. apply tri_sides_are in Hs. cbn in Hx.
    destruct (side_end base a b), (side_end base b c), (side_end base c a).
    destruct Hs as [(-> & ->) | [(-> & ->)|(-> & ->)]], Hx as [<-|[<-|[<-|[]]]]; lra.
  - intros u v Hs. apply tri_sides_are in Hs. destruct Hs as [(-> & ->) | [(-> & ->)|(-> & ->)]]; [exists c|exists a|exists b]; cbn; split; auto; lra.
Qed.

(** * The loops *)
Section Claims.
Variable (axis : nat) (o : vec3 -> vec3 -> vec3 -> Orientation).
Hypothesis O2 : forall a b c, o a b c = ori_of (o2 axis a b c).
Let at_ := proj axis.
Let ats := map (proj axis).
Lemma O2' a b c : o a b c = ori_of (area2 (at_ a) (at_ b) (at_ c)).
Proof. exact (O2 a b c). Qed.
Lemma o_base base a b c : right_base base -> (o a b c = Zero <-> side base (at_ a) (at_ b) (at_ c) = 0) /\ (o a b c = base <-> 0 < side base (at_ a) (at_ b) (at_ c)).
Proof. intros RB. rewrite O2'. apply ori_side. exact RB. Qed.
Lemma o_cases a b c : o a b c = Zero \/ o a b c = Positive \/ o a b c = Negative.
Proof. rewrite O2'. destruct (ori_cases (area2 (at_ a) (at_ b) (at_ c))) as [(_ & ->) | [(_ & ->)|(_ & ->)]]; auto. Qed.

Lemma in_face_loop_base c base : right_base base -> forall l,
  in_face_loop o c base l = true <-> forall a b, In (a, b) l -> o a b c = base.
Proof.
  intros RB. induction l as [|(a, b) l IH]; cbn [in_face_loop]; [split; [intros _ a b []|auto]|].
  destruct (ori_eqb_spec (o a b c) Zero) as [Z|Z].
  - split; [discriminate|]. intros H. rewrite (H a b (or_introl eq_refl)) in Z. destruct RB; congruence.
  - destruct (ori_eqb_spec base Undefined) as [U|U]; [destruct RB; congruence|].
    destruct (ori_eqb_spec base (o a b c)) as [B|B]; cbn [negb].
    + rewrite IH. split; intros H a' b'.
      * intros [E|E]; [injection E as <- <-; auto|auto].
      * intros E. apply H. now right.
    + split; [discriminate|]. intros H. rewrite (H a b (or_introl eq_refl)) in B. congruence.
Qed.
Lemma in_pairs_at (l : list vec3) : forall base c, right_base base ->
  (forall a b, In (a, b) (circular_pairs l) -> o a b c = base) <-> inside base (ats l) (at_ c).
Proof.
  intros base c RB. split.
  - intros H a b Hs. apply pairs_spec, (in_pairs_map vec3 (proj axis)) in Hs. destruct Hs as (a' & b' & -> & -> & Hs).
    apply (o_base base a' b' c RB). auto.
  - intros H a b Hs. apply (o_base base a b c RB). apply H, pairs_spec, (in_pairs_map vec3 (proj axis)). eauto.
Qed.

(** The first test accepts exactly the points strictly inside of all sides. *)
Theorem C78_in_face face c : face <> [] ->
  point_in_face o face c = true <-> exists base, right_base base /\ inside base (ats face) (at_ c).
Proof.
  intros Ne. unfold point_in_face. destruct face as [|p face]; [congruence|].
  assert (Hd : exists q t, circular_pairs (p :: face) = (p, q) :: t) by (destruct face; cbn; eauto).
  destruct Hd as (q & t & Ep). pose proof (in_pairs_at (p :: face)) as IP. rewrite Ep in *. cbn [in_face_loop].
  destruct (ori_eqb_spec (o p q c) Zero) as [Z|Z].
  - split; [discriminate|]. intros (base & RB & H). apply (IP base c RB) with (a := p) (b := q) in H; [|now left].
    destruct RB; congruence.
  - cbn [ori_eqb]. assert (RB : right_base (o p q c)) by (destruct (o_cases p q c) as [|[|]]; [congruence|now left|now right]).
    replace (ori_eqb Undefined Undefined) with true by reflexivity.
    rewrite (in_face_loop_base c _ RB t). split.
    + intros H. exists (o p q c). split; auto. apply IP; auto. intros a b [E|E]; [injection E as <- <-; auto|auto].
    + intros (base & RB' & H) a b Hs. pose proof (proj2 (IP base c RB') H) as H'.
      rewrite (H' p q (or_introl eq_refl)). apply H'. now right.
Qed.

(** The mean of the corners of a proper convex face passes it. *)
Theorem C78_center base face : right_base base -> proper base (ats face) -> face <> [] ->
  inside base (ats face) (at_ (face_center face)) /\ point_in_face o face (face_center face) = true.
Proof.
  intros RB Pr Ne.
  assert (I : inside base (ats face) (at_ (face_center face))).
  { unfold at_. rewrite proj_center. apply mean_inside; auto. unfold ats. destruct face; [congruence|discriminate]. }
  split; auto. apply C78_in_face; auto. eauto.
Qed.

(** The second test accepts exactly the points of the closed triangle. *)
Lemma vert_in_tri_spec l : (forall x, In x l -> x = Zero \/ x = Positive \/ x = Negative) ->
  vert_in_tri l = true <-> ~ (In Positive l /\ In Negative l).
Proof.
  assert (G : forall b l, right_base b -> (forall x, In x l -> x = Zero \/ x = Positive \/ x = Negative) ->
    vert_in_tri_loop b l = true <-> ~ In (match b with Positive => Negative | _ => Positive end) l).
  { clear. intros b l RB. induction l as [|x l IH]; intros H; cbn [vert_in_tri_loop]; [cbn; tauto|].
    assert (IH' := IH (fun y Hy => H y (or_intror Hy))). clear IH.
    destruct (H x (or_introl eq_refl)) as [-> | [-> | ->]]; destruct RB as [-> | ->]; cbn [ori_eqb negb In] in *;
      rewrite ?IH'; cbn; intuition congruence. }
  unfold vert_in_tri. induction l as [|x l IH]; intros H; cbn [vert_in_tri_loop]; [cbn; tauto|].
  assert (IH' := IH (fun y Hy => H y (or_intror Hy))). clear IH.
  destruct (H x (or_introl eq_refl)) as [-> | [-> | ->]]; cbn [ori_eqb].
  - rewrite IH'. cbn. intuition congruence.
  - replace (ori_eqb Undefined Undefined) with true by reflexivity.
    rewrite (G Positive l (or_introl eq_refl)) by (intros; apply H; now right). cbn. intuition congruence.
  - replace (ori_eqb Undefined Undefined) with true by reflexivity.
    rewrite (G Negative l (or_intror eq_refl)) by (intros; apply H; now right). cbn. intuition congruence.
Qed.
Theorem C78_in_tri base a b c x : right_base base -> 0 < side base (at_ a) (at_ b) (at_ c) ->
  vert_in_tri [o a b x; o b c x; o c a x] = true <-> within base (ats [a; b; c]) (at_ x).
Proof.
  intros RB Nd. rewrite vert_in_tri_spec.
  2:{ intros y [<-|[<-|[<-|[]]]]; apply o_cases. }
  pose proof (tri_sum base (at_ a) (at_ b) (at_ c) (at_ x)) as Sm.
  set (s1 := side base (at_ a) (at_ b) (at_ x)) in *. set (s2 := side base (at_ b) (at_ c) (at_ x)) in *.
  set (s3 := side base (at_ c) (at_ a) (at_ x)) in *.
  assert (W : within base (ats [a; b; c]) (at_ x) <-> 0 <= s1 /\ 0 <= s2 /\ 0 <= s3).
  { unfold within. cbn [ats map]. split.
    - intros H. repeat split; apply H; apply tri_sides_are; auto.
    - intros (H1 & H2 & H3) u v Hs. apply tri_sides_are in Hs. destruct Hs as [(-> & ->) | [(-> & ->)|(-> & ->)]]; auto. }
  rewrite W. clear W.
  assert (K : forall u v w s, s = side base (at_ u) (at_ v) (at_ w) ->
     (0 < s /\ o u v w = base) \/ (s = 0 /\ o u v w = Zero) \/ (s < 0 /\ o u v w = sign_reverse base)).
  { intros u v w s ->. destruct (o_base base u v w RB) as (B1 & B2). destruct (Rtotal_order (side base (at_ u) (at_ v) (at_ w)) 0) as [L|[E|G]].
    - right. right. split; auto. destruct (o_cases u v w) as [E|[E|E]]; rewrite E in *; destruct RB as [-> | ->]; cbn; auto; exfalso.
      all: try (assert (side Positive (at_ u) (at_ v) (at_ w) = 0) by (apply B1; auto); lra).
      all: try (assert (side Negative (at_ u) (at_ v) (at_ w) = 0) by (apply B1; auto); lra).
      all: try (assert (0 < side Positive (at_ u) (at_ v) (at_ w)) by (apply B2; auto); lra).
      all: try (assert (0 < side Negative (at_ u) (at_ v) (at_ w)) by (apply B2; auto); lra).
    - right. left. split; auto. now apply B1.
    - left. split; auto. now apply B2. }
  destruct (K a b x s1 eq_refl) as [(? & ->) | [(? & ->)|(? & ->)]], (K b c x s2 eq_refl) as [(? & ->) | [(? & ->)|(? & ->)]],
    (K c a x s3 eq_refl) as [(? & ->) | [(? & ->)|(? & ->)]]; destruct RB as [-> | ->]; cbn;
    try lra; split; intros; try tauto; try lra; try (exfalso; intuition lra); try (intuition discriminate); intuition lra.
Qed.

Lemma corner_within base l v : convex base l -> In v l -> within base l v.
Proof. intros C Hv a b Hs. now apply C. Qed.

(** The answer at the mean: a face in the triangle is accepted, and a face is
    accepted only if it overlaps the triangle. *)
Theorem C78_hits base face bt a b c : right_base base -> proper base (ats face) -> face <> [] ->
  right_base bt -> 0 < side bt (at_ a) (at_ b) (at_ c) ->
  ((forall v, In v (ats face) -> within bt (ats [a; b; c]) v) -> face_hits o face (face_center face) a b c = true) /\
  (face_hits o face (face_center face) a b c = true -> overlap base (ats face) bt (ats [a; b; c])).
Proof.
  intros RB Pr Ne RT Nd. destruct (C78_center base face RB Pr Ne) as (I & E). unfold face_hits. rewrite E.
  rewrite (C78_in_tri bt a b c (face_center face) RT Nd). split.
  - intros H. unfold at_. rewrite proj_center. apply mean_within; auto. unfold ats. destruct face; [congruence|discriminate].
  - intros W. destruct (small (forms base (ats face)) (at_ (face_center face)) (mean (ats [a; b; c]))) as (e & He & S1).
    { intros f Hf. left. revert f Hf. now apply inside_forms. }
    exists (mix e (at_ (face_center face)) (mean (ats [a; b; c]))). split.
    + apply inside_forms, S1. lra.
    + apply mix_inside; auto; [lra|]. apply mean_inside; [apply tri_proper; exact Nd|discriminate].
Qed.

(** After the splitting a face lies in a triangle or does not overlap it: then the
    answer is exact. *)
Theorem C78_exact base face bt a b c : right_base base -> proper base (ats face) -> face <> [] ->
  right_base bt -> 0 < side bt (at_ a) (at_ b) (at_ c) ->
  ((forall v, In v (ats face) -> within bt (ats [a; b; c]) v) \/ ~ overlap base (ats face) bt (ats [a; b; c])) ->
  face_hits o face (face_center face) a b c = true <-> (forall v, In v (ats face) -> within bt (ats [a; b; c]) v).
Proof.
  intros RB Pr Ne RT Nd D. destruct (C78_hits base face bt a b c RB Pr Ne RT Nd) as (H1 & H2). tauto.
Qed.

(** * The fallback *)
Lemma all_first_spec l : all_first l = true <-> exists x, forall y, In y l -> y = x.
Proof.
  destruct l as [|x l]; [cbn; split; [intros _; exists Zero; intros y []|auto]|].
  unfold all_first. rewrite forallb_forall. split.
  - intros H. exists x. intros y Hy. apply H in Hy. destruct (ori_eqb_spec y x); congruence.
  - intros (z & H) y Hy. destruct (ori_eqb_spec y x) as [|N]; auto. rewrite (H y Hy), (H x (or_introl eq_refl)) in N. congruence.
Qed.
Lemma vert_rows_none tri : forall l, vert_rows o tri l = None <-> exists p, In p l /\ all_first (tri_row o tri p) = true.
Proof.
  induction l as [|p l IH]; cbn [vert_rows]; [split; [discriminate|intros (p & [] & _)]|].
  destruct (all_first (tri_row o tri p)) eqn:E; [split; [intros _; exists p; cbn; auto|auto]|].
  destruct (vert_rows o tri l).
  - split; [discriminate|]. intros (q & [<-|Hq] & H); [congruence|]. assert (Some l0 = None) by (apply IH; eauto). discriminate.
  - split; auto. intros _. destruct (proj1 IH eq_refl) as (q & Hq & H). exists q. cbn. auto.
Qed.
Lemma vert_rows_some tri : forall l r, vert_rows o tri l = Some r -> r = map (fun p => (p, tri_row o tri p)) l.
Proof.
  induction l as [|p l IH]; intros r; cbn [vert_rows]; [injection 1 as <-; auto|].
  destruct (all_first (tri_row o tri p)); [discriminate|]. destruct (vert_rows o tri l); [|discriminate].
  injection 1 as <-. cbn. now rewrite <- (IH l0).
Qed.
Lemma pairs_map {A B} (f : A -> B) (l : list A) : circular_pairs (map f l) = map (fun p => (f (fst p), f (snd p))) (circular_pairs l).
Proof.
  destruct l as [|x l]; [reflexivity|]. unfold circular_pairs. cbn [map].
  change (f x :: map f l) with (map f (x :: l)). generalize (x :: l). clear. intros l.
  induction l as [|y l IH]; [reflexivity|]. destruct l as [|z l]; [reflexivity|]. cbn [map windows fst snd] in *. now rewrite IH.
Qed.
Lemma cross_loop_spec pa pb : forall sides, cross_loop o pa pb sides (map (fun s => o (fst s) (snd s) pa) sides) (map (fun s => o (fst s) (snd s) pb) sides) = true ->
  exists c d, In (c, d) sides /\ sign_reversed (o c d pa) (o c d pb) = true /\ sign_reversed (o pa pb c) (o pa pb d) = true.
Proof.
  induction sides as [|(c, d) l IH]; cbn [map cross_loop fst snd]; [discriminate|].
  destruct (sign_reversed (o c d pa) (o c d pb) && sign_reversed (o pa pb c) (o pa pb d)) eqn:E.
  - intros _. apply andb_true_iff in E. exists c, d. cbn. tauto.
  - intros H. destruct (IH H) as (c' & d' & Hs & H'). exists c', d'. cbn. tauto.
Qed.
Lemma reversed_prod a b c a' b' c' : sign_reversed (o a b c) (o a' b' c') = true ->
  area2 (at_ a) (at_ b) (at_ c) * area2 (at_ a') (at_ b') (at_ c') < 0.
Proof.
  rewrite !O2'. destruct (ori_cases (area2 (at_ a) (at_ b) (at_ c))) as [(S1 & ->) | [(S1 & ->)|(S1 & ->)]],
    (ori_cases (area2 (at_ a') (at_ b') (at_ c'))) as [(S2 & ->) | [(S2 & ->)|(S2 & ->)]]; cbn; try discriminate; intros _; nra.
Qed.
Lemma fraction u v : u * v < 0 -> 0 < u / (u - v) < 1.
Proof.
  intros H. destruct (Rtotal_order u 0) as [L|[-> | G]]; [|lra|].
  - assert (0 < v) by nra. assert (E : u / (u - v) = (- u) * / (v - u)) by (field; lra). rewrite E.
    assert (0 < / (v - u)) by (apply Rinv_0_lt_compat; lra). split; [apply Rmult_lt_0_compat; lra|].
    apply Rmult_lt_reg_r with (v - u); [lra|]. rewrite Rmult_assoc, Rinv_l by lra. lra.
  - assert (v < 0) by nra. assert (0 < / (u - v)) by (apply Rinv_0_lt_compat; lra). unfold Rdiv. split; [apply Rmult_lt_0_compat; lra|].
    apply Rmult_lt_reg_r with (u - v); [lra|]. rewrite Rmult_assoc, Rinv_l by lra. lra.
Qed.
(** Two segments that cross have a common inner point. *)
Lemma crossing (a b c d : pt) : area2 c d a * area2 c d b < 0 -> area2 a b c * area2 a b d < 0 ->
  exists t s, 0 < t < 1 /\ 0 < s < 1 /\ mix t a b = mix s c d.
Proof.
  intros H1 H2. exists (area2 c d a / (area2 c d a - area2 c d b)), (area2 a b c / (area2 a b c - area2 a b d)).
  split; [now apply fraction|]. split; [now apply fraction|].
  assert (D1 : area2 c d a - area2 c d b <> 0) by nra.
  assert (D2 : area2 a b c - area2 a b d = - (area2 c d a - area2 c d b)) by (unfold area2, orient2; ring).
  rewrite D2. set (D := area2 c d a - area2 c d b) in *.
  unfold mix. f_equal; (apply Rmult_eq_reg_r with D; [|auto]);
    replace (area2 a b c / - D) with (- (area2 a b c) / D) by (field; auto).
  - replace (((1 - area2 c d a / D) * fst a + area2 c d a / D * fst b) * D) with ((D - area2 c d a) * fst a + area2 c d a * fst b) by (field; auto).
    replace (((1 - - area2 a b c / D) * fst c + - area2 a b c / D * fst d) * D) with ((D + area2 a b c) * fst c - area2 a b c * fst d) by (field; auto).
    unfold D, area2, orient2. ring.
  - replace (((1 - area2 c d a / D) * snd a + area2 c d a / D * snd b) * D) with ((D - area2 c d a) * snd a + area2 c d a * snd b) by (field; auto).
    replace (((1 - - area2 a b c / D) * snd c + - area2 a b c / D * snd d) * D) with ((D + area2 a b c) * snd c - area2 a b c * snd d) by (field; auto).
    unfold D, area2, orient2. ring.
Qed.

(** What it looks for: a corner strictly inside the triangle or two sides that cross
    at an inner point of both. *)
Definition crosses (a b c d : pt) : Prop :=
  area2 c d a <> 0 /\ exists t s, 0 < t < 1 /\ 0 < s < 1 /\ mix t a b = mix s c d.
Lemma crosses_signs a b c d : crosses a b c d <-> area2 c d a * area2 c d b < 0 /\ area2 a b c * area2 a b d < 0.
Proof.
  split.
  - intros (Nz & t & s & Ht & Hs & E).
    assert (L : forall u v w z r, area2 u v (mix r w z) = (1 - r) * area2 u v w + r * area2 u v z) by (intros; unfold mix, area2, orient2; cbn; ring).
    assert (E1 : (1 - t) * area2 c d a + t * area2 c d b = 0) by (rewrite <- L, E; unfold mix, area2, orient2; cbn; ring).
    assert (E2 : (1 - s) * area2 a b c + s * area2 a b d = 0) by (rewrite <- L, <- E; unfold mix, area2, orient2; cbn; ring).
    assert (I : area2 c d a - area2 c d b = area2 a b d - area2 a b c) by (unfold area2, orient2; ring).
    set (x := area2 c d a) in *. set (y := area2 c d b) in *. set (z := area2 a b c) in *. set (w := area2 a b d) in *. clearbody x y z w.
    assert (P : forall r u v, 0 < r < 1 -> u <> 0 -> (1 - r) * u + r * v = 0 -> u * v < 0).
    { clear. intros r u v Hr Hu H. assert (Hv : r * (u * v) = - ((1 - r) * (u * u))) by nra.
      assert (0 < u * u) by (destruct (Rtotal_order u 0) as [|[|]]; nra). assert (0 < (1 - r) * (u * u)) by (apply Rmult_lt_0_compat; lra).
      destruct (Rlt_le_dec (u * v) 0) as [|G]; auto. assert (0 <= r * (u * v)) by (apply Rmult_le_pos; lra). lra. }
    split; [apply (P t); auto|]. apply (P s); auto. intros ->. assert (w = 0) by nra. subst w. assert (x = y) by lra. subst y. nra.
  - intros (H1 & H2). split; [nra|]. now apply crossing.
Qed.
Lemma cross_loop_complete pa pb c d : forall sides, In (c, d) sides -> sign_reversed (o c d pa) (o c d pb) = true -> sign_reversed (o pa pb c) (o pa pb d) = true ->
  cross_loop o pa pb sides (map (fun s => o (fst s) (snd s) pa) sides) (map (fun s => o (fst s) (snd s) pb) sides) = true.
Proof.
  induction sides as [|(c', d') l IH]; intros Hs S1 S2; [destruct Hs|]. cbn [map cross_loop fst snd].
  destruct Hs as [E|Hs]; [injection E as -> ->; now rewrite S1, S2|]. destruct (_ && _); auto.
Qed.
Lemma prod_reversed a b c a' b' c' : area2 (at_ a) (at_ b) (at_ c) * area2 (at_ a') (at_ b') (at_ c') < 0 -> sign_reversed (o a b c) (o a' b' c') = true.
Proof.
  rewrite !O2'. destruct (ori_cases (area2 (at_ a) (at_ b) (at_ c))) as [(S1 & ->)|[(S1 & ->)|(S1 & ->)]],
    (ori_cases (area2 (at_ a') (at_ b') (at_ c'))) as [(S2 & ->)|[(S2 & ->)|(S2 & ->)]]; cbn; auto; intros; nra.
Qed.
Lemma row_inside bt a b c p : right_base bt -> 0 < side bt (at_ a) (at_ b) (at_ c) ->
  all_first (tri_row o [a; b; c] p) = true <-> inside bt (ats [a; b; c]) (at_ p).
Proof.
  intros RT Nd. rewrite all_first_spec. pose proof (tri_sum bt (at_ a) (at_ b) (at_ c) (at_ p)) as Sm.
  destruct (o_base bt a b p RT) as (A1 & A2), (o_base bt b c p RT) as (B1 & B2), (o_base bt c a p RT) as (C1 & C2). split.
  - intros (x & E).
    assert (E1 : o a b p = x) by (apply E; cbn; auto). assert (E2 : o b c p = x) by (apply E; cbn; auto). assert (E3 : o c a p = x) by (apply E; cbn; auto).
    intros u v Hs. cbn [ats map] in Hs. apply tri_sides_are in Hs. fold (at_ a) (at_ b) (at_ c) in Hs.
    destruct (ori_eqb_spec x bt) as [Ex|Ex].
    + destruct Hs as [(-> & ->) | [(-> & ->) | (-> & ->)]]; [apply A2|apply B2|apply C2]; congruence.
    + exfalso.
      assert (G : forall u v, o u v p = x -> side bt (at_ u) (at_ v) (at_ p) <= 0).
      { intros u' v' E'. destruct (Rle_lt_dec (side bt (at_ u') (at_ v') (at_ p)) 0) as [|G]; auto.
        destruct (o_base bt u' v' p RT) as (_ & Q). apply Q in G. congruence. }
      pose proof (G _ _ E1). pose proof (G _ _ E2). pose proof (G _ _ E3). lra.
  - intros I. exists bt. intros y Hy. cbn in Hy. destruct Hy as [<-|[<-|[<-|[]]]]; [apply A2|apply B2|apply C2]; apply I; apply tri_sides_are; auto.
Qed.
Theorem C78_fallback_iff bt face a b c : right_base bt -> 0 < side bt (at_ a) (at_ b) (at_ c) ->
  face_intersects_tri o face [a; b; c] = true <->
  (exists v, In v (ats face) /\ inside bt (ats [a; b; c]) v) \/
  (exists p q u v, is_side (ats face) p q /\ is_side (ats [a; b; c]) u v /\ crosses p q u v).
Proof.
  intros RT Nd. unfold face_intersects_tri. destruct (vert_rows o [a; b; c] face) as [rows|] eqn:E.
  - assert (No : ~ exists v, In v (ats face) /\ inside bt (ats [a; b; c]) v).
    { intros (v & Hv & I). apply in_map_iff in Hv. destruct Hv as (v' & <- & Hv).
      assert (N : vert_rows o [a; b; c] face = None) by (apply vert_rows_none; exists v'; split; auto; now apply (row_inside bt)). congruence. }
    apply vert_rows_some in E. subst rows. rewrite existsb_exists. split.
    + intros (((u & ru) & (v & rv)) & Hp & Hc).
      rewrite pairs_map in Hp. apply in_map_iff in Hp. destruct Hp as ((p & q) & Ep & Hp). cbn [fst snd] in Ep. injection Ep as <- <- <- <-.
      cbn [fst snd] in Hc. apply cross_loop_spec in Hc. destruct Hc as (e & f & Hs & S1 & S2). right.
      exists (at_ p), (at_ q), (at_ e), (at_ f). split; [apply pairs_spec, (in_pairs_map vec3 (proj axis)); eauto|].
      split; [apply pairs_spec, (in_pairs_map vec3 (proj axis)); eauto|]. apply crosses_signs. split; now apply reversed_prod.
    + intros [I|(p & q & u & v & H1 & H2 & X)]; [tauto|].
      apply pairs_spec, (in_pairs_map vec3 (proj axis)) in H1. destruct H1 as (p' & q' & -> & -> & H1).
      apply pairs_spec, (in_pairs_map vec3 (proj axis)) in H2. destruct H2 as (u' & v' & -> & -> & H2).
      apply crosses_signs in X. destruct X as (X1 & X2).
      exists ((p', tri_row o [a; b; c] p'), (q', tri_row o [a; b; c] q')). split.
      * rewrite pairs_map. apply in_map_iff. exists (p', q'). auto.
      * cbn [fst snd]. apply (cross_loop_complete p' q' u' v'); auto; now apply prod_reversed.
  - split; auto. intros _. left. apply vert_rows_none in E. destruct E as (p & Hp & E). exists (at_ p). split; [now apply in_map|]. now apply (row_inside bt).
Qed.

(** Its positive answers are right. *)
Theorem C78_fallback base face bt a b c : right_base base -> proper base (ats face) -> face <> [] ->
  right_base bt -> 0 < side bt (at_ a) (at_ b) (at_ c) ->
  face_intersects_tri o face [a; b; c] = true -> overlap base (ats face) bt (ats [a; b; c]).
Proof.
  intros RB Pr Ne RT Nd H.
  assert (Hm : inside base (ats face) (mean (ats face))) by (apply mean_inside; auto; unfold ats; destruct face; [congruence|discriminate]).
  destruct Pr as (Cv & _). unfold face_intersects_tri in H. destruct (vert_rows o [a; b; c] face) as [rows|] eqn:E.
  - apply vert_rows_some in E. subst rows. apply existsb_exists in H. destruct H as (((u & ru) & (v & rv)) & Hp & Hc).
    rewrite pairs_map in Hp. apply in_map_iff in Hp. destruct Hp as ((p & q) & Ep & Hp). cbn [fst snd] in Ep. injection Ep as <- <- <- <-.
    cbn [fst snd] in Hc. apply cross_loop_spec in Hc. destruct Hc as (e & f & Hs & S1 & S2).
    apply reversed_prod in S1. apply reversed_prod in S2.
    destruct (crossing (at_ p) (at_ q) (at_ e) (at_ f) S1 S2) as (t & s & Ht & Hs' & X).
    assert (Ip : In (at_ p) (ats face) /\ In (at_ q) (ats face)).
    { assert (Q : is_side (ats face) (at_ p) (at_ q)) by (apply pairs_spec, (in_pairs_map vec3 (proj axis)); eauto).
      destruct Q as (i & Q1 & Q2). split; eapply nth_error_In; eauto. }
    assert (Wp : within base (ats face) (at_ p)) by (apply corner_within; tauto).
    assert (Wq : within base (ats face) (at_ q)) by (apply corner_within; tauto).
    assert (Q : exists w, within base (ats face) w /\ 0 < side bt (at_ e) (at_ f) w).
    { destruct (Rlt_le_dec 0 (side bt (at_ e) (at_ f) (at_ p))) as [G|G]; [eauto|]. exists (at_ q). split; auto.
      unfold side in *. destruct RT as [-> | ->]; cbn [sgn_of] in *; nra. }
    destruct Q as (w & Ww & Pw).
    apply touch with (m := mean (ats face)) (x := mix t (at_ p) (at_ q)) (a := w); auto; [apply mix_within; auto; lra|].
    rewrite X. intros u v Huv. rewrite mix_side. cbn [ats map] in Huv. apply tri_sides_are in Huv.
    cbn [circular_pairs windows In] in Hs. destruct (tri_rot bt (at_ a) (at_ b) (at_ c)) as (R1 & R2).
    destruct (side_end bt (at_ a) (at_ b)) as (Z1 & Z2), (side_end bt (at_ b) (at_ c)) as (Z3 & Z4), (side_end bt (at_ c) (at_ a)) as (Z5 & Z6).
    unfold at_ in *.
    destruct Hs as [Es|[Es|[Es|[]]]]; injection Es as <- <-; destruct Huv as [(-> & ->) | [(-> & ->)|(-> & ->)]];
      rewrite ?Z1, ?Z2, ?Z3, ?Z4, ?Z5, ?Z6, ?R1, ?R2; [right|left|left|left|right|left|left|left|right]; try (split; [ring|exact Pw]);
      (rewrite Rmult_0_r, ?Rplus_0_l, ?Rplus_0_r; apply Rmult_lt_0_compat; lra).
  - clear H. apply vert_rows_none in E. destruct E as (p & Hp & E). apply (row_inside bt) in E; auto.
    assert (Wp : within base (ats face) (at_ p)) by (apply corner_within; auto; now apply in_map).
    apply touch with (m := mean (ats face)) (x := at_ p) (a := at_ p); auto.
Qed.

(** But it rejects every face that is the triangle itself. *)
Theorem C78_fallback_misses bt a b c : right_base bt -> 0 < side bt (at_ a) (at_ b) (at_ c) ->
  face_intersects_tri o [a; b; c] [a; b; c] = false.
Proof.
  intros RT Nd. destruct (tri_rot bt (at_ a) (at_ b) (at_ c)) as (R1 & R2).
  assert (F : forall u v w, 0 < side bt (at_ u) (at_ v) (at_ w) -> o u v w = bt) by (intros u v w; apply (o_base bt u v w RT)).
  assert (Z : forall u v, o u v u = Zero /\ o u v v = Zero).
  { intros u v. destruct (side_end bt (at_ u) (at_ v)). split; apply (o_base bt); auto. }
  assert (N : ori_eqb Zero bt = false /\ ori_eqb bt Zero = false) by (destruct RT as [-> | ->]; auto).
  destruct N as (N1 & N2).
  destruct (Z a b) as (Z1 & Z2), (Z b c) as (Z3 & Z4), (Z c a) as (Z5 & Z6).
  unfold face_intersects_tri, tri_row. cbn [vert_rows circular_pairs windows map tri_row fst snd].
  unfold tri_row. cbn [circular_pairs windows map fst snd].
  rewrite Z1, Z2, Z3, Z4, Z5, Z6, (F a b c Nd), (F b c a) by lra. rewrite (F c a b) by lra.
  cbn [all_first forallb]. rewrite N1, N2. rewrite !andb_false_r || idtac.
  destruct RT as [-> | ->]; cbn; rewrite ?Z1, ?Z2, ?Z3, ?Z4, ?Z5, ?Z6; reflexivity.
Qed.
(** So a face on the triangle is rejected if its centre is not strictly inside. *)
Theorem C78_center_needed bt a b c m : right_base bt -> 0 < side bt (at_ a) (at_ b) (at_ c) ->
  (forall v, In v (ats [a; b; c]) -> within bt (ats [a; b; c]) v) /\ proper bt (ats [a; b; c]) /\
  (~ inside bt (ats [a; b; c]) (at_ m) -> face_hits o [a; b; c] m a b c = false).
Proof.
  intros RT Nd. pose proof (tri_proper bt (at_ a) (at_ b) (at_ c) Nd) as Pr.
  split; [intros v Hv; apply corner_within; [apply Pr|exact Hv]|]. split; [exact Pr|].
  intros Ni. unfold face_hits. destruct (point_in_face o [a; b; c] m) eqn:E; [|apply (C78_fallback_misses bt); auto].
  exfalso. apply C78_in_face in E; [|discriminate]. destruct E as (base & RB & I).
  assert (B : base = bt); [|subst; auto].
  assert (I1 : 0 < side base (at_ a) (at_ b) (at_ m)) by (apply I; apply tri_sides_are; auto).
  assert (I2 : 0 < side base (at_ b) (at_ c) (at_ m)) by (apply I; apply tri_sides_are; auto).
  assert (I3 : 0 < side base (at_ c) (at_ a) (at_ m)) by (apply I; apply tri_sides_are; auto).
  pose proof (tri_sum base (at_ a) (at_ b) (at_ c) (at_ m)) as Sm. unfold side in Nd, Sm, I1, I2, I3.
  destruct RT as [-> | ->], RB as [-> | ->]; auto; cbn [sgn_of] in *; lra.
Qed.
End Claims.

(** * The vertex off the plane *)
(** Of a cell that is on one side of the plane, with some vertex off the plane, a
    vertex on that side is found. *)
Theorem C78_uncoplanar {V} (h : V -> R) (cell : list (list V)) s : right_base s ->
  (forall f v, In f cell -> In v f -> 0 <= sgn_of s * h v) -> (exists f v, In f cell /\ In v f /\ h v <> 0) ->
  exists f v, find_uncoplanar_verts (fun v => ori_of (h v)) cell = Some v /\ In f cell /\ In v f /\ ori_of (h v) = s.
Proof.
  intros RB. induction cell as [|f cell IH]; intros H (g & w & Hg & Hw & Nz); [destruct Hg|]. cbn [find_uncoplanar_verts].
  assert (Q : match find_uncoplanar_face (fun v => ori_of (h v)) f with
              | Some v => In v f /\ ori_of (h v) = s | None => forall v, In v f -> h v = 0 end).
  { assert (Hf : forall v, In v f -> 0 <= sgn_of s * h v) by (intros; apply (H f); cbn; auto). clear - RB Hf.
    induction f as [|v f IH]; cbn [find_uncoplanar_face]; [intros v []|].
    assert (IH' := IH (fun v Hv => Hf v (or_intror Hv))). clear IH.
    destruct (ori_eqb_spec (ori_of (h v)) Zero) as [Z|Z].
    - destruct (find_uncoplanar_face (fun v => ori_of (h v)) f); [cbn; tauto|]. intros u [<-|Hu]; auto. now apply ori_eq_zero.
    - split; [now left|]. apply (ori_side s (h v) RB). pose proof (Hf v (or_introl eq_refl)).
      destruct (Req_EM_T (sgn_of s * h v) 0) as [E|E]; [|lra]. apply (ori_side s (h v) RB) in E. congruence. }
  destruct (find_uncoplanar_face (fun v => ori_of (h v)) f) as [v|].
  - exists f, v. cbn. tauto.
  - destruct IH as (f' & v & E & F1 & F2 & F3).
    + intros f' v Hf Hv. apply (H f'); cbn; auto.
    + destruct Hg as [<-|Hg]; [exfalso; apply Nz, Q, Hw|eauto].
    + exists f', v. cbn. tauto.
Qed.

(** * The area *)
(** Twice the signed area of a closed polygon, over its sides. *)
Fixpoint shoelace_from (first : pt) (l : list pt) : R :=
  match l with
  | [] => 0
  | [a] => fst a * snd first - snd a * fst first
  | a :: (b :: _) as t => fst a * snd b - snd a * fst b + shoelace_from first t
  end.
Definition shoelace (l : list pt) : R := match l with [] => 0 | a :: _ => shoelace_from a l end.
(** The point with coordinates (x, y) in the plane through o along u and v. *)
Definition in_plane (o u v : vec3) (p : pt) : vec3 := vadd o (vadd (vscale (fst p) u) (vscale (snd p) v)).

Lemma norm_scale k a : norm (vscale k a) = Rabs k * norm a.
Proof.
  unfold norm, vscale. cbn [vx vy vz]. rewrite <- (sqrt_Rsqr_abs k). rewrite <- sqrt_mult.
  - f_equal. unfold Rsqr. ring.
  - apply Rle_0_sqr.
  - pose proof (Rle_0_sqr (vx a)). pose proof (Rle_0_sqr (vy a)). pose proof (Rle_0_sqr (vz a)). unfold Rsqr in *. lra.
Qed.
Lemma fan_cross o u v p q r :
  cross (vsub (in_plane o u v q) (in_plane o u v p)) (vsub (in_plane o u v r) (in_plane o u v p)) = vscale (area2 p q r) (cross u v).
Proof. unfold in_plane, cross, vsub, vadd, vscale, area2, orient2. cbn [vx vy vz]. f_equal; ring. Qed.

(** For a convex face it is twice the area, whatever the plane it lies in. *)
Theorem C78_area o u v base q : right_base base -> convex base q -> q <> [] ->
  face_area (map (in_plane o u v) q) = Some (Rabs (shoelace q) * norm (cross u v)).
Proof.
  intros RB Cv Ne. destruct q as [|p l]; [congruence|]. cbn [map face_area shoelace]. f_equal.
  destruct l as [|x l].
  { cbn. replace (fst p * snd p - snd p * fst p) with 0 by ring. rewrite Rabs_R0. ring. }
  set (F := fix F (x : pt) (l : list pt) : R := match l with [] => 0 | y :: l' => area2 p x y + F y l' end).
  assert (Sh : forall l x, shoelace_from p (x :: l) = F x l + (fst x * snd p - snd x * fst p)).
  { clear. induction l as [|y l IH]; intros x; [cbn; ring|].
    change (shoelace_from p (x :: y :: l)) with (fst x * snd y - snd x * fst y + shoelace_from p (y :: l)). rewrite IH. cbn [F].
    unfold area2, orient2. ring. }
  assert (Sh' : shoelace_from p (p :: x :: l) = F x l).
  { change (shoelace_from p (p :: x :: l)) with (fst p * snd x - snd p * fst x + shoelace_from p (x :: l)). rewrite Sh. ring. }
  rewrite Sh'.
  assert (Sg : forall l' x' pre, p :: x :: l = pre ++ x' :: l' ->
     0 <= sgn_of base * F x' l' /\ forall s, area_loop (in_plane o u v p) s (map (in_plane o u v) (x' :: l')) = s + Rabs (F x' l') * norm (cross u v)).
  { induction l' as [|y l' IH]; intros x' pre E.
    - cbn. split; [lra|]. intros s. rewrite Rabs_R0. ring.
    - destruct (IH y (pre ++ [x'])) as (I1 & I2); [rewrite <- app_assoc; exact E|].
      assert (A : 0 <= side base x' y p).
      { apply Cv; [|now left]. exists (length pre). rewrite E. rewrite nth_error_app2, Nat.sub_diag by lia. split; [reflexivity|].
        assert (L : length (pre ++ x' :: y :: l') = (length pre + (2 + length l'))%nat) by (rewrite app_length; reflexivity).
        rewrite Nat.mod_small by (rewrite L; lia). rewrite nth_error_app2 by lia. replace (S (length pre) - length pre)%nat with 1%nat by lia. reflexivity. }
      assert (R : side base x' y p = sgn_of base * area2 p x' y) by (unfold side, area2, orient2; ring). rewrite R in A.
      cbn [F]. split; [lra|]. intros s.
      change (area_loop (in_plane o u v p) s (map (in_plane o u v) (x' :: y :: l'))) with
        (area_loop (in_plane o u v p) (s + norm (cross (vsub (in_plane o u v x') (in_plane o u v p)) (vsub (in_plane o u v y) (in_plane o u v p))))
          (map (in_plane o u v) (y :: l'))). rewrite I2, fan_cross, norm_scale.
      assert (Ab : Rabs (area2 p x' y + F y l') = Rabs (area2 p x' y) + Rabs (F y l')).
      { destruct RB as [-> | ->]; cbn [sgn_of] in A, I1.
        - rewrite !Rabs_right by lra. ring.
        - rewrite !Rabs_left1 by lra. ring. }
      rewrite Ab. ring. }
  destruct (Sg l x [p] eq_refl) as (_ & G). rewrite G. ring.
Qed.

(** * Concrete cases *)
Definition exact_o (axis : nat) (a b c : vec3) : Orientation := ori_of (o2 axis a b c).
Definition sq : list vec3 := [V3 0 0 5; V3 1 0 5; V3 1 1 5; V3 0 1 5].
Lemma sq_proper : proper Positive (map (proj 2) sq).
Proof.
  split; intros a b.
  - intros c Hs Hc. apply pairs_spec in Hs. cbn in Hs, Hc.
    destruct Hs as [E|[E|[E|[E|[]]]]]; injection E as <- <-; destruct Hc as [<-|[<-|[<-|[<-|[]]]]]; unfold side, area2, orient2; cbn; lra.
  - intros Hs. apply pairs_spec in Hs. cbn in Hs.
    destruct Hs as [E|[E|[E|[E|[]]]]]; injection E as <- <-; [exists (1, 1)|exists (0, 0)|exists (0, 0)|exists (1, 1)]; (split; [cbn; auto|unfold side, area2, orient2; cbn; lra]).
Qed.
(** A square and a clockwise triangle that contains it, seen along the z axis. *)
Example C78_case : (forall a b c, exact_o 2 a b c = ori_of (o2 2 a b c)) /\ right_base Positive /\ proper Positive (map (proj 2) sq) /\ sq <> [] /\ right_base Negative /\ 0 < side Negative (proj 2 (V3 0 0 5)) (proj 2 (V3 0 3 5)) (proj 2 (V3 3 0 5)) /\ (forall v, In v (map (proj 2) sq) -> within Negative (map (proj 2) [V3 0 0 5; V3 0 3 5; V3 3 0 5]) v) /\ face_hits (exact_o 2) sq (face_center sq) (V3 0 0 5) (V3 0 3 5) (V3 3 0 5) = true.
Proof.
  assert (Nd : 0 < side Negative (proj 2 (V3 0 0 5)) (proj 2 (V3 0 3 5)) (proj 2 (V3 3 0 5))) by (unfold side, area2, orient2; cbn; lra).
  assert (W : forall v, In v (map (proj 2) sq) -> within Negative (map (proj 2) [V3 0 0 5; V3 0 3 5; V3 3 0 5]) v).
  { intros v Hv a b Hs. cbn [map] in Hs. apply tri_sides_are in Hs. cbn in Hv.
    destruct Hs as [(-> & ->) | [(-> & ->) | (-> & ->)]], Hv as [<-|[<-|[<-|[<-|[]]]]]; unfold side, area2, orient2; cbn; lra. }
  split; [reflexivity|]. split; [now left|]. split; [exact sq_proper|]. split; [discriminate|]. split; [now right|].
  split; [exact Nd|]. split; [exact W|].
  apply (C78_hits 2 (exact_o 2) (fun _ _ _ => eq_refl) Positive sq Negative); auto; [now left|exact sq_proper|discriminate|now right].
Qed.
(** A triangle next to the square: not hit. *)
Example C78_apart : face_hits (exact_o 2) sq (face_center sq) (V3 1 0 5) (V3 3 0 5) (V3 1 3 5) = false.
Proof.
  destruct (face_hits (exact_o 2) sq (face_center sq) (V3 1 0 5) (V3 3 0 5) (V3 1 3 5)) eqn:E; auto. exfalso.
  assert (Nd : 0 < side Positive (proj 2 (V3 1 0 5)) (proj 2 (V3 3 0 5)) (proj 2 (V3 1 3 5))) by (unfold side, area2, orient2; cbn; lra).
  apply (C78_hits 2 (exact_o 2) (fun _ _ _ => eq_refl) Positive sq Positive) in E; auto; [|now left|exact sq_proper|discriminate|now left].
  destruct E as (x & I1 & I2).
  assert (S1 : 0 < side Positive (1, 0) (1, 1) x) by (apply I1, pairs_spec; cbn; auto).
  assert (S2 : 0 < side Positive (1, 3) (1, 0) x) by (apply I2, pairs_spec; cbn; auto).
  unfold side, area2, orient2 in S1, S2. cbn in S1, S2. lra.
Qed.
(** A bad centre and a triangle across the right side of the square: the fallback
    finds the crossing. *)
Lemma ori_p x : 0 < x -> ori_of x = Positive. Proof. apply ori_eq_pos. Qed.
Lemma ori_n x : x < 0 -> ori_of x = Negative. Proof. intros. destruct (ori_cases x) as [(_ & ->)|[(? & _)|(? & _)]]; auto; lra. Qed.
Example C78_fallback_case : face_hits (exact_o 2) sq (V3 9 9 5) (V3 (1/2) (-1) 5) (V3 2 (-1) 5) (V3 (1/2) 3 5) = true.
Proof.
  unfold face_hits.
  assert (E : point_in_face (exact_o 2) sq (V3 9 9 5) = false).
  { unfold point_in_face, sq. cbn [circular_pairs windows in_face_loop]. unfold exact_o, o2, orient2. cbn [proj fst snd vx vy vz].
    rewrite (ori_p ((1 - 0) * (9 - 0) - (0 - 0) * (9 - 0))) by lra. rewrite (ori_n ((1 - 1) * (9 - 0) - (1 - 0) * (9 - 1))) by lra. reflexivity. }
  rewrite E. unfold face_intersects_tri.
  assert (R : forall p s1 s2 s3, exact_o 2 (V3 (1/2) (-1) 5) (V3 2 (-1) 5) p = s1 -> exact_o 2 (V3 2 (-1) 5) (V3 (1/2) 3 5) p = s2 ->
    exact_o 2 (V3 (1/2) 3 5) (V3 (1/2) (-1) 5) p = s3 -> tri_row (exact_o 2) [V3 (1/2) (-1) 5; V3 2 (-1) 5; V3 (1/2) 3 5] p = [s1; s2; s3]).
  { intros p s1 s2 s3 <- <- <-. reflexivity. }
  unfold sq. cbn [vert_rows].
  rewrite (R (V3 0 0 5) Positive Positive Negative) by (unfold exact_o, o2, orient2; cbn; (apply ori_p || apply ori_n); lra).
  rewrite (R (V3 1 0 5) Positive Positive Positive) by (unfold exact_o, o2, orient2; cbn; (apply ori_p || apply ori_n); lra).
  reflexivity.
Qed.
(** A vertex of a cell below the plane. *)
Example C78_uncoplanar_case : right_base Negative /\ (forall f v, In f [[0; 0; 0]; [0; -2; -1]] -> In v f -> 0 <= sgn_of Negative * v) /\ exists f v, In f [[0; 0; 0]; [0; -2; -1]] /\ In v f /\ v <> 0.
Proof.
  split; [now right|]. split.
  - intros f v [<-|[<-|[]]] Hv; cbn in Hv; destruct Hv as [<-|[<-|[<-|[]]]]; cbn; lra.
  - exists [0; -2; -1], (-2). cbn. split; [auto|]. split; [auto|lra].
Qed.
(** The square has twice the area 2. *)
Example C78_area_case : face_area (map (in_plane (V3 0 0 5) (V3 1 0 0) (V3 0 1 0)) [(0, 0); (1, 0); (1, 1); (0, 1)]) = Some 2.
Proof.
  rewrite (C78_area _ _ _ Positive); [|now left|exact (proj1 sq_proper)|discriminate].
  f_equal. unfold shoelace, norm, cross. cbn [shoelace_from fst snd vx vy vz].
  replace (0 + (0 * 0 - 0 * 1) * (0 * 0 - 0 * 1) + (0 * 0 - 1 * 0) * (0 * 0 - 1 * 0) + (1 * 1 - 0 * 0) * (1 * 1 - 0 * 0)) with 1 by ring.
  rewrite sqrt_1, Rabs_right by lra. ring.
Qed.
(** The hypotheses of C78_center_needed: a right triangle and one of its corners as centre. *)
Example C78_center_needed_case : right_base Positive /\ 0 < side Positive (proj 2 (V3 0 0 5)) (proj 2 (V3 3 0 5)) (proj 2 (V3 0 3 5)) /\ ~ inside Positive (map (proj 2) [V3 0 0 5; V3 3 0 5; V3 0 3 5]) (proj 2 (V3 0 0 5)).
Proof.
  split; [now left|]. split; [unfold side, area2, orient2; cbn; lra|]. intros I.
  assert (S1 : 0 < side Positive (0, 0) (3, 0) (0, 0)) by (apply I, tri_sides_are; auto). unfold side, area2, orient2 in S1. cbn in S1. lra.
Qed.

Print Assumptions C78_in_face.
Print Assumptions C78_center.
Print Assumptions C78_in_tri.
Print Assumptions C78_hits.
Print Assumptions C78_exact.
Print Assumptions C78_fallback.
Print Assumptions C78_fallback_iff.
Print Assumptions C78_fallback_misses.
Print Assumptions C78_center_needed.
Print Assumptions C78_uncoplanar.
Print Assumptions C78_area.
