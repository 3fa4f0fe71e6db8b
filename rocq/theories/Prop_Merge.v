(** C82: the merging of two triangulations in src/triangle/triangle.rs. *)
From Coq Require Import List Arith Bool ZArith Reals Lia Lra Permutation Psatz.
From Verif Require Import Lib Flip Prop_Flip TriSeg TriSegSpec Prop_TriSeg DivConq DivConqSpec Prop_DivConq MergeHulls MergeSpec MergeInv MergeStart.
Import ListNotations.
Local Open Scope opt_scope.

(** * What the exact signs give *)
Lemma exact_cyc P ccw : exact_signs P ccw -> forall a b c, ccw a b c = ccw b c a.
Proof. intros E a b c. rewrite !E. f_equal. unfold det. ring. Qed.
(** [d] inside the circle of [a], [b], [c] and on the far side of [a c] is above
    [a b]. *)
Lemma circ_left a b c d : (0 < det c a b -> 0 < det a c d -> 0 < circ a b c d -> 0 < det d a b)%R.
Proof.
  destruct a as (xa, ya), b as (xb, yb), c as (xc, yc), d as (xd, yd). unfold det, circ. cbn [fst snd]. intros A B C.
  set (p1 := (xb - xa)%R) in *. set (p2 := (yb - ya)%R) in *. set (u1 := (xc - xa)%R). set (u2 := (yc - ya)%R). set (n1 := (xd - xa)%R). set (n2 := (yd - ya)%R).
  assert (A' : (0 < p1 * u2 - p2 * u1)%R) by (unfold p1, p2, u1, u2; nra). assert (B' : (0 < u1 * n2 - u2 * n1)%R) by (unfold n1, n2, u1, u2; nra).
  assert (C' : (0 < (u1 * u1 + u2 * u2) * (p1 * n2 - p2 * n1) - (p1 * p1 + p2 * p2) * (u1 * n2 - u2 * n1) - (n1 * n1 + n2 * n2) * (p1 * u2 - p2 * u1))%R).
  { match type of C with (0 < ?x)%R => replace x with ((u1 * u1 + u2 * u2) * (p1 * n2 - p2 * n1) - (p1 * p1 + p2 * p2) * (u1 * n2 - u2 * n1) - (n1 * n1 + n2 * n2) * (p1 * u2 - p2 * u1))%R in C by (unfold p1, p2, u1, u2, n1, n2; ring) end. exact C. }
  assert (0 <= (p1 * p1 + p2 * p2) * (u1 * n2 - u2 * n1))%R by (apply Rmult_le_pos; nra). assert (0 <= (n1 * n1 + n2 * n2) * (p1 * u2 - p2 * u1))%R by (apply Rmult_le_pos; nra).
  assert (D : (0 < p1 * n2 - p2 * n1)%R).
  { destruct (Rlt_or_le 0 (p1 * n2 - p2 * n1)) as [Q|Q]; [exact Q|exfalso]. assert (0 <= u1 * u1 + u2 * u2)%R by nra. set (z := (p1 * n2 - p2 * n1)%R) in *. set (w := (u1 * u1 + u2 * u2)%R) in *. nra. }
  match goal with |- (0 < ?x)%R => replace x with (p1 * n2 - p2 * n1)%R by (unfold p1, p2, n1, n2; ring) end. exact D.
Qed.
Lemma circ_right a b c d : (0 < det c a b -> 0 < det c b d -> 0 < circ a b c d -> 0 < det d a b)%R.
Proof.
  destruct a as (xa, ya), b as (xb, yb), c as (xc, yc), d as (xd, yd). unfold det, circ. cbn [fst snd]. intros A B C.
  set (p1 := (xa - xb)%R) in *. set (p2 := (ya - yb)%R) in *. set (u1 := (xc - xb)%R). set (u2 := (yc - yb)%R). set (n1 := (xd - xb)%R). set (n2 := (yd - yb)%R).
  assert (A' : (0 < u1 * p2 - u2 * p1)%R) by (unfold p1, p2, u1, u2; nra). assert (B' : (0 < n1 * u2 - n2 * u1)%R) by (unfold n1, n2, u1, u2; nra).
  assert (C' : (0 < (u1 * u1 + u2 * u2) * (n1 * p2 - n2 * p1) - (p1 * p1 + p2 * p2) * (n1 * u2 - n2 * u1) - (n1 * n1 + n2 * n2) * (u1 * p2 - u2 * p1))%R).
  { match type of C with (0 < ?x)%R => replace x with ((u1 * u1 + u2 * u2) * (n1 * p2 - n2 * p1) - (p1 * p1 + p2 * p2) * (n1 * u2 - n2 * u1) - (n1 * n1 + n2 * n2) * (u1 * p2 - u2 * p1))%R in C by (unfold p1, p2, u1, u2, n1, n2; ring) end. exact C. }
  assert (0 <= (p1 * p1 + p2 * p2) * (n1 * u2 - n2 * u1))%R by (apply Rmult_le_pos; nra). assert (0 <= (n1 * n1 + n2 * n2) * (u1 * p2 - u2 * p1))%R by (apply Rmult_le_pos; nra).
  assert (D : (0 < n1 * p2 - n2 * p1)%R).
  { destruct (Rlt_or_le 0 (n1 * p2 - n2 * p1)) as [Q|Q]; [exact Q|exfalso]. assert (0 <= u1 * u1 + u2 * u2)%R by nra. set (z := (n1 * p2 - n2 * p1)%R) in *. set (w := (u1 * u1 + u2 * u2)%R) in *. nra. }
  match goal with |- (0 < ?x)%R => replace x with (n1 * p2 - n2 * p1)%R by (unfold p1, p2, n1, n2; ring) end. exact D.
Qed.

Lemma data_app m x t i : t < length m -> get_data (m ++ x) t i = get_data m t i.
Proof. intros. unfold get_data. now rewrite nth_error_app1. Qed.
Lemma sym_app m x h : fst h < length m -> sym (m ++ x) h = sym m h.
Proof. intros. unfold sym. now rewrite nth_error_app1. Qed.

(** Following the hull does not leave the triangulation. *)
Lemma shift_apex_in (Q : hedge -> Prop) turn more m : (forall h, Q h -> Q (turn h)) -> (forall h g, Q h -> sym m h = Some g -> Q g) ->
  forall fuel h pt ap h' pt' ap', Q h -> shift_apex turn more m h pt ap fuel = Some (h', pt', ap') -> Q h'.
Proof.
  intros Qt Qs. induction fuel as [|k IH]; intros h pt ap h' pt' ap' A E; [discriminate|]. cbn [shift_apex] in E. destruct (more ap pt); [|injection E as <- <- <-; exact A].
  destruct (sym m (turn h)) as [g|] eqn:Sg; [|discriminate]. destruct (apex m g) as [a|]; [|discriminate]. eapply IH; [|exact E]. eapply Qs; [|exact Sg]. auto.
Qed.
Lemma shift_check_in (Q : hedge -> Prop) turn more m : (forall h, Q h -> Q (turn h)) -> (forall h g, Q h -> sym m h = Some g -> Q g) ->
  forall fuel h pt ap h' pt' ap', Q h -> shift_check turn more m h pt ap fuel = Some (h', pt', ap') -> Q h'.
Proof.
  intros Qt Qs. induction fuel as [|k IH]; intros h pt ap h' pt' ap' A E; [discriminate|]. cbn [shift_check] in E.
  destruct (sym m h) as [g|] eqn:Sg; [|discriminate]. destruct (apex m g) as [a|]; [|discriminate]. destruct (more a pt); [|injection E as <- <- <-; exact A]. eapply IH; [|exact E]. eauto.
Qed.
Lemma region_closed INV ccw n0 N0 D S l : region INV ccw n0 N0 D S l -> forall h g, rin n0 N0 h -> S h = Some g -> rin n0 N0 g.
Proof. intros R h g I E. destruct (r_nei _ _ _ _ _ _ _ R h I) as (g' & X & Y & _). congruence. Qed.

(** Merging two triangulations, each with its ghosts, gives a triangulation of the
    points of both: every side has its neighbour, back to back; every corner is one
    of the points or the ghost vertex; every point is a corner; every triangle without
    the ghost vertex turns left; the ghosts are those along one closed hull; and there
    are two more triangles.  The two sides returned belong to it.  Missing: that
    merge_hulls ends, that the sides it returns are the ghost sides at the ends, and
    that the triangles are those of Delaunay. *)
Theorem C82_merge_partial INV P ccw inc lt fuel m0 m1 m2 l r axis fl il ir fr m' fl' fr' :
  exact_signs P ccw -> exact_circles P inc -> ~ In INV (l ++ r) ->
  sheet INV ccw m0 m1 l -> sheet INV ccw m1 m2 r ->
  length m0 <= fst fl -> inside m1 fl -> length m0 <= fst il -> inside m1 il -> org m1 il = Some INV ->
  length m1 <= fst ir -> inside m2 ir -> dest m2 ir = Some INV -> length m1 <= fst fr -> inside m2 fr ->
  merge_hulls INV ccw inc lt fuel m2 axis fl il ir fr = Some (m', fl', fr') ->
  sheet INV ccw m0 m' (l ++ r) /\ length m' = length m2 + 2 /\
  length m0 <= fst fl' /\ inside m' fl' /\ length m0 <= fst fr' /\ inside m' fr'.
Proof.
  intros Ex Ec Ni Sl Sr F1 F2 L1 L2 L3 R1 R2 R3 F3 F4 E.
  pose proof (exact_cyc P ccw Ex) as Cyc. pose proof (exact_anti P ccw Ex) as Anti.
  assert (Fl : forall a b c d, (0 < ccw c a b -> 0 < ccw a c d -> 0 < inc a b c d -> 0 < ccw d a b)%Z) by (intros a b c d; rewrite !Ex, Ec, !sgn_pos; apply circ_left).
  assert (Fr : forall a b c d, (0 < ccw c a b -> 0 < ccw c b d -> 0 < inc a b c d -> 0 < ccw d a b)%Z) by (intros a b c d; rewrite !Ex, Ec, !sgn_pos; apply circ_right).
  destruct (sh_old _ _ _ _ _ Sl) as (x & Hx). destruct (sh_old _ _ _ _ _ Sr) as (y & Hy).
  pose proof (sheet_region INV ccw Cyc _ _ _ Sl) as Rl. pose proof (sheet_region INV ccw Cyc _ _ _ Sr) as Rr.
  assert (Rl2 : region INV ccw (length m0) (length m1) (dat m2) (sym m2) l).
  { eapply region_ext; [| |exact Rl]; [intros h Hh|intros h (Hh & _)]; subst m2; [apply data_app|apply sym_app]; lia. }
  clear Rl. rename Rl2 into Rl.
  assert (R0 : rep m0 (length m2) (dat m2) (sym m2) m2).
  { split; [reflexivity|]. split; [|split; [intros; reflexivity|reflexivity]]. subst m2 m1. rewrite <- !app_assoc, firstn_app, Nat.sub_diag, firstn_all. apply app_nil_r. }
  assert (Rep : forall h, apex m2 h = dat m2 h /\ org m2 h = dat m2 (next h) /\ dest m2 h = dat m2 (prev h) /\ sym m2 h = sym m2 h) by (intros h; repeat split; reflexivity).
  unfold merge_hulls in E. destruct (dest m2 il) as [ild|] eqn:E1; [|discriminate]. destruct (apex m2 il) as [ila|] eqn:E2; [|discriminate].
  destruct (org m2 ir) as [iro|] eqn:E3; [|discriminate]. destruct (apex m2 ir) as [ira|] eqn:E4; [|discriminate].
  assert (AL : at_left INV (length m0) (length m1) (dat m2) il ild ila).
  { split; [split; [destruct L2; lia|apply L2]|]. split; [|split; [exact E1|exact E2]]. destruct L2. subst m2. unfold dat, org in *. rewrite data_app by (cbn; lia). exact L3. }
  assert (AR : at_right INV (length m1) (length m2) (dat m2) ir iro ira).
  { split; [split; [destruct R2; lia|apply R2]|]. split; [exact R3|split; [exact E3|exact E4]]. }
  clear E1 E2 E3 E4.
  destruct (shift_ends lt m2 axis fl il ild ila ir iro ira fr fuel) as [[[[fl1 [[il1 ild1] ila1]] [[ir1 iro1] ira1]] fr1]|] eqn:Es; [|discriminate].
  assert (at_left INV (length m0) (length m1) (dat m2) il1 ild1 ila1 /\ at_right INV (length m1) (length m2) (dat m2) ir1 iro1 ira1 /\
    rin (length m0) (length m1) fl1 /\ rin (length m1) (length m2) fr1) as (AL1 & AR1 & FL1 & FR1).
  { assert (rin (length m0) (length m1) fl /\ rin (length m1) (length m2) fr) as (FL & FR) by (destruct F2, F4; unfold rin; repeat split; auto).
    unfold shift_ends in Es. destruct (axis =? 1); [|injection Es as <- <- <- <- <- <- <- <-; auto].
    destruct (org m2 fl); [|discriminate]. destruct (apex m2 fl); [|discriminate]. destruct (dest m2 fr); [|discriminate].
    destruct (shift_apex next _ m2 fl _ _ fuel) as [((? & ?) & ?)|] eqn:Q3; [|discriminate].
    destruct (shift_check next _ m2 il _ _ fuel) as [((? & ?) & ?)|] eqn:Q1; [|discriminate].
    destruct (shift_apex next _ m2 ir _ _ fuel) as [((? & ?) & ?)|] eqn:Q2; [|discriminate].
    destruct (shift_check next _ m2 fr _ _ fuel) as [((? & ?) & ?)|] eqn:Q4; [|discriminate]. injection Es as <- <- <- <- <- <- <- <-.
    split; [eapply shift_check_ok; eauto|]. split; [eapply shift_apex_ok; eauto|].
    split; [eapply shift_apex_in; [| | |exact Q3]|eapply shift_check_in; [| | |exact Q4]]; eauto using rin_next, region_closed. }
  clear Es AL AR. destruct (tangent ccw m2 il1 ild1 ila1 ir1 iro1 ira1 fuel) as [[[[il2 ild2] ir2] iro2]|] eqn:Et; [|discriminate].
  eapply tangent_ok in Et; eauto. destruct Et as ((a & AL) & (b & AR)). clear AL1 AR1.
  destruct (start_ok INV ccw _ _ _ _ _ l r Rl Rr m0 eq_refl _ _ _ _ _ _ AL AR) as (lc & rc & ul & ur & L & Sc & Sd & K). cbn zeta in K. destruct K as (Kl & Kr & K).
  rewrite Sc, Sd in E.
  assert (Le : length m0 <= length m2) by (subst m2 m1; rewrite !app_length; lia).
  destruct (make_rep INV m0 _ _ _ m2 Le R0) as (m3 & Em & R3'). rewrite Em in E. change (next (length m2, 0)) with (length m2, 1) in E. change (next (length m2, 1)) with (length m2, 2) in E.
  destruct AL as (AL & AL'). destruct AR as (AR & AR').
  assert (G : forall h i, rin (length m0) (length m2) h -> h <> (length m2, i)) by (intros (t & j) i (Q & _) W; cbn in Q; injection W; lia).
  assert (AL2 : rin (length m0) (length m2) il2) by (destruct AL as (Q & Q'); split; auto; subst m2; rewrite app_length; lia).
  assert (AR2 : rin (length m0) (length m2) ir2) by (destruct AR as (Q & Q'); split; auto; subst m1; rewrite app_length in Q; lia).
  assert (NS : forall h, rin (length m0) (length m2) h -> newS INV (length m2) (sym m2) h = sym m2 h).
  { intros h (Q & _). unfold newS. destruct (Nat.eqb_spec (fst h) (length m2)); [lia|reflexivity]. }
  assert (N0 : forall i, i < 3 -> newS INV (length m2) (sym m2) (length m2, i) <> None).
  { intros i Hi. unfold newS. cbn [fst snd]. rewrite Nat.eqb_refl. destruct (Nat.ltb_spec i 3); [discriminate|lia]. }
  assert (N1 : forall i, i < 3 -> newD INV (length m2) (dat m2) (length m2, i) <> None).
  { intros i Hi. unfold newD. cbn [fst snd]. rewrite Nat.eqb_refl. destruct (Nat.ltb_spec i 6); [discriminate|lia]. }
  destruct (bond_rep _ _ _ _ _ (length m2, 0) il2 R3') as (m4 & Q1 & R4); [exact Le|apply AL2|apply N0; lia|rewrite NS by auto; congruence|]. rewrite Q1 in E. clear Q1.
  destruct (bond_rep _ _ _ _ _ (length m2, 1) ir2 R4) as (m5 & Q1 & R5); [exact Le|apply AR2|repeat apply up_some; apply N0; lia|repeat apply up_some; rewrite NS by auto; congruence|]. rewrite Q1 in E. clear Q1.
  unfold set_org, set_dest in E. cbn [fst snd] in E. change ((2 + 1) mod 3) with 0 in E. change ((2 + 2) mod 3) with 1 in E.
  destruct (put_data_rep _ _ _ _ _ (length m2, 0) iro2 R5) as (m6 & Q1 & R6); [exact Le|apply N1; lia|]. cbn [fst snd] in Q1. rewrite Q1 in E. clear Q1.
  destruct (put_data_rep _ _ _ _ _ (length m2, 1) ild2 R6) as (m7 & Q1 & R7); [exact Le|repeat apply up_some; apply N1; lia|]. cbn [fst snd] in Q1. rewrite Q1 in E. clear Q1.
  destruct (org m7 fl1); [|discriminate]. destruct (dest m7 fr1); [|discriminate].
  rewrite (rep_apex _ _ _ _ _ R7), Kl in E. rewrite (rep_apex _ _ _ _ _ R7), Kr in E.
  match type of E with (match knit ?a ?b ?c ?d ?e ?f ?g ?h ?i ?j ?k ?n ?o with _ => _ end = _) => destruct (knit a b c d e f g h i j k n o) as [m8|] eqn:Ek; [|discriminate] end.
  destruct (knit_ok INV ccw inc m0 (l ++ r) Cyc Anti Fl Fr Ni _ _ _ _ _ _ _ _ _ _ _ _ _ _ _ R7 K Ek) as (Y1 & Y2).
  match type of E with (match restore_ends ?a ?b ?c ?d ?e ?f with _ => _ end = _) => set (fl2 := d) in E; set (fr2 := e) in E; destruct (restore_ends a b c fl2 fr2 f) as [(fl3 & fr3)|] eqn:Er; [|discriminate] end.
  injection E as <- <- <-. split; [exact Y1|]. split; [rewrite Y2; lia|].
  assert (Ll : length m1 <= length m2) by (subst m2; rewrite app_length; lia). assert (Lk : length m0 <= length m1) by (subst m1; rewrite app_length; lia).
  assert (rin (length m0) (length m8) fl2 /\ rin (length m0) (length m8) fr2) as (I1 & I2).
  { unfold fl2, fr2. destruct FL1, FR1. split; [destruct (ild2 =? _)|destruct (iro2 =? _)]; unfold rin; cbn; repeat split; auto; lia. }
  pose proof (sheet_region INV ccw Cyc _ _ _ Y1) as R8.
  assert (rin (length m0) (length m8) fl3 /\ rin (length m0) (length m8) fr3) as (I3 & I4).
  { unfold restore_ends in Er. destruct (axis =? 1); [|injection Er as <- <-; auto]. destruct (org m8 fl2); [|discriminate]. destruct (dest m8 fr2); [|discriminate]. destruct (apex m8 fr2); [|discriminate].
    destruct (shift_check prev _ m8 fl2 _ _ fuel) as [((? & ?) & ?)|] eqn:Q3; [|discriminate]. destruct (shift_apex prev _ m8 fr2 _ _ fuel) as [((? & ?) & ?)|] eqn:Q4; [|discriminate]. injection Er as <- <-.
    split; [eapply shift_check_in; [| | |exact Q3]|eapply shift_apex_in; [| | |exact Q4]]; eauto using rin_prev, region_closed. }
  destruct I3 as ((? & ?) & ?), I4 as ((? & ?) & ?). unfold inside. repeat split; auto.
Qed.

(** merge_hulls, stopped if a side it returns is not a ghost side. *)
Definition checked INV (merge : list triangle -> nat -> hedge -> hedge -> hedge -> hedge -> option (list triangle * hedge * hedge)) m axis fl il ir fr :=
  '(m', fl', fr') <- merge m axis fl il ir fr ;;
  f <- dest m' fl' ;; g <- org m' fr' ;;
  if (f =? INV) && (g =? INV) then Some (m', fl', fr') else None.
Lemma checked_same INV ccw merge fuel : forall m l axis x, div_conq_recurse INV ccw (checked INV merge) m l axis fuel = Some x -> div_conq_recurse INV ccw merge m l axis fuel = Some x.
Proof.
  induction fuel as [|k IH]; intros m l axis x E; [discriminate|]. cbn [div_conq_recurse] in *.
  assert (forall l', (' (m0, far_left, inner_left) <- div_conq_recurse INV ccw (checked INV merge) m (firstn (length l' / 2) l') (1 - axis) k;;
      ' (m1, inner_right, far_right) <- div_conq_recurse INV ccw (checked INV merge) m0 (skipn (length l' / 2) l') (1 - axis) k;; checked INV merge m1 axis far_left inner_left inner_right far_right) = Some x ->
    (' (m0, far_left, inner_left) <- div_conq_recurse INV ccw merge m (firstn (length l' / 2) l') (1 - axis) k;;
      ' (m1, inner_right, far_right) <- div_conq_recurse INV ccw merge m0 (skipn (length l' / 2) l') (1 - axis) k;; merge m1 axis far_left inner_left inner_right far_right) = Some x) as G.
  { intros l' F. destruct (div_conq_recurse INV ccw (checked INV merge) m (firstn (length l' / 2) l') (1 - axis) k) as [((m1 & fl) & il)|] eqn:E1; [|discriminate]. rewrite (IH _ _ _ _ E1).
    destruct (div_conq_recurse INV ccw (checked INV merge) m1 (skipn (length l' / 2) l') (1 - axis) k) as [((m2 & ir) & fr)|] eqn:E2; [|discriminate]. rewrite (IH _ _ _ _ E2).
    unfold checked in F. destruct (merge m2 axis fl il ir fr) as [((m' & fl') & fr')|]; [|discriminate]. destruct (dest m' fl'); [|discriminate]. destruct (org m' fr'); [|discriminate]. destruct (_ && _); [exact F|discriminate]. }
  destruct l as [|a [|b [|c [|d l]]]]; try exact E; now apply G.
Qed.
(** The whole recursion: when it returns and the sides that merge_hulls returned on the
    way were ghost sides, the points have a triangulation of 2 n - 2 triangles, ghosts
    included; what was in the mesh before is still there.  Missing: that it returns,
    that the sides are ghost sides (in C82_run they are), Delaunay. *)
Theorem C82_triangulates_partial INV P ccw inc lt fuel : exact_signs P ccw -> exact_circles P inc ->
  forall depth m idx axis m' fl fr, ~ In INV idx ->
  div_conq_recurse INV ccw (checked INV (merge_hulls INV ccw inc lt fuel)) m idx axis depth = Some (m', fl, fr) ->
  div_conq_recurse INV ccw (merge_hulls INV ccw inc lt fuel) m idx axis depth = Some (m', fl, fr) /\
  sheet INV ccw m m' idx /\ length m' = length m + (2 * length idx - 2).
Proof.
  intros Ex Ec.
  assert (forall depth m idx axis m' fl fr, ~ In INV idx ->
    div_conq_recurse INV ccw (checked INV (merge_hulls INV ccw inc lt fuel)) m idx axis depth = Some (m', fl, fr) ->
    sheet INV ccw m m' idx /\ 2 <= length idx /\ length m' = length m + (2 * length idx - 2) /\
    length m <= fst fl /\ inside m' fl /\ dest m' fl = Some INV /\ length m <= fst fr /\ inside m' fr /\ org m' fr = Some INV) as H.
  2:{ intros depth m idx axis m' fl fr Ni E. split; [now apply checked_same|]. destruct (H _ _ _ _ _ _ _ Ni E) as (A & _ & B & _). auto. }
  assert (forall m l m' fl fr, piece INV ccw m m' l fl fr -> 2 <= length l -> length m' = length m + (2 * length l - 2) ->
    sheet INV ccw m m' l /\ 2 <= length l /\ length m' = length m + (2 * length l - 2) /\
    length m <= fst fl /\ inside m' fl /\ dest m' fl = Some INV /\ length m <= fst fr /\ inside m' fr /\ org m' fr = Some INV) as Pc.
  { intros m l m' fl fr [A (B1 & B2 & B3 & _) (C1 & C2 & C3 & _)] L N. auto 12. }
  induction depth as [|k IH]; intros m idx axis m' fl fr Ni E; [discriminate|]. cbn [div_conq_recurse] in E.
  assert (forall l', l' = idx -> (' (m0, far_left, inner_left) <- div_conq_recurse INV ccw (checked INV (merge_hulls INV ccw inc lt fuel)) m (firstn (length l' / 2) l') (1 - axis) k;;
      ' (m1, inner_right, far_right) <- div_conq_recurse INV ccw (checked INV (merge_hulls INV ccw inc lt fuel)) m0 (skipn (length l' / 2) l') (1 - axis) k;;
      checked INV (merge_hulls INV ccw inc lt fuel) m1 axis far_left inner_left inner_right far_right) = Some (m', fl, fr) ->
    sheet INV ccw m m' idx /\ 2 <= length idx /\ length m' = length m + (2 * length idx - 2) /\
    length m <= fst fl /\ inside m' fl /\ dest m' fl = Some INV /\ length m <= fst fr /\ inside m' fr /\ org m' fr = Some INV) as G.
  { intros l' El F. rewrite <- (firstn_skipn (length l' / 2) l') in El. rewrite <- El in *. clear E idx El. rewrite in_app_iff in Ni.
    set (l := firstn (length l' / 2) l') in *. set (r := skipn (length l' / 2) l') in *. clearbody l r. clear l'.
    destruct (div_conq_recurse INV ccw _ m l (1 - axis) k) as [((m1 & fl1) & il)|] eqn:E1; [|discriminate]. apply IH in E1; [|tauto]. destruct E1 as (A1 & A2 & A3 & A4 & A5 & A6 & A7 & A8 & A9).
    destruct (div_conq_recurse INV ccw _ m1 r (1 - axis) k) as [((m2 & ir) & fr1)|] eqn:E2; [|discriminate]. apply IH in E2; [|tauto]. destruct E2 as (B1 & B2 & B3 & B4 & B5 & B6 & B7 & B8 & B9).
    unfold checked in F. destruct (merge_hulls INV ccw inc lt fuel m2 axis fl1 il ir fr1) as [((m3 & fl3) & fr3)|] eqn:E3; [|discriminate].
    apply (C82_merge_partial INV P ccw inc lt fuel m m1 m2 l r) in E3; auto; [|rewrite in_app_iff; tauto]. destruct E3 as (C1 & C2 & C3 & C4 & C5 & C6).
    destruct (dest m3 fl3) as [x|] eqn:E4; [|discriminate]. destruct (org m3 fr3) as [y|] eqn:E5; [|discriminate]. destruct (Nat.eqb_spec x INV) as [->|]; [|discriminate]. destruct (Nat.eqb_spec y INV) as [->|]; [|discriminate]. injection F as <- <- <-.
    rewrite app_length. split; [exact C1|]. split; [lia|]. split; [lia|]. auto 10. }
  destruct idx as [|a [|b [|c [|d idx]]]]; try (apply (G _ eq_refl); exact E).
  - destruct (C81_two INV ccw m a b) as (m1 & x & y & E1 & Q & N); [intros <-; apply Ni; cbn; auto..|]. rewrite E1 in E. injection E as <- <- <-. apply Pc; cbn; auto.
  - destruct (C81_three INV ccw m P a b c) as (m1 & x & y & E1 & Q & N); [exact Ex|intros <-; apply Ni; cbn; auto..|]. rewrite E1 in E. injection E as <- <- <-. apply Pc; cbn; auto.
Qed.

(** * Runs *)
(** A grid of points moved a little, and one far away; 99 is the ghost vertex. *)
Definition spot (v : nat) : Z * Z :=
  match v with 0 => (0, 0)%Z | 1 => (1, 9)%Z | 2 => (2, 4)%Z | 3 => (6, 1)%Z | 4 => (7, 7)%Z | 5 => (9, 3)%Z | 6 => (10, 12)%Z | 7 => (12, 5)%Z | _ => (30, 0)%Z end.
Definition spotR (v : nat) : R * R := (IZR (fst (spot v)), IZR (snd (spot v))).
Definition spot_ccw (a b c : nat) : Z :=
  Z.sgn ((fst (spot b) - fst (spot a)) * (snd (spot c) - snd (spot a)) - (snd (spot b) - snd (spot a)) * (fst (spot c) - fst (spot a))).
Definition spot_inc (a b c d : nat) : Z :=
  let x p := (fst (spot p) - fst (spot d))%Z in let y p := (snd (spot p) - snd (spot d))%Z in let q p := (x p * x p + y p * y p)%Z in
  Z.sgn (q a * (x b * y c - y b * x c) - q b * (x a * y c - y a * x c) + q c * (x a * y b - y a * x b)).
Definition spot_lt (axis a b : nat) : bool := if axis =? 0 then (fst (spot a) <? fst (spot b))%Z else (snd (spot a) <? snd (spot b))%Z.
Lemma sgn_IZR z : Z.sgn z = sgn (IZR z).
Proof.
  destruct (Z.lt_trichotomy z 0) as [Q|[->|Q]].
  - rewrite Z.sgn_neg by auto. symmetry. unfold sgn. apply IZR_lt in Q. destruct Rlt_dec; [lra|]. destruct Rlt_dec; [reflexivity|lra].
  - symmetry. now apply sgn_zero.
  - rewrite Z.sgn_pos by auto. symmetry. unfold sgn. apply IZR_lt in Q. destruct Rlt_dec; [reflexivity|lra].
Qed.
Lemma spot_ccw_exact : exact_signs spotR spot_ccw.
Proof. intros a b c. unfold spot_ccw. rewrite sgn_IZR. f_equal. unfold det, spotR. cbn [fst snd]. repeat rewrite ?minus_IZR, ?plus_IZR, ?mult_IZR. ring. Qed.
Lemma spot_inc_exact : exact_circles spotR spot_inc.
Proof. intros a b c d. unfold spot_inc. rewrite sgn_IZR. f_equal. unfold circ, spotR. cbn [fst snd]. repeat rewrite ?minus_IZR, ?plus_IZR, ?mult_IZR. ring. Qed.
(** Nine points in the order alternate_axes leaves them in: cut by x, the halves by y. *)
Definition order9 : list nat := [0; 3; 1; 2; 5; 8; 4; 6; 7].
Lemma order9_cut : cut spotR 0 order9.
Proof.
  assert (B : forall axis a b, ((if Nat.eqb axis 0 then fst (spot a) else snd (spot a)) < (if Nat.eqb axis 0 then fst (spot b) else snd (spot b)))%Z -> ~ before axis (spotR b) (spotR a)).
  { intros axis a b H. unfold before, spotR, coord. apply IZR_lt in H. destruct axis as [|axis]; cbn [fst snd Nat.eqb] in *; lra. }
  assert (L : forall l : list nat, 2 <= length l <= 3 -> (forall i j, i < j < length l -> (fst (spot (nth i l O)) < fst (spot (nth j l O)))%Z) -> forall axis, cut spotR axis l).
  { intros l Hl Hs axis. apply cut_small; [exact Hl|]. destruct l as [|a [|b [|c [|d l]]]]; cbn [length] in *; try lia.
    - repeat constructor. apply B. apply (Hs 0 1). lia.
    - assert (X : (fst (spot a) < fst (spot b))%Z) by (apply (Hs 0 1); lia). assert (Y : (fst (spot a) < fst (spot c))%Z) by (apply (Hs 0 2); lia).
      assert (Z : (fst (spot b) < fst (spot c))%Z) by (apply (Hs 1 2); lia). repeat constructor; apply B; assumption. }
  change order9 with ([0; 3; 1; 2] ++ [5; 8; 4; 6; 7]). apply cut_halves; [cbn; lia|cbn; lia| | |].
  - intros i j Hi Hj. apply B. cbn in Hi, Hj. repeat destruct Hi as [<-|Hi]; try contradiction; repeat destruct Hj as [<-|Hj]; try contradiction; reflexivity.
  - change [0; 3; 1; 2] with ([0; 3] ++ [1; 2]). apply cut_halves; [cbn; lia|cbn; lia| |apply L|apply L]; [|cbn; lia| |cbn; lia|].
    + intros i j Hi Hj. apply B. cbn in Hi, Hj. repeat destruct Hi as [<-|Hi]; try contradiction; repeat destruct Hj as [<-|Hj]; try contradiction; reflexivity.
    + intros i j Hij. cbn in Hij. assert (i = 0) by lia. assert (j = 1) by lia. subst. reflexivity.
    + intros i j Hij. cbn in Hij. assert (i = 0) by lia. assert (j = 1) by lia. subst. reflexivity.
  - change [5; 8; 4; 6; 7] with ([5; 8] ++ [4; 6; 7]). apply cut_halves; [cbn; lia|cbn; lia| |apply L|apply L]; [|cbn; lia| |cbn; lia|].
    + intros i j Hi Hj. apply B. cbn in Hi, Hj. repeat destruct Hi as [<-|Hi]; try contradiction; repeat destruct Hj as [<-|Hj]; try contradiction; reflexivity.
    + intros i j Hij. cbn in Hij. assert (i = 0) by lia. assert (j = 1) by lia. subst. reflexivity.
    + intros i j Hij. cbn in Hij. destruct i as [|[|i]]; [destruct j as [|[|[|j]]]|destruct j as [|[|[|j]]]|]; try lia; reflexivity.
Qed.
Definition run9 := div_conq_recurse 99 spot_ccw (checked 99 (merge_hulls 99 spot_ccw spot_inc spot_lt 20)) [] order9 0 9.
Example C82_run : option_map (fun x => map (fun t => firstn 3 (data t)) (fst (fst x))) run9 =
  Some [[2; 0; 3]; [8; 3; 0]; [2; 4; 1]; [0; 2; 1]; [4; 2; 3]; [99; 0; 1]; [7; 5; 8]; [3; 8; 5];
        [6; 4; 7]; [5; 7; 4]; [8; 6; 7]; [1; 4; 6]; [6; 8; 99]; [3; 5; 4]; [8; 0; 99]; [99; 1; 6]].
Proof. vm_compute. reflexivity. Qed.
Example C82_triangulates_case : exact_signs spotR spot_ccw /\ exact_circles spotR spot_inc /\ cut spotR 0 order9 /\ ~ In 99 order9 /\
  exists m' fl fr, run9 = Some (m', fl, fr) /\ sheet 99 spot_ccw [] m' order9 /\ length m' = 16.
Proof.
  split; [apply spot_ccw_exact|]. split; [apply spot_inc_exact|]. split; [apply order9_cut|]. assert (Ni : ~ In 99 order9) by (cbn; lia). split; [exact Ni|].
  pose proof C82_run as Q. destruct run9 as [((m' & fl) & fr)|] eqn:E; [|discriminate]. clear Q.
  destruct (C82_triangulates_partial 99 spotR spot_ccw spot_inc spot_lt 20 spot_ccw_exact spot_inc_exact _ _ _ _ _ _ _ Ni E) as (_ & A & B). exists m', fl, fr. auto.
Qed.
(** Two points below and two above. *)
Example C82_merge_case : exists m1 m2 fl il ir fr, sheet 99 spot_ccw [] m1 [0; 3] /\ sheet 99 spot_ccw m1 m2 [1; 2] /\
  inside m1 fl /\ inside m1 il /\ org m1 il = Some 99 /\ length m1 <= fst ir /\ inside m2 ir /\ dest m2 ir = Some 99 /\ length m1 <= fst fr /\ inside m2 fr /\
  merge_hulls 99 spot_ccw spot_inc spot_lt 20 m2 1 fl il ir fr <> None.
Proof.
  destruct (C81_two 99 spot_ccw [] 0 3) as (m1 & fl & il & E1 & [A1 (A2 & A3 & _) (A4 & A5 & A6 & _)] & _); [lia|lia|].
  destruct (C81_two 99 spot_ccw m1 1 2) as (m2 & ir & fr & E2 & [B1 (B2 & B3 & B4 & _) (B5 & B6 & _)] & _); [lia|lia|].
  exists m1, m2, fl, il, ir, fr. repeat (split; [assumption|]).
  clear - E1 E2. vm_compute in E1. injection E1 as <- <- <-. vm_compute in E2. injection E2 as <- <- <-. vm_compute. discriminate.
Qed.
Print Assumptions C82_merge_partial.
Print Assumptions C82_triangulates_partial.
