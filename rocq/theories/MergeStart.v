(** Lemmas on merge_hulls (C82): the two triangulations it is given, the sides it
    starts from, and the bottom ghost. *)
From Coq Require Import List Arith Bool ZArith Reals Lia Lra Permutation.
From Verif Require Import Lib Flip Prop_Flip TriSeg TriSegSpec Prop_TriSeg DivConq DivConqSpec MergeHulls MergeSpec MergeInv.
Import ListNotations.
Local Open Scope opt_scope.

Section Region.
Variables (INV : nat) (ccw : nat -> nat -> nat -> Z).
Hypothesis Cyc : forall a b c, ccw a b c = ccw b c a.
Definition rin (n0 N0 : nat) (h : hedge) : Prop := n0 <= fst h < N0 /\ snd h < 3.
(** A sheet, read by sides. *)
Record region (n0 N0 : nat) (D : hedge -> option nat) (S : hedge -> option hedge) (l : list nat) : Prop := {
  r_data : forall t i, n0 <= t < N0 -> i < 6 -> D (t, i) <> None;
  r_mark : forall t i, n0 <= t < N0 -> 3 <= i < 6 -> D (t, i) = Some INV;
  r_nei : forall h, rin n0 N0 h -> exists g, S h = Some g /\ rin n0 N0 g /\ S g = Some h /\ g <> h /\ D (next g) = D (prev h) /\ D (prev g) = D (next h);
  r_once : forall h, rin n0 N0 h -> D h = Some INV -> D (next h) <> Some INV /\ D (prev h) <> Some INV;
  r_corner : forall h v, rin n0 N0 h -> D h = Some v -> v = INV \/ In v l;
  r_point : forall v, In v l -> exists h, rin n0 N0 h /\ D h = Some v;
  r_real : forall h a b c, rin n0 N0 h -> D h = Some a -> D (next h) = Some b -> D (prev h) = Some c -> a <> INV -> b <> INV -> c <> INV -> (0 < ccw a b c)%Z;
  r_ring : exists h hull, path S h (hull ++ [h]) /\ NoDup (map fst (h :: hull)) /\ (forall g, In g (h :: hull) -> rin n0 N0 g /\ D (prev g) = Some INV) /\
    forall h', rin n0 N0 h' -> D h' = Some INV -> In (fst h') (map fst (h :: hull)) }.
Definition dat (m : list triangle) (h : hedge) : option nat := get_data m (fst h) (snd h).
Lemma data_lt m t i v : get_data m t i = Some v -> t < length m.
Proof. unfold get_data. destruct (nth_error m t) eqn:E; [|discriminate]. intros _. eapply nth_error_lt; eauto. Qed.
Lemma rin_next n0 N0 h : rin n0 N0 h -> rin n0 N0 (next h). Proof. intros (A & B). split; [exact A|apply snd_next]. Qed.
Lemma rin_prev n0 N0 h : rin n0 N0 h -> rin n0 N0 (prev h). Proof. intros (A & B). split; [exact A|apply snd_prev]. Qed.
Lemma sheet_region m m' l : sheet INV ccw m m' l -> region (length m) (length m') (dat m') (sym m') l.
Proof.
  intros [So Sd Sn Sc Sp Sq Sm Sr Sh].
  assert (I : forall h, rin (length m) (length m') h -> length m <= fst h /\ inside m' h) by (intros h (A & B); repeat split; auto; lia).
  assert (J : forall h, length m <= fst h -> inside m' h -> rin (length m) (length m') h) by (intros h A (B & C); repeat split; auto; lia).
  assert (Lt : forall h v, dat m' h = Some v -> fst h < length m') by (intros h v E; eapply data_lt; exact E).
  constructor.
  - intros t i A B. unfold dat. cbn [fst snd]. auto.
  - intros t i A B. specialize (Sm (t, i - 3)). unfold mark in Sm. cbn [fst snd] in Sm. unfold dat. cbn [fst snd]. replace i with (i - 3 + 3) by lia. apply Sm; [lia|split; cbn; lia].
  - intros h Hh. destruct (I h Hh) as (A & B). destruct (Sn h A B) as (g & X1 & X2 & X3 & X4 & X5 & X6 & X7). exists g. repeat split; auto; try (apply J; auto); try apply X3.
  - intros h Hh E. destruct (I h Hh) as (A & B). destruct (sides_neq h (proj2 B)) as (N1 & N2 & _). destruct h as (t & i). unfold dat in *. cbn [fst snd] in *.
    split; intros Q; [apply N1|apply N2]; unfold next, prev in *; cbn [fst snd] in *; f_equal; apply (Sq t); auto; try apply Nat.mod_upper_bound; try apply B; lia.
  - intros h v Hh E. apply (Sc (fst h) (snd h)); auto; apply Hh.
  - intros v Hv. destruct (Sp v Hv) as (t & i & A & B & C). exists (t, i). split; [split; cbn [fst snd]; auto; split; auto; eapply data_lt; eauto|exact C].
  - intros h a b c Hh Da Db Dc Na Nb Nc. destruct h as (t & i). destruct Hh as ((A1 & A2) & A3). unfold dat, next, prev in *. cbn [fst snd] in *.
    destruct (three _ A3) as [->|[->| ->]]; cbn in Da, Db, Dc.
    + apply (Sr t a b c); auto.
    + rewrite <- Cyc. apply (Sr t c a b); auto.
    + rewrite Cyc. apply (Sr t b c a); auto.
  - destruct Sh as (h & hull & A & B & C & E). exists h, hull. split; [exact A|]. split; [exact B|]. split.
    + intros g Hg. destruct (C g Hg) as (X & Y & Z). split; [apply J; auto|exact Z].
    + intros h' Hh' Eh. apply E; [destruct Hh'; lia|]. exists (snd h'). split; [apply Hh'|exact Eh].
Qed.
Lemma region_ext n0 N0 D D' S S' l : (forall h, n0 <= fst h < N0 -> D' h = D h) -> (forall h, rin n0 N0 h -> S' h = S h) -> region n0 N0 D S l -> region n0 N0 D' S' l.
Proof.
  intros Hd Hs [Rd Rm Rn Ro Rc Rp Rr Rh].
  assert (Hd' : forall h, rin n0 N0 h -> D' h = D h) by (intros h Hh; apply Hd, Hh).
  constructor.
  - intros t i A B. rewrite Hd by exact A. auto.
  - intros t i A B. rewrite Hd by exact A. auto.
  - intros h Hh. destruct (Rn h Hh) as (g & X1 & X2 & X3 & X4 & X5 & X6). exists g. rewrite !Hs, !Hd' by auto using rin_next, rin_prev. auto 10.
  - intros h Hh. rewrite !Hd' by auto using rin_next, rin_prev. auto.
  - intros h v Hh. rewrite !Hd' by auto. exact (Rc h v Hh).
  - intros v Hv. destruct (Rp v Hv) as (h & A & B). exists h. rewrite Hd' by auto. auto.
  - intros h a b c Hh. rewrite !Hd' by auto using rin_next, rin_prev. exact (Rr h a b c Hh).
  - destruct Rh as (h & hull & A & B & C & E). exists h, hull. split; [|split; [exact B|split]].
    + eapply path_ext; [|exact A]. intros x Hx. rewrite app_comm_cons, removelast_last in Hx. apply Hs, rin_next. now apply C.
    + intros g Hg. destruct (C g Hg). rewrite Hd' by auto using rin_prev. auto.
    + intros h' Hh'. rewrite Hd' by auto. auto.
Qed.
(** The way around the hull can start anywhere. *)
Lemma ring_from S h hull x : path S h (hull ++ [h]) -> In x (h :: hull) -> exists hull', path S x (hull' ++ [x]) /\ Permutation (h :: hull) (x :: hull').
Proof.
  intros Hp [->|Hx]; [exists hull; auto|]. apply in_split in Hx. destruct Hx as (A & B & ->). exists (B ++ h :: A).
  rewrite <- app_assoc in Hp. cbn [app] in Hp. apply path_app in Hp. destruct Hp as (P1 & P2). cbn [path] in P2. destruct P2 as (P2 & P3). split.
  - replace ((B ++ h :: A) ++ [x]) with ((B ++ [h]) ++ (A ++ [x])) by (rewrite <- !app_assoc; reflexivity). apply path_app. split; [exact P3|]. rewrite last_last. apply path_app. split; [exact P1|]. cbn. auto.
  - apply (Permutation_trans (l' := (h :: A) ++ x :: B)); [reflexivity|]. apply (Permutation_trans (l' := (x :: B) ++ h :: A)); [apply Permutation_app_comm|reflexivity].
Qed.
Lemma region_ring n0 N0 D S l : region n0 N0 D S l -> forall x, rin n0 N0 x -> D (prev x) = Some INV ->
  exists hull, path S x (hull ++ [x]) /\ NoDup (map fst (x :: hull)) /\ (forall g, In g (x :: hull) -> rin n0 N0 g /\ D (prev g) = Some INV) /\
    forall h', rin n0 N0 h' -> D h' = Some INV -> In (fst h') (map fst (x :: hull)).
Proof.
  intros R x Ix Dx. destruct (r_ring _ _ _ _ _ R) as (h & hull & A & B & C & E).
  assert (In x (h :: hull)) as Hx.
  { pose proof (E (prev x) (rin_prev _ _ _ Ix) Dx) as Q. apply (in_map_iff fst (h :: hull)) in Q. destruct Q as (g & Eg & Hg). change (fst (prev x)) with (fst x) in Eg.
    destruct (C g Hg) as (Ig & Dg). replace x with g; [exact Hg|].
    destruct (sides x g (proj2 Ix) (proj2 Ig) Eg) as [->|[->| ->]]; auto; exfalso.
    - rewrite pn in Dg by apply Ix. destruct (r_once _ _ _ _ _ R x Ix Dg); auto.
    - rewrite pp in Dg by apply Ix. destruct (r_once _ _ _ _ _ R (next x) (rin_next _ _ _ Ix) Dg) as (W & _). rewrite nn in W by apply Ix. auto. }
  destruct (ring_from S h hull x A Hx) as (hull' & P1 & P2). exists hull'. split; [exact P1|]. split; [|split].
  - eapply Permutation_NoDup; [|exact B]. now apply Permutation_map.
  - intros g Hg. apply C. eapply Permutation_in; [apply Permutation_sym; exact P2|exact Hg].
  - intros h' Hh Dh. eapply Permutation_in; [apply Permutation_map; exact P2|auto].
Qed.
End Region.

Ltac ups := repeat first [rewrite up_eq|rewrite up_ne by first [assumption|apply not_eq_sym; assumption]].
(** * Before knitting *)
Section Start.
Variables (INV : nat) (ccw : nat -> nat -> nat -> Z) (n0 n1 N : nat) (D : hedge -> option nat) (S : hedge -> option hedge) (l r : list nat) (m : list triangle).
Hypotheses (Rl : region INV ccw n0 n1 D S l) (Rr : region INV ccw n1 N D S r).
Hypothesis Rep : forall h, apex m h = D h /\ org m h = D (next h) /\ dest m h = D (prev h) /\ sym m h = S h.
(** inner_left comes from the ghost vertex, inner_right goes to it. *)
Definition at_left (h : hedge) (pt ap : nat) : Prop := rin n0 n1 h /\ D (next h) = Some INV /\ D (prev h) = Some pt /\ D h = Some ap.
Definition at_right (h : hedge) (pt ap : nat) : Prop := rin n1 N h /\ D (prev h) = Some INV /\ D (next h) = Some pt /\ D h = Some ap.
Lemma right_turn h pt ap g a : at_right h pt ap -> S (next h) = Some g -> D g = Some a -> at_right g ap a.
Proof.
  intros (I & A & B & C) E Da. destruct (r_nei _ _ _ _ _ _ _ Rr (next h) (rin_next _ _ _ I)) as (g' & X1 & X2 & X3 & X4 & X5 & X6). assert (g' = g) by congruence. subst g'.
  rewrite pn in X5 by apply I. rewrite nn in X6 by apply I. repeat split; try apply X2; congruence.
Qed.
Lemma left_turn h pt ap g a : at_left h pt ap -> S (prev h) = Some g -> D g = Some a -> at_left g ap a.
Proof.
  intros (I & A & B & C) E Da. destruct (r_nei _ _ _ _ _ _ _ Rl (prev h) (rin_prev _ _ _ I)) as (g' & X1 & X2 & X3 & X4 & X5 & X6). assert (g' = g) by congruence. subst g'.
  rewrite pp in X5 by apply I. rewrite np in X6 by apply I. repeat split; try apply X2; congruence.
Qed.
Lemma left_back h pt ap g a : at_left h pt ap -> S h = Some g -> D g = Some a -> at_left (next g) a pt.
Proof.
  intros (I & A & B & C) E Da. destruct (r_nei _ _ _ _ _ _ _ Rl h I) as (g' & X1 & X2 & X3 & X4 & X5 & X6). assert (g' = g) by congruence. subst g'.
  split; [now apply rin_next|]. rewrite nn, pn by apply X2. repeat split; congruence.
Qed.
Lemma shift_apex_ok more fuel : forall h pt ap h' pt' ap', at_right h pt ap -> shift_apex next more m h pt ap fuel = Some (h', pt', ap') -> at_right h' pt' ap'.
Proof.
  induction fuel as [|k IH]; intros h pt ap h' pt' ap' A E; [discriminate|]. cbn [shift_apex] in E. destruct (more ap pt); [|injection E as <- <- <-; exact A].
  destruct (Rep (next h)) as (_ & _ & _ & Es). rewrite Es in E. destruct (S (next h)) as [g|] eqn:Sg; [|discriminate]. destruct (Rep g) as (Ea & _). rewrite Ea in E.
  destruct (D g) as [a|] eqn:Dg; [|discriminate]. eapply IH; [|exact E]. eapply right_turn; eauto.
Qed.
Lemma shift_check_ok more fuel : forall h pt ap h' pt' ap', at_left h pt ap -> shift_check next more m h pt ap fuel = Some (h', pt', ap') -> at_left h' pt' ap'.
Proof.
  induction fuel as [|k IH]; intros h pt ap h' pt' ap' A E; [discriminate|]. cbn [shift_check] in E.
  destruct (Rep h) as (_ & _ & _ & Es). rewrite Es in E. destruct (S h) as [g|] eqn:Sg; [|discriminate]. destruct (Rep g) as (Ea & _). rewrite Ea in E.
  destruct (D g) as [a|] eqn:Dg; [|discriminate]. destruct (more a pt); [|injection E as <- <- <-; exact A]. eapply IH; [|exact E]. eapply left_back; eauto.
Qed.
Lemma tangent_ok fuel : forall il ild ila ir iro ira il' ild' ir' iro', at_left il ild ila -> at_right ir iro ira ->
  tangent ccw m il ild ila ir iro ira fuel = Some (il', ild', ir', iro') -> (exists a, at_left il' ild' a) /\ exists a, at_right ir' iro' a.
Proof.
  induction fuel as [|k IH]; intros il ild ila ir iro ira il' ild' ir' iro' A B E; [discriminate|]. cbn [tangent] in E.
  assert (exists c1 il1 ild1 ila1, at_left il1 ild1 ila1 /\ (if (0 <? ccw ild ila iro)%Z then il <- sym m (prev il) ;; a <- apex m il ;; Some (true, il, ila, a) else Some (false, il, ild, ila)) = Some (c1, il1, ild1, ila1)) as (c1 & il1 & ild1 & ila1 & A1 & E1).
  { destruct (0 <? ccw ild ila iro)%Z; [|do 4 eexists; split; [exact A|reflexivity]]. destruct (Rep (prev il)) as (_ & _ & _ & Es). rewrite Es in *. destruct (S (prev il)) as [g|] eqn:Sg; [|discriminate].
    destruct (Rep g) as (Ea & _). rewrite Ea in *. destruct (D g) as [a|] eqn:Dg; [|discriminate]. do 4 eexists. split; [eapply left_turn; eauto|reflexivity]. }
  rewrite E1 in E.
  assert (exists c2 ir1 iro1 ira1, at_right ir1 iro1 ira1 /\ (if (0 <? ccw ira iro ild1)%Z then ir <- sym m (next ir) ;; a <- apex m ir ;; Some (true, ir, ira, a) else Some (false, ir, iro, ira)) = Some (c2, ir1, iro1, ira1)) as (c2 & ir1 & iro1 & ira1 & B1 & E2).
  { destruct (0 <? ccw ira iro ild1)%Z; [|do 4 eexists; split; [exact B|reflexivity]]. destruct (Rep (next ir)) as (_ & _ & _ & Es). rewrite Es in *. destruct (S (next ir)) as [g|] eqn:Sg; [|discriminate].
    destruct (Rep g) as (Ea & _). rewrite Ea in *. destruct (D g) as [a|] eqn:Dg; [|discriminate]. do 4 eexists. split; [eapply right_turn; eauto|reflexivity]. }
  rewrite E2 in E. destruct (c1 || c2); [eapply IH; eauto|]. injection E as <- <- <- <-. eauto.
Qed.

(** The bottom ghost joins the two hulls. *)
Variable m0 : list triangle.
Hypotheses (L0 : length m0 = n0) (Ninv : ~ In INV (l ++ r)).
Lemma start_ok il ild ila ir iro ira : at_left il ild ila -> at_right ir iro ira ->
  exists lc rc ul ur L, S il = Some lc /\ S ir = Some rc /\
  let D' := up (up (newD INV N D) (N, 0) iro) (N, 1) ild in
  let S' := up (up (up (up (newS INV N S) (N, 0) il) il (N, 0)) (N, 1) ir) ir (N, 1) in
  D' lc = Some ul /\ D' rc = Some ur /\ knitting INV ccw m0 (l ++ r) (N + 1) D' S' (N, 2) lc rc ild iro ul ur L.
Proof.
  intros (Il & A1 & A2 & A3) (Ir & B1 & B2 & B3).
  assert (r_some : forall a b w h, region INV ccw a b D S w -> rin a b h -> D h <> None).
  { intros a b w (t & i) W (X & Y). cbn [fst snd] in *. apply W; [exact X|lia]. }
  destruct (r_nei _ _ _ _ _ _ _ Rl il Il) as (lc & X1 & X2 & X3 & X4 & X5 & X6). destruct (r_nei _ _ _ _ _ _ _ Rr ir Ir) as (rc & Y1 & Y2 & Y3 & Y4 & Y5 & Y6).
  rewrite A2 in X5. rewrite A1 in X6. rewrite B1 in Y5. rewrite B2 in Y6.
  assert (n1N : n0 < n1 < N) by (destruct Il as ((? & ?) & _), Ir as ((? & ?) & _); lia).
  destruct (region_ring _ _ _ _ _ _ _ Rl lc X2 X6) as (LA & P1 & P2 & P3 & P4). destruct (region_ring _ _ _ _ _ _ _ Rr ir Ir B1) as (LB & Q1 & Q2 & Q3 & Q4).
  apply path_app in P1. destruct P1 as (P1 & P5). cbn [path] in P5. destruct P5 as (P5 & _). apply path_app in Q1. destruct Q1 as (Q1 & Q5). cbn [path] in Q5. destruct Q5 as (Q5 & _).
  assert (InA : In (last LA lc) (lc :: LA)) by (rewrite <- (last_first lc lc); apply last_in; discriminate).
  assert (InB : In (last LB ir) (ir :: LB)) by (rewrite <- (last_first ir ir); apply last_in; discriminate).
  assert (LastA : last LA lc = prev il).
  { destruct (P3 _ InA) as (W & _). destruct (r_nei _ _ _ _ _ _ _ Rl (next (last LA lc)) (rin_next _ _ _ W)) as (g & Z1 & _ & Z3 & _). assert (g = lc) by congruence. subst g.
    assert (il = next (last LA lc)) by congruence. subst il. rewrite pn by apply W. reflexivity. }
  assert (LastB : last LB ir = prev rc).
  { destruct (Q3 _ InB) as (W & _). destruct (r_nei _ _ _ _ _ _ _ Rr (next (last LB ir)) (rin_next _ _ _ W)) as (g & Z1 & _ & Z3 & _). assert (g = ir) by congruence. subst g.
    assert (rc = next (last LB ir)) by congruence. subst rc. rewrite pn by apply W. reflexivity. }
  destruct (D lc) as [ul|] eqn:Dlc; [|exfalso; exact (r_some _ _ _ _ Rl X2 Dlc)]. destruct (D rc) as [ur|] eqn:Drc; [|exfalso; exact (r_some _ _ _ _ Rr Y2 Drc)].
  exists lc, rc, ul, ur, (LA ++ (N, 0) :: ir :: LB). split; [exact X1|]. split; [exact Y1|]. intros D' S'.
  assert (Fil : fst il <> N) by (destruct Il; lia). assert (Fir : fst ir <> N) by (destruct Ir; lia). assert (Flc : fst lc <> N) by (destruct X2; lia). assert (Frc : fst rc <> N) by (destruct Y2; lia).
  assert (Fi : il <> ir) by (intros ->; destruct Il, Ir; lia).
  assert (Nild : ild <> INV).
  { intros ->. destruct (r_once _ _ _ _ _ _ _ Rl (next il) (rin_next _ _ _ Il) A1) as (W & _). rewrite nn in W by apply Il. auto. }
  assert (Niro : iro <> INV).
  { intros ->. destruct (r_once _ _ _ _ _ _ _ Rr (next ir) (rin_next _ _ _ Ir) B2) as (W & _). rewrite nn in W by apply Ir. auto. }
  assert (ye : forall (h : hedge) (i : nat), fst h <> N -> h <> (N, i)) by (intros h i Hh ->; apply Hh; reflexivity).
  assert (x01 : (N, 0) <> (N, 1)) by congruence.
  pose proof (ye il 0 Fil) as yi0. pose proof (ye il 1 Fil) as yi1. pose proof (ye ir 0 Fir) as yr0. pose proof (ye ir 1 Fir) as yr1.
  assert (D0 : D' (N, 0) = Some iro) by (subst D'; ups; reflexivity). assert (D1 : D' (N, 1) = Some ild) by (subst D'; ups; reflexivity).
  assert (D2 : D' (N, 2) = Some INV) by (subst D'; rewrite !up_ne by congruence; unfold newD; cbn [fst snd]; rewrite Nat.eqb_refl; reflexivity).
  assert (Dm : forall i, 3 <= i < 6 -> D' (N, i) = Some INV).
  { intros i Hi. subst D'. rewrite !up_ne by (intros Q; injection Q; lia). unfold newD. cbn [fst snd]. rewrite Nat.eqb_refl. destruct (Nat.ltb_spec i 6); [reflexivity|lia]. }
  assert (Do : forall x, fst x <> N -> D' x = D x).
  { intros x Hx. subst D'. rewrite !up_ne by (apply ye; exact Hx). unfold newD. destruct (Nat.eqb_spec (fst x) N); [contradiction|reflexivity]. }
  assert (S0 : S' (N, 0) = Some il) by (subst S'; ups; reflexivity). assert (S1 : S' (N, 1) = Some ir) by (subst S'; ups; reflexivity).
  assert (S2 : S' (N, 2) <> None) by (subst S'; repeat apply up_some; unfold newS; cbn [fst snd]; rewrite Nat.eqb_refl; discriminate).
  assert (Sil : S' il = Some (N, 0)) by (subst S'; ups; reflexivity). assert (Sir : S' ir = Some (N, 1)) by (subst S'; ups; reflexivity).
  assert (So : forall x, fst x <> N -> x <> il -> x <> ir -> S' x = S x).
  { intros x Hx W1 W2. subst S'. pose proof (ye x 0 Hx). pose proof (ye x 1 Hx). ups. unfold newS. destruct (Nat.eqb_spec (fst x) N); [contradiction|reflexivity]. }
  clearbody D' S'.
  assert (cases : forall h, ins m0 (N + 1) h -> rin n0 n1 h \/ rin n1 N h \/ exists i, h = (N, i) /\ i < 3).
  { intros (t & i) (W1 & W2). rewrite L0 in W1. cbn [fst snd] in *. unfold rin. cbn [fst snd]. destruct (Nat.eq_dec t N) as [->|]; [eauto 6|]. lia. }
  assert (cases_t : forall t, n0 <= t < N + 1 -> n0 <= t < n1 \/ n1 <= t < N \/ t = N) by (intros; lia).
  assert (inl : forall h, rin n0 n1 h -> ins m0 (N + 1) h /\ fst h <> N) by (intros h (W1 & W2); unfold ins; rewrite L0; repeat split; auto; lia).
  assert (inr : forall h, rin n1 N h -> ins m0 (N + 1) h /\ fst h <> N) by (intros h (W1 & W2); unfold ins; rewrite L0; repeat split; auto; lia).
  assert (inN : forall i, i < 3 -> ins m0 (N + 1) (N, i)) by (intros i Hi; unfold ins; rewrite L0; cbn [fst snd]; repeat split; auto; lia).
  assert (lr_ne : forall h g, rin n0 n1 h -> rin n1 N g -> h <> g) by (intros h g (W1 & _) (W2 & _) ->; lia).
  split; [rewrite Do by auto; exact Dlc|]. split; [rewrite Do by auto; exact Drc|].
  constructor.
  - apply inN. lia.
  - now apply inl.
  - now apply inr.
  - intros t i Ht Hi. rewrite L0 in Ht. destruct (cases_t t Ht) as [W|[W| ->]]; [rewrite Do by (cbn; lia); now apply Rl|rewrite Do by (cbn; lia); now apply Rr|].
    destruct (Nat.lt_ge_cases i 3) as [Z|Z]; [destruct (three _ Z) as [->|[->| ->]]; congruence|rewrite Dm by lia; discriminate].
  - intros h Hh. destruct (cases h Hh) as [W|[W|(i & -> & Hi)]].
    + destruct (r_nei _ _ _ _ _ _ _ Rl h W) as (g & Z1 & _). destruct (he_eqb_spec h il) as [->|Q]; [congruence|]. rewrite So; [congruence|now apply inl|auto|now apply lr_ne].
    + destruct (r_nei _ _ _ _ _ _ _ Rr h W) as (g & Z1 & _). destruct (he_eqb_spec h ir) as [->|Q]; [congruence|]. rewrite So; [congruence|now apply inr|apply not_eq_sym; now apply lr_ne|auto].
    + destruct (three _ Hi) as [->|[->| ->]]; congruence.
  - intros t i Ht Hi. rewrite L0 in Ht. destruct (cases_t t Ht) as [W|[W| ->]]; [rewrite Do by (cbn; lia); now apply Rl|rewrite Do by (cbn; lia); now apply Rr|now apply Dm].
  - intros h Hh N1 N2 N3. destruct (cases h Hh) as [W|[W|(i & -> & Hi)]].
    + destruct (inl h W) as (_ & Fh). destruct (he_eqb_spec h il) as [->|Q].
      * exists (N, 0). change (next (N, 0)) with (N, 1). change (prev (N, 0)) with (N, 2). rewrite D1, D2, !Do by assumption. rewrite A1, A2. repeat split; auto; try (apply inN; lia); try congruence; try (apply not_eq_sym; now auto).
      * destruct (r_nei _ _ _ _ _ _ _ Rl h W) as (g & Z1 & Z2 & Z3 & Z4 & Z5 & Z6). destruct (inl g Z2) as (Ig & Fg). assert (g <> il) by congruence. assert (g <> lc) by congruence.
        exists g. rewrite !So, !Do by (first [assumption|now apply lr_ne]). repeat split; auto; try apply Ig; now apply lr_ne.
    + destruct (inr h W) as (_ & Fh). destruct (he_eqb_spec h ir) as [->|Q].
      * exists (N, 1). change (next (N, 1)) with (N, 2). change (prev (N, 1)) with (N, 0). rewrite D0, D2, !Do by assumption. rewrite B1, B2. repeat split; auto; try (apply inN; lia); try congruence; try (apply not_eq_sym; now auto).
      * destruct (r_nei _ _ _ _ _ _ _ Rr h W) as (g & Z1 & Z2 & Z3 & Z4 & Z5 & Z6). destruct (inr g Z2) as (Ig & Fg). assert (g <> ir) by congruence. assert (g <> rc) by congruence.
        exists g. rewrite !So, !Do by (first [assumption|apply not_eq_sym; now apply lr_ne]). repeat split; auto; try apply Ig; apply not_eq_sym; now apply lr_ne.
    + destruct (three _ Hi) as [->|[->| ->]]; [| |congruence].
      * exists il. destruct (inl il Il) as (Ii & _). change (next (N, 0)) with (N, 1). change (prev (N, 0)) with (N, 2). rewrite D1, D2, !Do by assumption. rewrite A1, A2. repeat split; auto; try apply Ii; now apply lr_ne.
      * exists ir. destruct (inr ir Ir) as (Ii & _). change (next (N, 1)) with (N, 2). change (prev (N, 1)) with (N, 0). rewrite D0, D2, !Do by assumption. rewrite B1, B2. repeat split; auto; try apply Ii; apply not_eq_sym; now apply lr_ne.
  - change (next (N, 2)) with (N, 0). change (prev (N, 2)) with (N, 1). auto.
  - rewrite !Do by assumption. auto.
  - rewrite !Do by assumption. auto.
  - intros h Hh Dh. destruct (cases h Hh) as [W|[W|(i & -> & Hi)]].
    + destruct (inl h W) as (_ & Fh). rewrite !Do by assumption. rewrite Do in Dh by assumption. apply (r_once _ _ _ _ _ _ _ Rl); auto.
    + destruct (inr h W) as (_ & Fh). rewrite !Do by assumption. rewrite Do in Dh by assumption. apply (r_once _ _ _ _ _ _ _ Rr); auto.
    + destruct (three _ Hi) as [->|[->| ->]]; [congruence|congruence|]. change (next (N, 2)) with (N, 0). change (prev (N, 2)) with (N, 1). split; congruence.
  - intros h v Hh Dh. rewrite in_app_iff. destruct (cases h Hh) as [W|[W|(i & -> & Hi)]].
    + destruct (inl h W) as (_ & Fh). rewrite Do in Dh by assumption. destruct (r_corner _ _ _ _ _ _ _ Rl h v W Dh); auto.
    + destruct (inr h W) as (_ & Fh). rewrite Do in Dh by assumption. destruct (r_corner _ _ _ _ _ _ _ Rr h v W Dh); auto.
    + destruct (three _ Hi) as [->|[->| ->]]; [|..]; [replace v with iro by congruence|replace v with ild by congruence|left; congruence].
      * destruct (r_corner _ _ _ _ _ _ _ Rr _ _ (rin_next _ _ _ Ir) B2); auto.
      * destruct (r_corner _ _ _ _ _ _ _ Rl _ _ (rin_prev _ _ _ Il) A2); auto.
  - intros v Hv. apply in_app_or in Hv. destruct Hv as [Hv|Hv].
    + destruct (r_point _ _ _ _ _ _ _ Rl v Hv) as (h & W & Z). destruct (inl h W). exists h. rewrite Do by assumption. auto.
    + destruct (r_point _ _ _ _ _ _ _ Rr v Hv) as (h & W & Z). destruct (inr h W). exists h. rewrite Do by assumption. auto.
  - intros h a b c Hh Da Db Dc Na Nb Nc. destruct (cases h Hh) as [W|[W|(i & -> & Hi)]].
    + destruct (inl h W) as (_ & Fh). rewrite Do in Da, Db, Dc by assumption. eapply (r_real _ _ _ _ _ _ _ Rl h); eauto.
    + destruct (inr h W) as (_ & Fh). rewrite Do in Da, Db, Dc by assumption. eapply (r_real _ _ _ _ _ _ _ Rr h); eauto.
    + exfalso. destruct (three _ Hi) as [->|[->| ->]]; [change (prev (N, 0)) with (N, 2) in Dc|change (next (N, 1)) with (N, 2) in Db|]; congruence.
  - apply path_app. split; [|rewrite LastA; cbn [path]; rewrite np by apply Il; split; [exact Sil|]; change (next (N, 0)) with (N, 1); split; [exact S1|]].
    + eapply path_ext; [|exact P1]. intros x Hx. pose proof (removelast_ne (lc :: LA) lc x P2 Hx) as Nx. rewrite last_first, LastA in Nx. apply in_removelast in Hx. destruct (P3 x Hx) as (Ix & Dx).
      apply So; [apply (inl x Ix)|intros Q; apply Nx; rewrite <- Q, pn by apply Ix; reflexivity|apply lr_ne; [now apply rin_next|exact Ir]].
    + eapply path_ext; [|exact Q1]. intros x Hx. apply in_removelast in Hx. destruct (Q3 x Hx) as (Ix & Dx).
      apply So; [apply (inr x Ix)|apply not_eq_sym, lr_ne; [exact Il|now apply rin_next]|]. intros Q. assert (W : D (next ir) = Some INV) by (rewrite <- Q, nn by apply Ix; exact Dx). congruence.
  - rewrite <- LastB. clear. induction LA as [|x LA IH] using rev_ind; [cbn [app]; rewrite !last_first; reflexivity|]. rewrite <- app_assoc. cbn [app].
    assert (forall (A : list hedge) x y z B d, last (A ++ x :: y :: z :: B) d = last B z) as E.
    { induction A as [|w A IHA]; intros; cbn [app]; rewrite !last_first; [reflexivity|]. specialize (IHA x0 y z B d). destruct A; cbn [app] in *; rewrite ?last_first in *; auto. }
    apply E.
  - change (lc :: LA ++ (N, 0) :: ir :: LB) with ((lc :: LA) ++ (N, 0) :: ir :: LB). rewrite map_app. change (map fst ((N, 0) :: ir :: LB)) with (N :: map fst (ir :: LB)).
    apply (Permutation_NoDup (l := N :: map fst (lc :: LA) ++ map fst (ir :: LB))); [apply Permutation_middle|].
    assert (UA : forall t, In t (map fst (lc :: LA)) -> n0 <= t < n1) by (intros t Q; apply (in_map_iff fst (lc :: LA)) in Q; destruct Q as (g & <- & Hg); apply P3 in Hg; apply Hg).
    assert (UB : forall t, In t (map fst (ir :: LB)) -> n1 <= t < N) by (intros t Q; apply (in_map_iff fst (ir :: LB)) in Q; destruct Q as (g & <- & Hg); apply Q3 in Hg; apply Hg).
    constructor; [intros Q; apply in_app_or in Q; destruct Q as [Q|Q]; [apply UA in Q|apply UB in Q]; lia|].
    revert P2 Q2 UA UB. generalize (map fst (lc :: LA)), (map fst (ir :: LB)). clear. intros a b Na Nb UA UB. induction a as [|x a IH]; cbn [app]; [exact Nb|].
    inversion Na; subst. constructor; [|apply IH; auto; intros; apply UA; right; auto]. intros Q. apply in_app_or in Q. destruct Q as [Q|Q]; [auto|]. apply UB in Q. specialize (UA x (or_introl eq_refl)). lia.
  - intros g Hg. change (lc :: LA ++ (N, 0) :: ir :: LB) with ((lc :: LA) ++ (N, 0) :: ir :: LB) in Hg. apply in_app_or in Hg. destruct Hg as [Hg|[<-|Hg]].
    + destruct (P3 g Hg) as (W & Z). destruct (inl g W). rewrite Do by assumption. auto.
    + split; [apply inN; lia|exact D2].
    + destruct (Q3 g Hg) as (W & Z). destruct (inr g W). rewrite Do by assumption. auto.
  - intros h Hh Dh. change (lc :: LA ++ (N, 0) :: ir :: LB) with ((lc :: LA) ++ (N, 0) :: ir :: LB). rewrite map_app. apply in_or_app. destruct (cases h Hh) as [W|[W|(i & -> & Hi)]].
    + destruct (inl h W) as (_ & Fh). rewrite Do in Dh by assumption. left. auto.
    + destruct (inr h W) as (_ & Fh). rewrite Do in Dh by assumption. right. right. auto.
    + right. left. reflexivity.
Qed.
End Start.
