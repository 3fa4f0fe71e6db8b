(** C83: the insertion of segments in src/triangle/triangle.rs. *)
From Coq Require Import List Arith Bool ZArith Reals Lia Lra.
From Verif Require Import Lib Flip Prop_Flip TriSegSpec TriSeg TriSegProofs TriSegWalk Prop_TriSeg DivConq DivConqSpec MergeHulls MergeSpec MergeInv Prop_Merge Skeleton SkeletonSpec SkeletonProofs.
Import ListNotations.
Local Open Scope opt_scope.

Lemma held_refl n m vm : sound m -> mapped m vm -> held n m vm m vm.
Proof. intros. constructor; auto. Qed.
Lemma held_trans n m vm m1 vm1 m2 vm2 : held n m vm m1 vm1 -> held n m1 vm1 m2 vm2 -> held n m vm m2 vm2.
Proof.
  intros [A1 A2 (A3 & A4) A5] [B1 B2 (B3 & B4) B5]. constructor; [exact B1|congruence|split; [exact B3|congruence]|].
  intros t (i & v & Hi & Gi & Nv) j Hj. rewrite B5; [apply A5; eauto|exists i, v; rewrite A5; eauto|exact Hj].
Qed.
Lemma kept_refl INV n m vm : sound m -> mapped m vm -> marked_pairs INV m -> kept INV n m vm m vm.
Proof. intros. constructor; [now apply held_refl|assumption|tauto|]. intros h I _. exists h. auto 6. Qed.
Lemma kept_trans INV n m vm m1 vm1 m2 vm2 : kept INV n m vm m1 vm1 -> kept INV n m1 vm1 m2 vm2 -> kept INV n m vm m2 vm2.
Proof.
  intros [A1 A2 A3 A4] [B1 B2 B3 B4]. constructor; [eapply held_trans; eauto|exact B2| |].
  - intros k u v Nk. rewrite (A3 k u v Nk). now apply B3.
  - intros h I Mk. destruct (B4 h I Mk) as (h1 & I1 & M1 & O1 & D1 & Bo1). destruct (A4 h1 I1 ltac:(congruence)) as (h2 & I2 & M2 & O2 & D2 & Bo2). exists h2. repeat split; try congruence; try apply I2. auto.
Qed.
Lemma held_inside n m vm m' vm' h : held n m vm m' vm' -> inside m h -> inside m' h.
Proof. intros H (A & B). split; [rewrite (hd_length _ _ _ _ _ H); exact A|exact B]. Qed.

(** Whatever the repair flips, it flips only edges between two triangles with
    different points across, of which it has looked at all four corners, and none with
    a mark: the mesh stays a triangulation, the vertex map stays right, the triangles
    with the ghost vertex keep their corners, and the inserted segments stay. *)
Section Fixup.
Variables (INV n : nat) (P : nat -> R * R) (ccw : nat -> nat -> nat -> Z) (inc : nat -> nat -> nat -> nat -> Z) (ghost : list bool).
Variable swap : list triangle -> hedge -> list hedge -> option (list triangle * list hedge).
Hypothesis Ex : exact_signs P ccw.
Hypothesis Sw : forall m e vm r, swap m e vm = Some r -> flip m e vm = Some r.
Lemma turn_lt a b c s : turn n ccw a b c = Some s -> a < n /\ b < n /\ c < n /\ s = ccw a b c.
Proof. unfold turn. destruct (Nat.ltb_spec a n), (Nat.ltb_spec b n), (Nat.ltb_spec c n); cbn [andb]; intros E; try discriminate. injection E as <-. auto. Qed.
Lemma turn_differ a b c s : turn n ccw a b c = Some s -> (0 < s)%Z -> a <> c.
Proof. intros E H ->. apply turn_lt in E. destruct E as (_ & _ & _ & ->). rewrite Ex in H. apply sgn_pos in H. unfold det in H. lra. Qed.
Lemma fixup_ok fuel : forall m vm fx left m' vm' fx', sound m -> mapped m vm -> length vm = n -> inside m fx ->
  delaunay_fixup INV n ccw inc ghost swap m vm fx left fuel = Some (m', vm', fx') ->
  (held n m vm m' vm' /\ inside m' fx') /\ (marked_pairs INV m -> kept INV n m vm m' vm').
Proof.
  induction fuel as [|f IH]; intros m vm fx left m' vm' fx' S Mp Ln I E; [discriminate|]. cbn [delaunay_fixup] in E.
  assert (Stop : Some (m, vm, fx) = Some (m', vm', fx') -> (held n m vm m' vm' /\ inside m' fx') /\ (marked_pairs INV m -> kept INV n m vm m' vm')).
  { intros Q. injection Q as <- <- <-. split; [split; [now apply held_refl|exact I]|intros; now apply kept_refl]. }
  pose proof (in_next _ _ I) as In1. destruct (wf_nei m (proj1 S) (next fx) In1) as (far & Sf & If & _ & Of & Df). rewrite Sf in E.
  destruct (nth_error ghost (fst far)) as [[|]|]; [auto| |discriminate]. destruct (mark m (next fx)) as [mk|] eqn:Mk; [|discriminate]. destruct (Nat.eqb_spec mk INV) as [->|]; cbn [negb] in E; [|auto].
  destruct (apex m (next fx)) as [nv|] eqn:E1; [|discriminate]. destruct (org m (next fx)) as [lv|] eqn:E2; [|discriminate]. destruct (dest m (next fx)) as [rv|] eqn:E3; [|discriminate]. destruct (apex m far) as [fv|] eqn:E4; [|discriminate].
  destruct (if left then turn n ccw nv lv fv else turn n ccw fv rv nv) as [s|] eqn:Es; [|discriminate]. destruct (Z.leb_spec s 0) as [|Ps]; [auto|].
  destruct (turn n ccw rv lv fv) as [s'|] eqn:Et; [|discriminate].
  assert (nv <> fv) as Nf by (destruct left; [eapply turn_differ; eauto|apply not_eq_sym; eapply turn_differ; eauto]).
  assert (nv < n) as Lnv by (destruct left; apply turn_lt in Es; tauto). apply turn_lt in Et. destruct Et as (L1 & L2 & L3 & _).
  destruct (if (0 <? s')%Z then _ else _) as [c|]; [|discriminate]. destruct (c <=? 0)%Z; [auto|].
  destruct (flip_kept INV n m (next fx) far vm lv rv nv fv S Mp Ln In1 Sf E2 E3 E1 E4 Nf L2 L1 Lnv L3) as (m1 & vm1 & Ef & H1 & K1).
  destruct (swap m (next fx) vm) as [(m1' & vm1')|] eqn:Ew; [|discriminate]. apply Sw in Ew. rewrite Ef in Ew. injection Ew as <- <-.
  destruct (delaunay_fixup INV n ccw inc ghost swap m1 vm1 (prev fx) left f) as [((m2 & vm2) & fx2)|] eqn:R1; [|discriminate].
  destruct (IH _ _ _ _ _ _ _ (hd_sound _ _ _ _ _ H1) (proj1 (hd_map _ _ _ _ _ H1)) (eq_trans (proj2 (hd_map _ _ _ _ _ H1)) Ln) (held_inside _ _ _ _ _ _ H1 (in_prev _ _ I)) R1) as ((H2 & I2) & K2).
  pose proof (held_trans _ _ _ _ _ _ _ H1 H2) as H12.
  destruct (delaunay_fixup INV n ccw inc ghost swap m2 vm2 far left f) as [((m3 & vm3) & fx3)|] eqn:R2; [|discriminate].
  destruct (IH _ _ _ _ _ _ _ (hd_sound _ _ _ _ _ H12) (proj1 (hd_map _ _ _ _ _ H12)) (eq_trans (proj2 (hd_map _ _ _ _ _ H12)) Ln) (held_inside _ _ _ _ _ _ H12 If) R2) as ((H3 & I3) & K3).
  injection E as <- <- <-. split; [split; [eapply held_trans; eauto|eapply held_inside; eauto]|].
  intros Pr. specialize (K1 Pr Mk). specialize (K2 (kp_pairs _ _ _ _ _ _ K1)). specialize (K3 (kp_pairs _ _ _ _ _ _ K2)). eapply kept_trans; [exact K1|]. eapply kept_trans; eauto.
Qed.
End Fixup.
Theorem C83_fixup INV n P ccw inc ghost fuel m vm fx left m' vm' fx' : exact_signs P ccw -> sound m -> mapped m vm -> length vm = n -> inside m fx -> marked_pairs INV m ->
  delaunay_fixup INV n ccw inc ghost flip m vm fx left fuel = Some (m', vm', fx') -> kept INV n m vm m' vm' /\ inside m' fx'.
Proof. intros Ex S Mp Ln I Pr E. destruct (fixup_ok INV n P ccw inc ghost flip Ex ltac:(auto) fuel _ _ _ _ _ _ _ S Mp Ln I E) as ((A & B) & C). auto. Qed.

(** [flip], stopped where the two points across the edge are the same. *)
Definition careful (m : list triangle) (e : hedge) (vm : list hedge) : option (list triangle * list hedge) :=
  top <- sym m e ;; a <- apex m e ;; b <- apex m top ;; if a =? b then None else flip m e vm.
Lemma careful_flip m e vm r : careful m e vm = Some r -> flip m e vm = Some r.
Proof. unfold careful. destruct (sym m e); [|discriminate]. destruct (apex m e); [|discriminate]. destruct (apex m _); [|discriminate]. destruct (_ =? _); [discriminate|auto]. Qed.
Lemma redirect_lt vm w a b new vm' : redirect vm w a b new = Some vm' -> w < length vm /\ length vm' = length vm.
Proof.
  unfold redirect. destruct (nth_error vm w) eqn:Q; [|discriminate]. apply nth_error_lt in Q. destruct (_ || _); intros E; [apply set_Some in E; destruct E as (_ & ->); rewrite upd_length; auto|injection E as <-; auto].
Qed.
Lemma careful_held n m e vm m' vm' : sound m -> mapped m vm -> length vm = n -> inside m e -> careful m e vm = Some (m', vm') -> held n m vm m' vm'.
Proof.
  intros S Mp Ln I E. pose proof (careful_flip _ _ _ _ E) as F. unfold careful in E.
  destruct (wf_nei m (proj1 S) e I) as (top & St & It & _). rewrite St in E. destruct (apex m e) as [bv|] eqn:Eb; [|discriminate]. destruct (apex m top) as [fv|] eqn:Ef; [|discriminate]. destruct (Nat.eqb_spec bv fv) as [|Nf]; [discriminate|]. clear E.
  assert (exists rv lv, org m e = Some rv /\ dest m e = Some lv /\ rv < n /\ lv < n /\ bv < n /\ fv < n) as (rv & lv & Er & El & Lr & Ll & Lb & Lf).
  { pose proof F as G. unfold flip in G. destruct (org m e) as [rv|]; [|discriminate]. destruct (dest m e) as [lv|]; [|discriminate]. rewrite Eb, St, Ef in G. exists rv, lv. split; [reflexivity|]. split; [reflexivity|].
    repeat match type of G with (match ?x with _ => _ end = _) => let Z := fresh "Z" in destruct x eqn:Z; [|discriminate] end.
    repeat match goal with Z : redirect _ _ _ _ _ = Some _ |- _ => apply redirect_lt in Z end. lia. }
  destruct (flip_kept 0 n m e top vm rv lv bv fv S Mp Ln I St Er El Eb Ef Nf Lr Ll Lb Lf) as (m1 & vm1 & F1 & H & _). rewrite F in F1. injection F1 as <- <-. exact H.
Qed.
Lemma shape_held n m m' vm : sound m -> mapped m vm -> shape m m' -> held n m vm m' vm.
Proof.
  intros S Mp Sh. pose proof Sh as (L & _ & D & _). constructor; [|exact L|split; [|reflexivity]|auto].
  - split; [eapply shape_wf; [exact Sh|apply S]|]. intros h Ih. assert (I : inside m h) by (destruct Ih; split; auto; congruence). destruct (shape_corner m m' h Sh I) as (-> & -> & _). now apply S.
  - intros v g Hg. destruct (Mp v g Hg) as (A & B). split; [exact A|]. rewrite L. intros F. rewrite <- (B F). apply (shape_corner m m' g Sh). split; auto.
Qed.

Section Skeleton.
Variables (INV n : nat) (P : nat -> R * R) (ccw : nat -> nat -> nat -> Z) (inc : nat -> nat -> nat -> nat -> Z) (ghost : list bool).
Hypothesis Ex : exact_signs P ccw.
Definition ok (m : list triangle) (vm : list hedge) : Prop := sound m /\ mapped m vm /\ length vm = n /\ length m <= INV.
Lemma ok_held m vm m' vm' : ok m vm -> held n m vm m' vm' -> ok m' vm'.
Proof. intros (A & B & C & D) [E F (G & G') H]. split; [exact E|]. split; [exact G|]. split; [congruence|lia]. Qed.
Lemma oprev_inside m h g : sound m -> inside m h -> oprev m h = Some g -> inside m g.
Proof. intros S I E. unfold oprev in E. destruct (wf_nei m (proj1 S) h I) as (x & Sx & Ix & _). rewrite Sx in E. injection E as <-. now apply in_next. Qed.
Lemma scout_held m vm h ep k turns fuel m' h' b : ok m vm -> inside m h -> scout_segment INV n ccw m ghost h ep k turns fuel = Some (m', h', b) -> held n m vm m' vm /\ (b = false -> inside m' h').
Proof.
  intros (S & Mp & Ln & Li) I E.
  destruct (C64_scout INV n ccw m ghost h ep k turns fuel m' h' b (proj1 S)) as (W & Sh & _ & st & es & w & _ & _ & _ & _ & _ & _ & _ & Nf); auto.
  { intros x Ix Q. apply (not_own m S x x Ix Q). reflexivity. } { now apply (exact_anti P). }
  split; [now apply shape_held|]. intros Q. destruct (Nf Q) as (d & a & Ih & _). eapply shape_inside; eauto.
Qed.
Lemma fix_held m vm fx left ff m' vm' fx' : ok m vm -> inside m fx -> delaunay_fixup INV n ccw inc ghost careful m vm fx left ff = Some (m', vm', fx') -> held n m vm m' vm' /\ inside m' fx'.
Proof. intros (S & Mp & Ln & Li) I E. apply (fixup_ok INV n P ccw inc ghost careful Ex careful_flip ff _ _ _ _ _ _ _ S Mp Ln I E). Qed.
Lemma clear_held ff ep1 ep2 fuel : forall m vm fx m' vm' fx' b, ok m vm -> inside m fx -> clear_way INV n ccw inc ghost careful ff ep1 ep2 m vm fx fuel = Some (m', vm', fx', b) -> held n m vm m' vm' /\ inside m' fx'.
Proof.
  induction fuel as [|f IH]; intros m vm fx m' vm' fx' b O I E; [discriminate|]. cbn [clear_way] in E. destruct (org m fx) as [fv|]; [|discriminate].
  destruct (if fv =? ep2 then _ else _) as [area|]; [|discriminate]. destruct (area =? 0)%Z.
  - destruct (oprev m fx) as [fx2|] eqn:Eo; [|discriminate]. pose proof (oprev_inside m fx fx2 (proj1 O) I Eo) as I2.
    destruct (delaunay_fixup INV n ccw inc ghost careful m vm fx false ff) as [((m1 & vm1) & fx1)|] eqn:E1; [|discriminate]. destruct (fix_held _ _ _ _ _ _ _ _ O I E1) as (H1 & J1). pose proof (ok_held _ _ _ _ O H1) as O1.
    destruct (delaunay_fixup INV n ccw inc ghost careful m1 vm1 fx2 true ff) as [((m2 & vm2) & fx3)|] eqn:E2; [|discriminate]. destruct (fix_held _ _ _ _ _ _ _ _ O1 (held_inside _ _ _ _ _ _ H1 I2) E2) as (H2 & _).
    injection E as <- <- <- _. split; [eapply held_trans; eauto|eapply held_inside; eauto].
  - match type of E with (match ?x with _ => _ end = _) => destruct x as [((m1 & vm1) & fx1)|] eqn:E1; [|discriminate] end.
    assert (held n m vm m1 vm1 /\ inside m1 fx1) as (H1 & I1).
    { destruct (0 <? area)%Z.
      - destruct (oprev m fx) as [fx2|] eqn:Eo; [|discriminate]. pose proof (oprev_inside m fx fx2 (proj1 O) I Eo) as I2.
        destruct (delaunay_fixup INV n ccw inc ghost careful m vm fx2 true ff) as [((m2 & vm2) & fx3)|] eqn:E2; [|discriminate]. destruct (fix_held _ _ _ _ _ _ _ _ O I2 E2) as (H2 & _). injection E1 as <- <- <-.
        split; [exact H2|]. apply in_prev. eapply held_inside; eauto.
      - destruct (delaunay_fixup INV n ccw inc ghost careful m vm fx false ff) as [((m2 & vm2) & fx3)|] eqn:E2; [|discriminate]. destruct (fix_held _ _ _ _ _ _ _ _ O I E2) as (H2 & I2).
        destruct (oprev m2 fx3) as [fx4|] eqn:Eo; [|discriminate]. injection E1 as <- <- <-. split; [exact H2|]. eapply oprev_inside; [|exact I2|exact Eo]. apply H2. }
    pose proof (ok_held _ _ _ _ O H1) as O1. destruct (careful m1 fx1 vm1) as [(m2 & vm2)|] eqn:E2; [|discriminate].
    destruct O1 as (S1 & Mp1 & Ln1 & Li1). pose proof (careful_held n m1 fx1 vm1 m2 vm2 S1 Mp1 Ln1 I1 E2) as H2. pose proof (ok_held _ _ _ _ (conj S1 (conj Mp1 (conj Ln1 Li1))) H2) as O2.
    destruct (IH _ _ _ _ _ _ _ O2 (held_inside _ _ _ _ _ _ H2 I1) E) as (H3 & I3). split; [|exact I3]. eapply held_trans; [exact H1|]. eapply held_trans; eauto.
Qed.
Lemma constrained_held ff fuel : forall m vm h ep2 k m' vm', ok m vm -> inside m h -> constrained_edge INV n ccw inc ghost careful ff m vm h ep2 k fuel = Some (m', vm') -> held n m vm m' vm'.
Proof.
  induction fuel as [|f IH]; intros m vm h ep2 k m' vm' O I E; [discriminate|]. cbn [constrained_edge] in E. destruct (org m h) as [ep1|]; [|discriminate].
  destruct (careful m (next h) vm) as [(m1 & vm1)|] eqn:E1; [|discriminate]. pose proof O as (S & Mp & Ln & Li). pose proof (careful_held n m (next h) vm m1 vm1 S Mp Ln (in_next _ _ I) E1) as H1. pose proof (ok_held _ _ _ _ O H1) as O1.
  destruct (clear_way INV n ccw inc ghost careful ff ep1 ep2 m1 vm1 (next h) ff) as [(((m2 & vm2) & fx2) & b)|] eqn:E2; [|discriminate].
  destruct (clear_held _ _ _ _ _ _ _ _ _ _ _ O1 (held_inside _ _ _ _ _ _ H1 (in_next _ _ I)) E2) as (H2 & I2). pose proof (ok_held _ _ _ _ O1 H2) as O2. pose proof (held_trans _ _ _ _ _ _ _ H1 H2) as H12.
  destruct b.
  - destruct (scout_segment INV n ccw m2 ghost fx2 ep2 k ff ff) as [((m3 & fx3) & found)|] eqn:E3; [|discriminate]. destruct (scout_held _ _ _ _ _ _ _ _ _ _ O2 I2 E3) as (H3 & I3). pose proof (held_trans _ _ _ _ _ _ _ H12 H3) as H13.
    destruct found; [injection E as <- <-; exact H13|]. eapply held_trans; [exact H13|]. eapply IH; [eapply ok_held; eauto|apply I3; reflexivity|exact E].
  - destruct (dest m2 fx2) as [v|]; [|discriminate]. destruct O2 as (S2 & Mp2 & Ln2 & Li2). destruct (wf_nei m2 (proj1 S2) fx2 I2) as (g & Sg & Ig & _).
    destruct (set_marks_ok INV m2 fx2 g (if v =? ep2 then k else twin k) (proj1 S2) I2 Sg) as (m3 & E3 & Sh & _); [intros <-; now apply (not_own m2 S2 fx2 fx2 I2 Sg)|exact Li2|].
    rewrite E3 in E. injection E as <- <-. eapply held_trans; [exact H12|]. now apply shape_held.
Qed.
Lemma insert_held ff m vm a b k m' vm' : ok m vm -> insert_segment INV n ccw inc ghost careful ff m vm a b k = Some (m', vm') -> held n m vm m' vm'.
Proof.
  intros O E. unfold insert_segment in E. destruct (nth_error vm a) as [h|] eqn:Ea; [|discriminate].
  assert (Fi : forall m h ep k turns fuel r, scout_segment INV n ccw m ghost h ep k turns fuel = Some r -> snd h < 3 -> inside m h).
  { intros x y ep q turns fuel r Q Sy. split; [|exact Sy]. destruct fuel; [discriminate|]. cbn [scout_segment] in Q. unfold find_direction in Q. unfold org in Q. destruct (get_data x (fst y) _) eqn:G; [|discriminate].
    unfold get_data in G. destruct (nth_error x (fst y)) eqn:G'; [|discriminate]. eapply nth_error_lt; eauto. }
  pose proof O as (S & Mp & Ln & Li).
  destruct (scout_segment INV n ccw m ghost h b k ff ff) as [((m1 & h1) & f1)|] eqn:E1; [|discriminate]. destruct (scout_held _ _ _ _ _ _ _ _ _ _ O (Fi _ _ _ _ _ _ _ E1 (proj1 (Mp _ _ Ea))) E1) as (H1 & I1). pose proof (ok_held _ _ _ _ O H1) as O1.
  destruct f1; [injection E as <- <-; exact H1|]. specialize (I1 eq_refl). destruct (org m1 h1) as [st|]; [|discriminate]. destruct (nth_error vm b) as [h2|] eqn:Eb; [|discriminate].
  destruct (scout_segment INV n ccw m1 ghost h2 st (twin k) ff ff) as [((m2 & h3) & f2)|] eqn:E2; [|discriminate]. destruct (scout_held _ _ _ _ _ _ _ _ _ _ O1 (Fi _ _ _ _ _ _ _ E2 (proj1 (Mp _ _ Eb))) E2) as (H2 & _). pose proof (ok_held _ _ _ _ O1 H2) as O2. pose proof (held_trans _ _ _ _ _ _ _ H1 H2) as H12.
  destruct f2; [injection E as <- <-; exact H12|]. destruct (org m2 h3) as [fin|]; [|discriminate]. eapply held_trans; [exact H12|]. eapply constrained_held; [exact O2| |exact E]. exact (held_inside _ _ _ _ _ _ H2 I1).
Qed.
Lemma inserts_held ff : forall segs m vm i m', ok m vm -> insert_segments INV n ccw inc ghost careful ff m vm i segs = Some m' -> exists vm', held n m vm m' vm'.
Proof.
  assert (forall d segs m vm i m', length segs <= d -> ok m vm -> insert_segments INV n ccw inc ghost careful ff m vm i segs = Some m' -> exists vm', held n m vm m' vm') as G.
  2:{ intros segs m vm i m'. apply (G (length segs)). lia. }
  induction d as [|d IH]; intros [|a [|b segs]] m vm i m' L O E; cbn [insert_segments length] in *; try lia; try discriminate.
  1,2: injection E as <-; exists vm; apply held_refl; apply O.
  match type of E with (match ?x with _ => _ end = _) => destruct x as [(m1 & vm1)|] eqn:E1; [|discriminate] end.
  assert (H1 : held n m vm m1 vm1) by (destruct (a =? b); cbn [negb] in E1; [injection E1 as <- <-; apply held_refl; apply O|eapply insert_held; eauto]).
  destruct (IH segs m1 vm1 (S i) m' ltac:(lia) (ok_held _ _ _ _ O H1) E) as (vm2 & H2). exists vm2. eapply held_trans; eauto.
Qed.
End Skeleton.

Lemma careful_same INV n ccw inc ghost ff m segs m' : form_skeleton_with INV n ccw inc ghost careful ff m segs = Some m' -> form_skeleton INV n ccw inc ghost ff m segs = Some m'.
Proof.
  assert (F : forall fuel m vm fx left r, delaunay_fixup INV n ccw inc ghost careful m vm fx left fuel = Some r -> delaunay_fixup INV n ccw inc ghost flip m vm fx left fuel = Some r).
  { clear. induction fuel as [|f IH]; intros m vm fx left r E; [discriminate|]. cbn [delaunay_fixup] in *. destruct (sym m (next fx)) as [far|]; [|discriminate]. destruct (nth_error ghost (fst far)) as [[|]|]; [exact E| |discriminate].
    destruct (mark m (next fx)) as [mk|]; [|discriminate]. destruct (negb (mk =? INV)); [exact E|]. destruct (apex m (next fx)); [|discriminate]. destruct (org m (next fx)); [|discriminate]. destruct (dest m (next fx)); [|discriminate]. destruct (apex m far); [|discriminate].
    destruct (if left then _ else _) as [s|]; [|discriminate]. destruct (s <=? 0)%Z; [exact E|]. destruct (turn n ccw _ _ _) as [s'|]; [|discriminate]. destruct (if (0 <? s')%Z then _ else _) as [c|]; [|discriminate]. destruct (c <=? 0)%Z; [exact E|].
    destruct (careful m (next fx) vm) as [(m1 & vm1)|] eqn:E1; [|discriminate]. rewrite (careful_flip _ _ _ _ E1).
    destruct (delaunay_fixup INV n ccw inc ghost careful m1 vm1 (prev fx) left f) as [((m2 & vm2) & fx2)|] eqn:E2; [|discriminate]. rewrite (IH _ _ _ _ _ E2).
    destruct (delaunay_fixup INV n ccw inc ghost careful m2 vm2 far left f) as [((m3 & vm3) & fx3)|] eqn:E3; [|discriminate]. rewrite (IH _ _ _ _ _ E3). exact E. }
  assert (C : forall p q fuel m vm fx r, clear_way INV n ccw inc ghost careful ff p q m vm fx fuel = Some r -> clear_way INV n ccw inc ghost flip ff p q m vm fx fuel = Some r).
  { clear - F. intros p q. induction fuel as [|f IH]; intros m vm fx r E; [discriminate|]. cbn [clear_way] in *. destruct (org m fx) as [fv|]; [|discriminate]. destruct (if fv =? q then _ else _) as [area|]; [|discriminate]. destruct (area =? 0)%Z.
    - destruct (oprev m fx) as [fx2|]; [|discriminate]. destruct (delaunay_fixup INV n ccw inc ghost careful m vm fx false ff) as [((m1 & vm1) & fx1)|] eqn:E1; [|discriminate]. rewrite (F _ _ _ _ _ _ E1).
      destruct (delaunay_fixup INV n ccw inc ghost careful m1 vm1 fx2 true ff) as [((m2 & vm2) & fx3)|] eqn:E2; [|discriminate]. rewrite (F _ _ _ _ _ _ E2). exact E.
    - destruct (0 <? area)%Z.
      + destruct (oprev m fx) as [fx2|]; [|discriminate]. destruct (delaunay_fixup INV n ccw inc ghost careful m vm fx2 true ff) as [((m1 & vm1) & fx1)|] eqn:E1; [|discriminate]. rewrite (F _ _ _ _ _ _ E1).
        destruct (careful m1 (prev fx) vm1) as [(m2 & vm2)|] eqn:E2; [|discriminate]. rewrite (careful_flip _ _ _ _ E2). apply IH, E.
      + destruct (delaunay_fixup INV n ccw inc ghost careful m vm fx false ff) as [((m1 & vm1) & fx1)|] eqn:E1; [|discriminate]. rewrite (F _ _ _ _ _ _ E1). destruct (oprev m1 fx1) as [fx2|]; [|discriminate].
        destruct (careful m1 fx2 vm1) as [(m2 & vm2)|] eqn:E2; [|discriminate]. rewrite (careful_flip _ _ _ _ E2). apply IH, E. }
  assert (G : forall fuel m vm h q k r, constrained_edge INV n ccw inc ghost careful ff m vm h q k fuel = Some r -> constrained_edge INV n ccw inc ghost flip ff m vm h q k fuel = Some r).
  { clear - F C. induction fuel as [|f IH]; intros m vm h q k r E; [discriminate|]. cbn [constrained_edge] in *. destruct (org m h) as [p|]; [|discriminate]. destruct (careful m (next h) vm) as [(m1 & vm1)|] eqn:E1; [|discriminate]. rewrite (careful_flip _ _ _ _ E1).
    destruct (clear_way INV n ccw inc ghost careful ff p q m1 vm1 (next h) ff) as [(((m2 & vm2) & fx2) & b)|] eqn:E2; [|discriminate]. rewrite (C _ _ _ _ _ _ _ E2). destruct b; [|exact E].
    destruct (scout_segment INV n ccw m2 ghost fx2 q k ff ff) as [((m3 & fx3) & found)|]; [|discriminate]. destruct found; [exact E|apply IH, E]. }
  assert (I : forall m vm a b k r, insert_segment INV n ccw inc ghost careful ff m vm a b k = Some r -> insert_segment INV n ccw inc ghost flip ff m vm a b k = Some r).
  { clear - G. intros m vm a b k r E. unfold insert_segment in *. destruct (nth_error vm a) as [h|]; [|discriminate]. destruct (scout_segment INV n ccw m ghost h b k ff ff) as [((m1 & h1) & [|])|]; [exact E| |discriminate].
    destruct (org m1 h1) as [st|]; [|discriminate]. destruct (nth_error vm b) as [h2|]; [|discriminate]. destruct (scout_segment INV n ccw m1 ghost h2 st (twin k) ff ff) as [((m2 & h3) & [|])|]; [exact E| |discriminate]. destruct (org m2 h3); [|discriminate]. apply G, E. }
  unfold form_skeleton, form_skeleton_with. destruct (make_vertex_map INV m ghost n) as [vm|]; [|discriminate].
  assert (forall d segs m vm i, length segs <= d -> insert_segments INV n ccw inc ghost careful ff m vm i segs = Some m' -> insert_segments INV n ccw inc ghost flip ff m vm i segs = Some m') as H.
  2:{ apply (H (length segs)). lia. }
  clear - I. induction d as [|d IH]; intros [|a [|b segs]] m vm i L E; cbn [insert_segments length] in *; try lia; try exact E.
  destruct (a =? b); cbn [negb] in *; [apply IH; [lia|exact E]|]. destruct (insert_segment INV n ccw inc ghost careful ff m vm a b (2 * i)) as [(m1 & vm1)|] eqn:E1; [|discriminate]. rewrite (I _ _ _ _ _ _ E1). apply IH; [lia|exact E].
Qed.
Lemma map_ok INV n m ghost : sound m -> length ghost = length m -> length m <= INV -> (forall t i v, real ghost t -> i < 3 -> get_data m t i = Some v -> v < n) ->
  exists vm, make_vertex_map INV m ghost n = Some vm /\ ok INV n m vm.
Proof.
  intros S Lg Li Hn. destruct (C62_vertex_map INV n m ghost (proj1 S) Lg Li Hn) as (vm & Ev & Lv & Vm). exists vm. split; [exact Ev|].
  split; [exact S|]. split; [|auto]. intros v g H. split.
  - destruct (Vm v) as [(h & A & B & C & _)|(A & _)]; try (rewrite <- Lv; eapply nth_error_lt; eauto; fail); rewrite A in H; injection H as <-; [apply B|cbn; lia].
  - intros F. destruct (Vm v) as [(h & A & B & C & _)|(A & _)]; try (rewrite <- Lv; eapply nth_error_lt; eauto; fail); rewrite A in H; injection H as <-; [exact C|cbn in F; lia].
Qed.
(** The insertion of all segments: when it returns, and no edge was flipped whose two
    points across were the same, the mesh is still a triangulation of as many
    triangles, and those with the ghost vertex have their corners.  Missing: that it
    returns, that the points across are never the same, and that the segments are there. *)
Theorem C83_skeleton_partial INV n P ccw inc ghost ff m segs m' : exact_signs P ccw -> sound m -> length ghost = length m -> length m <= INV ->
  (forall t i v, real ghost t -> i < 3 -> get_data m t i = Some v -> v < n) ->
  form_skeleton_with INV n ccw inc ghost careful ff m segs = Some m' ->
  form_skeleton INV n ccw inc ghost ff m segs = Some m' /\ sound m' /\ length m' = length m /\
  forall t, (exists i v, i < 3 /\ get_data m t i = Some v /\ n <= v) -> forall i, i < 3 -> get_data m' t i = get_data m t i.
Proof.
  intros Ex S Lg Li Hn E. split; [now apply careful_same|]. unfold form_skeleton_with in E.
  destruct (map_ok INV n m ghost S Lg Li Hn) as (vm & Ev & O). rewrite Ev in E.
  destruct (inserts_held INV n P ccw inc ghost Ex ff segs m vm 0 m' O E) as (vm' & H). split; [apply H|]. split; [apply H|apply H].
Qed.

(** * The segment is there *)
(** One of the corners of the triangle. *)
Definition has (m : list triangle) (t u : nat) : Prop := exists i, i < 3 /\ get_data m t i = Some u.
Definition same (m m' : list triangle) (t : nat) : Prop := forall i, i < 3 -> get_data m' t i = get_data m t i.
Lemma same_corner m m' h : same m m' (fst h) -> inside m h -> org m' h = org m h /\ dest m' h = dest m h /\ apex m' h = apex m h.
Proof. intros H (_ & I). destruct h as (t & o). unfold org, dest, apex. cbn [fst snd] in *. destruct (three _ I) as [->|[->| ->]]; cbn [Nat.add Nat.modulo]; repeat split; apply H; cbn; lia. Qed.
Lemma has_org m h u : inside m h -> org m h = Some u -> has m (fst h) u.
Proof. intros (_ & I) E. destruct h as (t & o). unfold org in E. cbn [fst snd] in *. destruct (three _ I) as [->|[->| ->]]; cbn in E; eexists; (split; [|exact E]); lia. Qed.
Lemma has_one m h t u : inside m h -> fst h = t -> has m t u -> org m h = Some u \/ dest m h = Some u \/ apex m h = Some u.
Proof.
  intros (_ & I) <- (i & Hi & E). destruct h as (t & o). unfold org, dest, apex. cbn [fst snd] in *. destruct (three _ I) as [->|[->| ->]], (three _ Hi) as [->|[->| ->]]; cbn; auto.
Qed.
Lemma has_same m m' t u : same m m' t -> has m t u -> has m' t u.
Proof. intros S (i & Hi & E). exists i. rewrite S; auto. Qed.
Lemma next_next h : snd h < 3 -> next (next h) = prev h.
Proof. destruct h as (t & o). cbn [snd]. intros H. destruct (three _ H) as [->|[->| ->]]; reflexivity. Qed.
Lemma prev_next h : snd h < 3 -> prev (next h) = h.
Proof. destruct h as (t & o). cbn [snd]. intros H. destruct (three _ H) as [->|[->| ->]]; reflexivity. Qed.
Lemma next_prev h : snd h < 3 -> next (prev h) = h.
Proof. destruct h as (t & o). cbn [snd]. intros H. destruct (three _ H) as [->|[->| ->]]; reflexivity. Qed.
Lemma apex_next m h : inside m h -> apex m (next h) = org m h.
Proof. intros (_ & I). destruct h as (t & o). cbn [snd] in I. destruct (three _ I) as [->|[->| ->]]; reflexivity. Qed.
Lemma apex_prev m h : inside m h -> apex m (prev h) = dest m h.
Proof. intros (_ & I). destruct h as (t & o). cbn [snd] in I. destruct (three _ I) as [->|[->| ->]]; reflexivity. Qed.
Lemma side_org_next m h : inside m h -> org m (next h) = dest m h.
Proof. intros (_ & I). destruct h as (t & o). cbn [snd] in I. destruct (three _ I) as [->|[->| ->]]; reflexivity. Qed.
Lemma side_dest_next m h : inside m h -> dest m (next h) = apex m h.
Proof. intros (_ & I). destruct h as (t & o). cbn [snd] in I. destruct (three _ I) as [->|[->| ->]]; reflexivity. Qed.
Lemma flip_corners m e top vm rv lv bv fv m' vm' : sound m -> inside m e -> sym m e = Some top ->
  org m e = Some rv -> dest m e = Some lv -> apex m e = Some bv -> apex m top = Some fv -> bv <> fv -> rv < length vm -> lv < length vm -> bv < length vm -> fv < length vm ->
  flip m e vm = Some (m', vm') ->
  fst top <> fst e /\ (forall t, t <> fst e -> t <> fst top -> same m m' t) /\ (org m' e = Some fv /\ dest m' e = Some bv /\ apex m' e = Some rv) /\ org m' top = Some bv /\
  apex m' top = Some lv /\ sym m' e = Some top /\ sym m' (next e) = sym m (prev e) /\
  (forall h c, inside m h -> sym m h = Some c -> fst h <> fst e -> fst h <> fst top -> fst c <> fst e -> fst c <> fst top -> sym m' h = Some c).
Proof.
  intros S I Et Hr Hl Hb Hf Nbf Lr Ll Lb Lf E. pose proof (sound_proper m e top S I Et ltac:(congruence)) as P.
  destruct (C40_flip m e top vm rv lv bv fv (proj1 S) P Hr Hl Hb Hf) as (m1 & vm1 & E' & _ & _ & _ & Dat & Ee & Te & (Y1 & _) & _ & (Y2 & _) & _ & _ & Y3 & _); try lia.
  rewrite E in E'. injection E' as <- <-. split; [apply P|]. split; [intros t A B i _; now apply Dat|]. split; [exact Ee|]. split; [apply Te|]. split; [apply Te|]. auto.
Qed.
(** The repair at a side from [u] only flips edges across from [u]: the side stays where
    it is, and the other triangles at [u] stay as they are. *)
Lemma fixup_frame INV n P ccw inc ghost swap : exact_signs P ccw -> (forall m e vm r, swap m e vm = Some r -> flip m e vm = Some r) ->
  forall fuel m vm fx left m' vm' fx' u, sound m -> mapped m vm -> length vm = n -> inside m fx -> org m fx = Some u ->
  delaunay_fixup INV n ccw inc ghost swap m vm fx left fuel = Some (m', vm', fx') ->
  fst fx' = fst fx /\ org m' fx' = Some u /\ dest m' fx' = dest m fx /\ (forall t, t <> fst fx -> has m t u -> same m m' t) /\ sym m' fx' = sym m fx /\
  forall h c, inside m h -> sym m h = Some c -> fst h <> fst fx -> fst c <> fst fx -> has m (fst h) u -> has m (fst c) u -> sym m' h = Some c.
Proof.
  intros Ex Sw. induction fuel as [|f IH]; intros m vm fx left m' vm' fx' u S Mp Ln I Ou E; [discriminate|]. pose proof E as E0. cbn [delaunay_fixup] in E.
  assert (Stop : Some (m, vm, fx) = Some (m', vm', fx') -> fst fx' = fst fx /\ org m' fx' = Some u /\ dest m' fx' = dest m fx /\ (forall t, t <> fst fx -> has m t u -> same m m' t) /\ sym m' fx' = sym m fx /\
    forall h c, inside m h -> sym m h = Some c -> fst h <> fst fx -> fst c <> fst fx -> has m (fst h) u -> has m (fst c) u -> sym m' h = Some c).
  { intros Q. injection Q as <- <- <-. repeat split; auto. }
  pose proof (in_next _ _ I) as In1. destruct (wf_nei m (proj1 S) (next fx) In1) as (far & Sf & If & _ & Of & Df). rewrite Sf in E.
  destruct (nth_error ghost (fst far)) as [[|]|]; [auto| |discriminate]. destruct (mark m (next fx)) as [mk|] eqn:Mk; [|discriminate]. destruct (Nat.eqb_spec mk INV) as [->|]; cbn [negb] in E; [|auto].
  destruct (apex m (next fx)) as [nv|] eqn:E1; [|discriminate]. destruct (org m (next fx)) as [lv|] eqn:E2; [|discriminate]. destruct (dest m (next fx)) as [rv|] eqn:E3; [|discriminate]. destruct (apex m far) as [fv|] eqn:E4; [|discriminate].
  destruct (if left then turn n ccw nv lv fv else turn n ccw fv rv nv) as [s|] eqn:Es; [|discriminate]. destruct (Z.leb_spec s 0) as [|Ps]; [auto|].
  destruct (turn n ccw rv lv fv) as [s'|] eqn:Et; [|discriminate].
  assert (nv <> fv) as Nf by (destruct left; [eapply (turn_differ n P ccw Ex); eauto|apply not_eq_sym; eapply (turn_differ n P ccw Ex); eauto]).
  assert (nv < n) as Lnv by (destruct left; apply turn_lt in Es; tauto). apply turn_lt in Et. destruct Et as (L1 & L2 & L3 & _).
  destruct (if (0 <? s')%Z then _ else _) as [c|]; [|discriminate]. destruct (c <=? 0)%Z; [auto|]. clear Stop.
  destruct (flip_kept INV n m (next fx) far vm lv rv nv fv S Mp Ln In1 Sf E2 E3 E1 E4 Nf L2 L1 Lnv L3) as (m1 & vm1 & Ef & H1 & _).
  destruct (swap m (next fx) vm) as [(m1' & vm1')|] eqn:Ew; [|discriminate]. apply Sw in Ew. rewrite Ef in Ew. injection Ew as <- <-.
  destruct (flip_corners m (next fx) far vm lv rv nv fv m1 vm1 S In1 Sf E2 E3 E1 E4 Nf ltac:(lia) ltac:(lia) ltac:(lia) ltac:(lia) Ef) as (Nt & Oth & (C1 & C2 & C3) & T1 & _ & _ & Sn & So).
  assert (nv = u) as -> by (rewrite apex_next in E1 by exact I; congruence).
  destruct (delaunay_fixup INV n ccw inc ghost swap m1 vm1 (prev fx) left f) as [((m2 & vm2) & fx2)|] eqn:R1; [|discriminate].
  pose proof (held_inside _ _ _ _ _ _ H1 (in_prev _ _ I)) as Ip. pose proof (held_inside _ _ _ _ _ _ H1 In1) as In1'.
  assert (Op : org m1 (prev fx) = Some u) by (rewrite <- (next_next fx) by apply I; rewrite side_org_next by exact In1'; exact C2).
  assert (Dp : dest m1 (prev fx) = dest m fx) by (rewrite <- (next_next fx) by apply I; rewrite side_dest_next by exact In1'; rewrite C3; rewrite side_org_next in E2 by exact I; congruence).
  destruct (fixup_ok INV n P ccw inc ghost swap Ex Sw f _ _ _ _ _ _ _ (hd_sound _ _ _ _ _ H1) (proj1 (hd_map _ _ _ _ _ H1)) (eq_trans (proj2 (hd_map _ _ _ _ _ H1)) Ln) Ip R1) as ((H2 & I2) & _).
  destruct (IH _ _ _ _ _ _ _ u (hd_sound _ _ _ _ _ H1) (proj1 (hd_map _ _ _ _ _ H1)) (eq_trans (proj2 (hd_map _ _ _ _ _ H1)) Ln) Ip Op R1) as (F2 & O2 & D2 & Fr2 & Sy2 & So2).
  pose proof (held_trans _ _ _ _ _ _ _ H1 H2) as H12. change (fst (prev fx)) with (fst fx) in *. change (fst (next fx)) with (fst fx) in *.
  pose proof (held_inside _ _ _ _ _ _ H1 If) as If1. pose proof (held_inside _ _ _ _ _ _ H12 If) as If2.
  assert (Of2 : org m2 far = Some u). { destruct (same_corner m1 m2 far) as (-> & _); [apply Fr2; [exact Nt|now apply (has_org _ far)]|exact If1|exact T1]. }
  destruct (delaunay_fixup INV n ccw inc ghost swap m2 vm2 far left f) as [((m3 & vm3) & fx3)|] eqn:R2; [|discriminate].
  destruct (IH _ _ _ _ _ _ _ u (hd_sound _ _ _ _ _ H12) (proj1 (hd_map _ _ _ _ _ H12)) (eq_trans (proj2 (hd_map _ _ _ _ _ H12)) Ln) If2 Of2 R2) as (_ & _ & _ & Fr3 & _ & So3).
  injection E as <- <- <-. split; [exact F2|].
  destruct (same_corner m2 m3 fx2) as (Q1 & Q2 & _); [apply Fr3; [congruence|now apply has_org]|exact I2|]. rewrite Q1, Q2. split; [exact O2|]. split; [congruence|].
  assert (Nfar : forall t, has m t u -> t <> fst far).
  { intros t Ht ->. destruct (differ m S fx I) as (X1 & X2 & X3). rewrite side_org_next in * by exact I. rewrite side_dest_next in * by exact I.
    destruct (has_one m far _ u If eq_refl Ht) as [Q|[Q|Q]]; congruence. }
  assert (Al : forall t, t <> fst fx -> has m t u -> same m m1 t /\ has m1 t u /\ same m1 m2 t /\ has m2 t u /\ same m2 m3 t).
  { intros t Nfx Ht. pose proof (Oth t Nfx (Nfar t Ht)) as A1. pose proof (has_same _ _ _ _ A1 Ht) as B1. pose proof (Fr2 t Nfx B1) as A2. pose proof (has_same _ _ _ _ A2 B1) as B2. pose proof (Fr3 t (Nfar t Ht) B2) as A3. auto. }
  split; [intros t Nfx Ht i Hi; destruct (Al t Nfx Ht) as (A1 & _ & A2 & _ & A3); rewrite A3, A2, A1 by exact Hi; reflexivity|]. split.
  - destruct (wf_nei m (proj1 S) fx I) as (g & Sg & Ig & _ & Og & Dg). rewrite Sg.
    assert (Ng : fst g <> fst fx) by (intros Q; now apply (not_own m S fx g I Sg)).
    assert (Hg : has m (fst g) u) by (apply (has_org m (next g)); [now apply in_next|]; rewrite side_org_next by exact Ig; congruence).
    rewrite (next_next fx) in Sn by apply I. rewrite prev_next in Sn by apply I.
    apply So3; [exact I2|rewrite Sy2, Sn; exact Sg|congruence|now apply Nfar|now apply has_org|]. now apply Al.
  - intros h c' Ih Sh N1 N2 Hh Hc. destruct (Al _ N1 Hh) as (_ & B1 & _ & B2 & _). destruct (Al _ N2 Hc) as (_ & B3 & _ & B4 & _).
    apply So3; [eapply held_inside; eauto| |now apply Nfar|now apply Nfar|exact B2|exact B4]. apply So2; [eapply held_inside; eauto| |exact N1|exact N2|exact B1|exact B3]. apply So; auto.
Qed.
Lemma careful_corners m e vm m' vm' : sound m -> inside m e -> careful m e vm = Some (m', vm') ->
  dest m' e = apex m e /\ apex m' e = org m e /\ exists top, sym m' e = Some top /\ apex m' top = dest m e.
Proof.
  intros S I E. pose proof (careful_flip _ _ _ _ E) as F. unfold careful in E.
  destruct (wf_nei m (proj1 S) e I) as (top & St & It & _). rewrite St in E. destruct (apex m e) as [bv|] eqn:Eb; [|discriminate]. destruct (apex m top) as [fv|] eqn:Ef; [|discriminate]. destruct (Nat.eqb_spec bv fv) as [|Nf]; [discriminate|]. clear E.
  assert (exists rv lv, org m e = Some rv /\ dest m e = Some lv /\ rv < length vm /\ lv < length vm /\ bv < length vm /\ fv < length vm) as (rv & lv & Er & El & Lr & Ll & Lb & Lf).
  { pose proof F as G. unfold flip in G. destruct (org m e) as [rv|]; [|discriminate]. destruct (dest m e) as [lv|]; [|discriminate]. rewrite Eb, St, Ef in G. exists rv, lv. split; [reflexivity|]. split; [reflexivity|].
    repeat match type of G with (match ?x with _ => _ end = _) => let Z := fresh "Z" in destruct x eqn:Z; [|discriminate] end.
    repeat match goal with Z : redirect _ _ _ _ _ = Some _ |- _ => apply redirect_lt in Z end. lia. }
  destruct (flip_corners m e top vm rv lv bv fv m' vm' S I St Er El Eb Ef Nf Lr Ll Lb Lf F) as (_ & _ & (A & B & C) & _ & D & G & _). split; [congruence|]. split; [congruence|]. exists top. split; [exact G|congruence].
Qed.
Section Constrained.
Variables (INV n : nat) (P : nat -> R * R) (ccw : nat -> nat -> nat -> Z) (inc : nat -> nat -> nat -> nat -> Z) (ghost : list bool).
Hypothesis Ex : exact_signs P ccw.
Lemma clear_end ff ep1 ep2 fuel : forall m vm fx m' vm' fx' b, ok INV n m vm -> inside m fx -> dest m fx = Some ep1 ->
  clear_way INV n ccw inc ghost careful ff ep1 ep2 m vm fx fuel = Some (m', vm', fx', b) ->
  dest m' fx' = Some ep1 /\ exists w, org m' fx' = Some w /\ (b = false -> w = ep2) /\ (b = true -> w <> ep2 /\ w <> ep1 /\ w < n /\ ccw ep1 ep2 w = 0%Z).
Proof.
  induction fuel as [|f IH]; intros m vm fx m' vm' fx' b O I De E; [discriminate|]. cbn [clear_way] in E. destruct (org m fx) as [fv|] eqn:Eo; [|discriminate]. pose proof O as (S & Mp & Ln & Li).
  destruct (if fv =? ep2 then _ else _) as [area|] eqn:Ea; [|discriminate].
  destruct (wf_nei m (proj1 S) fx I) as (g & Sg & Ig & _ & Og & Dg). unfold oprev in E. rewrite Sg in E.
  pose proof (in_next _ _ Ig) as I2. assert (O2 : org m (next g) = Some fv) by (rewrite side_org_next by exact Ig; congruence). assert (A2 : apex m (next g) = Some ep1) by (rewrite apex_next by exact Ig; congruence).
  assert (Ng : fst g <> fst fx). { intros Q. apply (not_own m S fx g I Sg). exact Q. }
  destruct (area =? 0)%Z eqn:Ez.
  - destruct (delaunay_fixup INV n ccw inc ghost careful m vm fx false ff) as [((m1 & vm1) & fx1)|] eqn:E1; [|discriminate]. destruct (fix_held INV n P ccw inc ghost Ex _ _ _ _ _ _ _ _ O I E1) as (H1 & J1). pose proof (ok_held _ _ _ _ _ _ O H1) as (S1 & Mp1 & Ln1 & Li1).
    destruct (fixup_frame INV n P ccw inc ghost careful Ex careful_flip _ _ _ _ _ _ _ _ _ S Mp Ln I Eo E1) as (F1 & X1 & Y1 & Fr1 & _).
    assert (O3 : org m1 (next g) = Some fv). { destruct (same_corner m m1 (next g)) as (-> & _); [apply Fr1; [exact Ng|now apply (has_org m (next g))]|exact I2|exact O2]. }
    destruct (delaunay_fixup INV n ccw inc ghost careful m1 vm1 (next g) true ff) as [((m2 & vm2) & fx3)|] eqn:E2; [|discriminate].
    destruct (fixup_frame INV n P ccw inc ghost careful Ex careful_flip _ _ _ _ _ _ _ _ _ S1 Mp1 Ln1 (held_inside _ _ _ _ _ _ H1 I2) O3 E2) as (_ & _ & _ & Fr2 & _).
    injection E as <- <- <- <-. destruct (same_corner m1 m2 fx1) as (Q1 & Q2 & _); [apply Fr2; [cbn [next fst]; congruence|now apply has_org]|exact J1|]. rewrite Q1, Q2, X1, Y1. split; [exact De|]. exists fv. split; [reflexivity|].
    destruct (Nat.eqb_spec fv ep2) as [Q|Q]; cbn [negb]; (split; [try discriminate; auto|]); [discriminate|]. intros _. split; [exact Q|]. split; [intros ->; apply (proj2 S fx I); congruence|].
    apply turn_lt in Ea. apply Z.eqb_eq in Ez. split; [tauto|]. destruct Ea as (_ & _ & _ & <-). exact Ez.
  - match type of E with (match ?x with _ => _ end = _) => destruct x as [((m1 & vm1) & fx1)|] eqn:E1; [|discriminate] end.
    assert (held n m vm m1 vm1 /\ inside m1 fx1 /\ apex m1 fx1 = Some ep1) as (H1 & I1 & A1).
    { destruct (0 <? area)%Z.
      - destruct (delaunay_fixup INV n ccw inc ghost careful m vm (next g) true ff) as [((m2 & vm2) & fx3)|] eqn:E2; [|discriminate]. destruct (fix_held INV n P ccw inc ghost Ex _ _ _ _ _ _ _ _ O I2 E2) as (H2 & _).
        destruct (fixup_frame INV n P ccw inc ghost careful Ex careful_flip _ _ _ _ _ _ _ _ _ S Mp Ln I2 O2 E2) as (_ & _ & _ & Fr & _). injection E1 as <- <- <-.
        pose proof (held_inside _ _ _ _ _ _ H2 I) as I'. split; [exact H2|]. split; [now apply in_prev|]. rewrite apex_prev by exact I'.
        destruct (same_corner m m2 fx) as (_ & -> & _); [apply Fr; [cbn [next fst]; congruence|now apply has_org]|exact I|exact De].
      - destruct (delaunay_fixup INV n ccw inc ghost careful m vm fx false ff) as [((m2 & vm2) & fx3)|] eqn:E2; [|discriminate]. destruct (fix_held INV n P ccw inc ghost Ex _ _ _ _ _ _ _ _ O I E2) as (H2 & I3).
        destruct (fixup_frame INV n P ccw inc ghost careful Ex careful_flip _ _ _ _ _ _ _ _ _ S Mp Ln I Eo E2) as (_ & X & Y & _).
        destruct (wf_nei m2 (proj1 (hd_sound _ _ _ _ _ H2)) fx3 I3) as (g3 & Sg3 & Ig3 & _ & Og3 & _). rewrite Sg3 in E1. injection E1 as <- <- <-. split; [exact H2|]. split; [now apply in_next|]. rewrite apex_next by exact Ig3. congruence. }
    pose proof (ok_held _ _ _ _ _ _ O H1) as O1. pose proof O1 as (S1 & Mp1 & Ln1 & Li1). destruct (careful m1 fx1 vm1) as [(m2 & vm2)|] eqn:E2; [|discriminate].
    pose proof (careful_held n m1 fx1 vm1 m2 vm2 S1 Mp1 Ln1 I1 E2) as H2. destruct (careful_corners _ _ _ _ _ S1 I1 E2) as (D2 & _).
    apply (IH _ _ _ _ _ _ _ (ok_held _ _ _ _ _ _ O1 H2) (held_inside _ _ _ _ _ _ H2 I1) (eq_trans D2 A1) E).
Qed.
Lemma marked_segment m m' h g k u v : shape m m' -> sym m h = Some g -> inside m h -> inside m g -> org m h = Some u -> dest m h = Some v -> org m g = Some v -> dest m g = Some u ->
  mark m' h = Some (twin k) -> mark m' g = Some k -> segment m' k v u /\ segment m' (other_mark k) u v.
Proof.
  intros Sh Sy Ih Ig A B C D Mh Mg. destruct (shape_corner m m' h Sh Ih) as (E1 & E2 & _). destruct (shape_corner m m' g Sh Ig) as (E3 & E4 & _).
  split; [exists g|exists h]; (split; [eapply shape_inside; eauto|]); rewrite ?E1, ?E2, ?E3, ?E4; auto.
Qed.
(** The flips end with the segment in place, marked on both sides, unless a point lies on
    its line. *)
Theorem C83_constrained ff fuel m vm start ep1 ep2 k m' vm' : sound m -> mapped m vm -> length vm = n -> length m <= INV -> inside m start -> org m start = Some ep1 ->
  (forall w, w < n -> w <> ep1 -> w <> ep2 -> ccw ep1 ep2 w <> 0%Z) ->
  constrained_edge INV n ccw inc ghost careful ff m vm start ep2 k fuel = Some (m', vm') ->
  segment m' k ep1 ep2 /\ segment m' (other_mark k) ep2 ep1.
Proof.
  intros S Mp Ln Li I Eo Gen E. assert (O : ok INV n m vm) by (unfold ok; auto). destruct fuel as [|f]; [discriminate|]. cbn [constrained_edge] in E. rewrite Eo in E.
  destruct (careful m (next start) vm) as [(m1 & vm1)|] eqn:E1; [|discriminate]. pose proof (careful_held n m (next start) vm m1 vm1 S Mp Ln (in_next _ _ I) E1) as H1. destruct (careful_corners _ _ _ _ _ S (in_next _ _ I) E1) as (D1 & _). rewrite apex_next, Eo in D1 by exact I.
  pose proof (ok_held _ _ _ _ _ _ O H1) as O1. pose proof (held_inside _ _ _ _ _ _ H1 (in_next _ _ I)) as I1.
  destruct (clear_way INV n ccw inc ghost careful ff ep1 ep2 m1 vm1 (next start) ff) as [(((m2 & vm2) & fx2) & b)|] eqn:E2; [|discriminate].
  destruct (clear_held INV n P ccw inc ghost Ex _ _ _ _ _ _ _ _ _ _ _ O1 I1 E2) as (H2 & I2). destruct (clear_end _ _ _ _ _ _ _ _ _ _ _ O1 I1 D1 E2) as (D2 & w & W & B1 & B2).
  destruct b; [destruct (B2 eq_refl) as (X & Y & Z & Q); now elim (Gen w)|]. specialize (B1 eq_refl). subst w. rewrite D2 in E.
  pose proof (ok_held _ _ _ _ _ _ O1 H2) as (S2 & Mp2 & Ln2 & Li2). assert (N : ep1 <> ep2) by (intros <-; apply (proj2 S2 fx2 I2); congruence).
  destruct (Nat.eqb_spec ep1 ep2) as [|_]; [contradiction|].
  destruct (wf_nei m2 (proj1 S2) fx2 I2) as (g & Sg & Ig & _ & Og & Dg).
  destruct (set_marks_ok INV m2 fx2 g (twin k) (proj1 S2) I2 Sg) as (m3 & E3 & Sh & Mk & Mg & _); [intros <-; now apply (not_own m2 S2 fx2 fx2 I2 Sg)|exact Li2|].
  rewrite E3 in E. injection E as <- <-. rewrite twin_twin in Mg. eapply marked_segment; eauto; congruence.
Qed.
(** No other point is on the line. *)
Definition alone (a b : nat) : Prop := forall w, w < n -> w <> a -> w <> b -> ccw a b w <> 0%Z.
Lemma alone_back a b : alone a b -> alone b a.
Proof. intros A w H N1 N2 Q. apply (A w H N2 N1). rewrite (exact_anti P ccw Ex). lia. Qed.
(** The side that is marked, or the triangle the segment enters. *)
Lemma scout_alone m vm h a b k turns fuel m' h' found : ok INV n m vm -> inside m h -> org m h = Some a -> alone a b -> scout_segment INV n ccw m ghost h b k turns fuel = Some (m', h', found) ->
  if found then exists e g kk, inside m e /\ sym m e = Some g /\ set_marks INV m e kk = Some m' /\
    ((org m e = Some a /\ dest m e = Some b /\ kk = k) \/ (org m e = Some b /\ dest m e = Some a /\ kk = twin k))
  else m' = m /\ inside m h' /\ org m h' = Some a /\ exists d x, dest m h' = Some d /\ apex m h' = Some x /\ (ccw a b d < 0)%Z /\ (0 < ccw a b x)%Z.
Proof.
  intros (S & Mp & Ln & Li) I Oa Al E. destruct fuel as [|f]; [discriminate|]. cbn [scout_segment] in E.
  destruct (find_direction n ccw m ghost h b turns) as [(dir & h1)|] eqn:Ef; [|discriminate].
  destruct (find_direction_ok n ccw m (proj1 S) (exact_anti P ccw Ex) ghost h b turns dir h1 I Ef) as (st & d & x & O & I1 & O1 & D1 & A1 & Lb & Ls & Ld & Lx & Sa & Sd & Dir).
  assert (st = a) by congruence. subst st. rewrite D1, A1 in E. destruct (differ m S h1 I1) as (Q1 & Q2 & Q3).
  destruct (x =? b) eqn:Nx; [apply Nat.eqb_eq in Nx|apply Nat.eqb_neq in Nx].
  { pose proof (in_prev _ _ I1) as Ip. destruct (wf_nei m (proj1 S) _ Ip) as (g & Sg & _). destruct (set_marks INV m (prev h1) (twin k)) as [m1|] eqn:E1; [|discriminate]. injection E as <- <- <-.
    exists (prev h1), g, (twin k). split; [exact Ip|]. split; [exact Sg|]. split; [exact E1|]. right. destruct (prev_corners m h1 I1) as (P1 & P2 & _). repeat split; congruence. }
  destruct (d =? b) eqn:Nd; [apply Nat.eqb_eq in Nd|apply Nat.eqb_neq in Nd].
  { destruct (wf_nei m (proj1 S) _ I1) as (g & Sg & _). destruct (set_marks INV m h1 k) as [m1|] eqn:E1; [|discriminate]. injection E as <- <- <-. exists h1, g, k. split; [exact I1|]. split; [exact Sg|]. split; [exact E1|]. left. repeat split; congruence. }
  destruct dir.
  - injection E as <- <- <-. destruct Dir. eauto 10.
  - elim (Al x); auto. congruence.
  - destruct Dir as (_ & Q). elim (Al d); auto. congruence.
Qed.
(** What marking the edge between [a] and [b] does to the segments. *)
Record placed (m m' : list triangle) (k a b : nat) : Prop := {
  pl_there : segment m' k a b /\ segment m' (other_mark k) b a;
  pl_others : forall k' u v, segment m k' u v -> ~ (u = a /\ v = b) -> ~ (u = b /\ v = a) -> segment m' k' u v;
  pl_only : forall h, inside m' h -> mark m' h <> Some INV -> was n m m' h \/ (mark m' h = Some k /\ org m' h = Some a /\ dest m' h = Some b) \/ (mark m' h = Some (other_mark k) /\ org m' h = Some b /\ dest m' h = Some a) }.
Lemma marks_placed m e g k m' u v : sound m -> length m <= INV -> inside m e -> sym m e = Some g -> org m e = Some u -> dest m e = Some v -> set_marks INV m e k = Some m' ->
  placed m m' k u v /\ shape m m' /\ (marked_pairs INV m -> k <> INV -> other_mark k <> INV -> marked_pairs INV m').
Proof.
  intros S Li I Sg Ou Dv E. destruct (wf_nei m (proj1 S) e I) as (g' & Sg' & Ig & Sb & Og & Dg). assert (g' = g) by congruence. subst g'.
  assert (Ne : e <> g) by (intros <-; now apply (not_own m S e e I Sg)).
  destruct (set_marks_ok INV m e g k (proj1 S) I Sg Ne Li) as (m1 & E1 & Sh & Me & Mg & Mo). rewrite E in E1. injection E1 as <-.
  assert (Co : forall h, inside m h -> inside m' h /\ org m' h = org m h /\ dest m' h = dest m h) by (intros h Ih; destruct (shape_corner m m' h Sh Ih) as (A & B & _); split; [eapply shape_inside; eauto|auto]).
  assert (Ba : forall h, inside m' h -> inside m h) by (destruct Sh as (L & _); intros h (A & B); split; auto; congruence).
  split; [constructor|split; [exact Sh|]].
  - split; [exists e|exists g]; [destruct (Co e I) as (A & B & C)|destruct (Co g Ig) as (A & B & C)]; (split; [exact A|]); rewrite B, C; repeat split; auto; congruence.
  - intros k' x y (h & Ih & Mk & Ox & Dy) N1 N2. exists h. destruct (Co h Ih) as (A & B & C). split; [exact A|]. rewrite B, C. split; [|auto]. rewrite Mo; auto; intros ->; [apply N1|apply N2]; split; congruence.
  - intros h Ih Mk. apply Ba in Ih. destruct (Co h Ih) as (A & B & C). rewrite B, C.
    destruct (he_eqb_spec h e) as [->|N1]; [right; left; repeat split; congruence|]. destruct (he_eqb_spec h g) as [->|N2]; [right; right; rewrite twin_other; repeat split; congruence|].
    left. exists h. rewrite Mo, B, C by auto. split; [exact Ih|]. split; [auto|]. split; [auto|]. split; [auto|].
    intros (c & i & w & Hc & Hi & Gi & Nw). pose proof Sh as (_ & Sy & Da & _). exists c, i, w. rewrite Sy, Da by exact Hi. auto.
  - intros Pr N1 N2 h c Ih Sc. apply Ba in Ih. pose proof Sh as (_ & Sy & _). rewrite Sy in Sc.
    destruct (he_eqb_spec h e) as [->|Nh]; [assert (c = g) by congruence; subst c; rewrite Me, Mg; split; intros Q; injection Q as Q; contradiction|].
    destruct (he_eqb_spec h g) as [->|Ng]; [assert (c = e) by congruence; subst c; rewrite Me, Mg; split; intros Q; injection Q as Q; contradiction|].
    destruct (wf_nei m (proj1 S) h Ih) as (c' & Sc' & Ic & Scb & _). assert (c' = c) by congruence. subst c'. rewrite !Mo; auto; intros ->; congruence.
Qed.
Lemma placed_back m m' k a b : placed m m' (twin k) b a -> placed m m' k a b.
Proof.
  intros [(A & B) C D]. rewrite twin_other, twin_twin in *. constructor; rewrite ?twin_other in *; [auto|intros; apply C; tauto|]. intros h I Mk. destruct (D h I Mk) as [X|[X|X]]; tauto.
Qed.
Lemma placed_after m vm m1 vm1 m' k a b : kept INV n m vm m1 vm1 -> placed m1 m' k a b ->
  segment m' k a b /\ segment m' (other_mark k) b a /\
  (forall k' u v, k' <> INV -> segment m k' u v -> ~ (u = a /\ v = b) -> ~ (u = b /\ v = a) -> segment m' k' u v) /\
  (forall h, inside m' h -> mark m' h <> Some INV -> was n m m' h \/ (mark m' h = Some k /\ org m' h = Some a /\ dest m' h = Some b) \/ (mark m' h = Some (other_mark k) /\ org m' h = Some b /\ dest m' h = Some a)).
Proof.
  intros K [(A & B) C D]. split; [exact A|]. split; [exact B|]. split.
  - intros k' u v Nk H. apply C. now apply (kp_segment _ _ _ _ _ _ K).
  - intros h I Mk. destruct (D h I Mk) as [(h1 & I1 & M1 & O1 & D1 & B1)|X]; [left|auto].
    destruct (kp_was _ _ _ _ _ _ K h1 I1 ltac:(congruence)) as (h2 & I2 & M2 & O2 & D2 & B2). exists h2. repeat split; try congruence; try apply I2. auto.
Qed.

(** No marked side has its ends on the two sides of the line from [a] to [b], but for the border. *)
Definition uncrossed (m : list triangle) (a b : nat) : Prop :=
  forall h u v, inside m h -> mark m h <> Some INV -> org m h = Some u -> dest m h = Some v -> (ccw a b u < 0 < ccw a b v)%Z -> border n m h.
Lemma uncrossed_kept m vm m' vm' a b : kept INV n m vm m' vm' -> uncrossed m a b -> uncrossed m' a b.
Proof. intros K U h u v I Mk Ou Dv Cr. destruct (kp_was _ _ _ _ _ _ K h I Mk) as (h1 & I1 & M1 & O1 & D1 & B1). apply B1, (U h1 u v); congruence || assumption. Qed.
Lemma careful_kept m e vm m' vm' a b u v : sound m -> mapped m vm -> length vm = n -> inside m e -> marked_pairs INV m -> uncrossed m a b -> org m e = Some u -> dest m e = Some v -> (ccw a b u < 0 < ccw a b v)%Z ->
  careful m e vm = Some (m', vm') -> kept INV n m vm m' vm'.
Proof.
  intros S Mp Ln I Pr U Ou Dv Cr E. pose proof (careful_flip _ _ _ _ E) as F. unfold careful in E.
  destruct (wf_nei m (proj1 S) e I) as (top & St & It & _). rewrite St in E. destruct (apex m e) as [bv|] eqn:Eb; [|discriminate]. destruct (apex m top) as [fv|] eqn:Ef; [|discriminate]. destruct (Nat.eqb_spec bv fv) as [|Nf]; [discriminate|]. clear E.
  assert (u < n /\ v < n /\ bv < n /\ fv < n) as (Lr & Ll & Lb & Lf).
  { pose proof F as G. unfold flip in G. rewrite Ou, Dv, Eb, St, Ef in G.
    repeat match type of G with (match ?x with _ => _ end = _) => let Z := fresh "Z" in destruct x eqn:Z; [|discriminate] end.
    repeat match goal with Z : redirect _ _ _ _ _ = Some _ |- _ => apply redirect_lt in Z end. lia. }
  destruct (flip_kept INV n m e top vm u v bv fv S Mp Ln I St Ou Dv Eb Ef Nf Lr Ll Lb Lf) as (m1 & vm1 & F1 & _ & K). rewrite F in F1. injection F1 as <- <-. apply K; [exact Pr|].
  destruct (mark m e) as [k|] eqn:Mk.
  - destruct (Nat.eq_dec k INV) as [->|Nk]; [reflexivity|]. elim (fun X : border n m e -> False => X (U e u v I ltac:(congruence) Ou Dv Cr)). clear - I It St Ou Dv Eb Ef Lr Ll Lb Lf S.
    destruct (wf_nei m (proj1 S) e I) as (top' & St' & _ & _ & Ot & Dt). assert (top' = top) by congruence. subst top'.
    intros (c & i & w & Hc & Hi & Gi & Nw). assert (Hw : has m (fst c) w) by (exists i; auto).
    destruct Hc as [->|Hc]; [destruct (has_one m e _ w I eq_refl Hw) as [Q|[Q|Q]]; assert (w < n) by congruence; lia|].
    assert (c = top) by congruence. subst c. destruct (has_one m top _ w It eq_refl Hw) as [Q|[Q|Q]]; assert (w < n) by congruence; lia.
  - unfold mark in Mk. elim (wf_data m (proj1 S) (fst e) (snd e + 3)); [apply I|destruct I; lia|exact Mk].
Qed.
Lemma clear_kept ff ep1 ep2 fuel : forall m vm fx g p q m' vm' fx' b, ok INV n m vm -> inside m fx -> dest m fx = Some ep1 -> marked_pairs INV m -> uncrossed m ep1 ep2 ->
  apex m fx = Some p -> (ccw ep1 ep2 p < 0)%Z -> sym m fx = Some g -> apex m g = Some q -> (0 < ccw ep1 ep2 q)%Z ->
  clear_way INV n ccw inc ghost careful ff ep1 ep2 m vm fx fuel = Some (m', vm', fx', b) -> kept INV n m vm m' vm'.
Proof.
  induction fuel as [|f IH]; intros m vm fx g p q m' vm' fx' b O I De Pr U Ap Pp Sg Aq Qq E; [discriminate|]. cbn [clear_way] in E. destruct (org m fx) as [fv|] eqn:Eo; [|discriminate]. pose proof O as (S & Mp & Ln & Li).
  destruct (if fv =? ep2 then _ else _) as [area|] eqn:Ea; [|discriminate].
  destruct (wf_nei m (proj1 S) fx I) as (g' & Sg' & Ig & _ & Og & Dg). assert (g' = g) by congruence. subst g'. unfold oprev in E. rewrite Sg in E.
  pose proof (in_next _ _ Ig) as I2. assert (O2 : org m (next g) = Some fv) by (rewrite side_org_next by exact Ig; congruence).
  assert (Ng : fst g <> fst fx) by (intros Q; now apply (not_own m S fx g I Sg)).
  destruct (area =? 0)%Z eqn:Ez.
  - destruct (delaunay_fixup INV n ccw inc ghost careful m vm fx false ff) as [((m1 & vm1) & fx1)|] eqn:E1; [|discriminate].
    destruct (fixup_ok INV n P ccw inc ghost careful Ex careful_flip _ _ _ _ _ _ _ _ S Mp Ln I E1) as ((H1 & J1) & K1). specialize (K1 Pr). pose proof (ok_held _ _ _ _ _ _ O H1) as (S1 & Mp1 & Ln1 & Li1).
    destruct (delaunay_fixup INV n ccw inc ghost careful m1 vm1 (next g) true ff) as [((m2 & vm2) & fx3)|] eqn:E2; [|discriminate].
    destruct (fixup_ok INV n P ccw inc ghost careful Ex careful_flip _ _ _ _ _ _ _ _ S1 Mp1 Ln1 (held_inside _ _ _ _ _ _ H1 I2) E2) as (_ & K2). specialize (K2 (kp_pairs _ _ _ _ _ _ K1)).
    injection E as <- <- <- <-. eapply kept_trans; eauto.
  - assert (Ar : area = ccw ep1 ep2 fv).
    { destruct (fv =? ep2); [injection Ea as <-; discriminate|]. apply turn_lt in Ea. tauto. }
    apply Z.eqb_neq in Ez.
    match type of E with (match ?x with _ => _ end = _) => destruct x as [((m1 & vm1) & fx1)|] eqn:E1; [|discriminate] end.
    assert (kept INV n m vm m1 vm1 /\ inside m1 fx1 /\ apex m1 fx1 = Some ep1 /\ exists u v, org m1 fx1 = Some u /\ dest m1 fx1 = Some v /\ (ccw ep1 ep2 u < 0 < ccw ep1 ep2 v)%Z) as (K1 & I1 & A1 & u & v & Ou & Dv & Cr).
    { destruct (Z.ltb_spec 0 area) as [Pa|Na].
      - destruct (delaunay_fixup INV n ccw inc ghost careful m vm (next g) true ff) as [((m2 & vm2) & fx3)|] eqn:E2; [|discriminate]. destruct (fixup_ok INV n P ccw inc ghost careful Ex careful_flip _ _ _ _ _ _ _ _ S Mp Ln I2 E2) as ((H2 & _) & K2).
        destruct (fixup_frame INV n P ccw inc ghost careful Ex careful_flip _ _ _ _ _ _ _ _ _ S Mp Ln I2 O2 E2) as (_ & _ & _ & Fr & _). injection E1 as <- <- <-.
        pose proof (held_inside _ _ _ _ _ _ H2 I) as I'. split; [auto|]. split; [now apply in_prev|]. rewrite apex_prev by exact I'.
        destruct (same_corner m m2 fx) as (X & Y & Z); [apply Fr; [cbn [next fst]; congruence|now apply has_org]|exact I|]. split; [congruence|]. exists p, fv.
        destruct (prev_corners m2 fx I') as (P1 & P2 & _). split; [congruence|]. split; [congruence|]. lia.
      - destruct (delaunay_fixup INV n ccw inc ghost careful m vm fx false ff) as [((m2 & vm2) & fx3)|] eqn:E2; [|discriminate]. destruct (fixup_ok INV n P ccw inc ghost careful Ex careful_flip _ _ _ _ _ _ _ _ S Mp Ln I E2) as ((H2 & I3) & K2).
        destruct (fixup_frame INV n P ccw inc ghost careful Ex careful_flip _ _ _ _ _ _ _ _ _ S Mp Ln I Eo E2) as (_ & X & Y & Fr & Sy & _).
        rewrite Sy, Sg in E1. injection E1 as <- <- <-. pose proof (held_inside _ _ _ _ _ _ H2 Ig) as Ig'. split; [auto|]. split; [now apply in_next|].
        destruct (same_corner m m2 g) as (X1 & X2 & X3); [apply Fr; [exact Ng|apply (has_org m (next g)); auto]|exact Ig|].
        rewrite apex_next, side_org_next, side_dest_next by exact Ig'. split; [congruence|]. exists fv, q. split; [congruence|]. split; [congruence|]. lia. }
    pose proof (kp_held _ _ _ _ _ _ K1) as H1. pose proof (ok_held _ _ _ _ _ _ O H1) as O1. pose proof O1 as (S1 & Mp1 & Ln1 & Li1). destruct (careful m1 fx1 vm1) as [(m2 & vm2)|] eqn:E2; [|discriminate].
    pose proof (careful_kept m1 fx1 vm1 m2 vm2 ep1 ep2 u v S1 Mp1 Ln1 I1 (kp_pairs _ _ _ _ _ _ K1) (uncrossed_kept _ _ _ _ _ _ K1 U) Ou Dv Cr E2) as K2. pose proof (kp_held _ _ _ _ _ _ K2) as H2.
    destruct (careful_corners _ _ _ _ _ S1 I1 E2) as (D2 & A2 & top & T1 & T2).
    eapply kept_trans; [exact K1|]. eapply kept_trans; [exact K2|].
    eapply (IH m2 vm2 fx1 top u v); [exact (ok_held _ _ _ _ _ _ O1 H2)|exact (held_inside _ _ _ _ _ _ H2 I1)|congruence|apply K2| |congruence|lia|exact T1|congruence|lia|exact E].
    eapply uncrossed_kept; [exact K2|]. eapply uncrossed_kept; eauto.
Qed.
Lemma constrained_placed ff fuel m vm start a b k d x m' vm' : ok INV n m vm -> inside m start -> org m start = Some a -> alone a b ->
  dest m start = Some d -> apex m start = Some x -> (ccw a b d < 0)%Z -> (0 < ccw a b x)%Z -> marked_pairs INV m -> uncrossed m a b ->
  constrained_edge INV n ccw inc ghost careful ff m vm start b k fuel = Some (m', vm') ->
  exists m2 vm2, kept INV n m vm m2 vm2 /\ placed m2 m' k a b /\ (k <> INV -> other_mark k <> INV -> marked_pairs INV m').
Proof.
  intros O I Eo Al Ed Ex' Pd Px Pr U E. pose proof O as (S & Mp & Ln & Li). destruct fuel as [|f]; [discriminate|]. cbn [constrained_edge] in E. rewrite Eo in E. pose proof (in_next _ _ I) as I0.
  destruct (careful m (next start) vm) as [(m1 & vm1)|] eqn:E1; [|discriminate]. destruct (careful_corners _ _ _ _ _ S I0 E1) as (D1 & A1 & top & T1 & T2). rewrite apex_next, Eo in D1 by exact I. rewrite side_org_next, Ed in A1 by exact I. rewrite side_dest_next, Ex' in T2 by exact I.
  assert (K1 : kept INV n m vm m1 vm1).
  { eapply (careful_kept m (next start) vm m1 vm1 a b d x S Mp Ln I0 Pr U); [rewrite side_org_next by exact I; exact Ed|rewrite side_dest_next by exact I; exact Ex'|lia|exact E1]. }
  pose proof (kp_held _ _ _ _ _ _ K1) as H1. pose proof (ok_held _ _ _ _ _ _ O H1) as O1. pose proof (held_inside _ _ _ _ _ _ H1 I0) as I1.
  destruct (clear_way INV n ccw inc ghost careful ff a b m1 vm1 (next start) ff) as [(((m2 & vm2) & fx2) & c)|] eqn:E2; [|discriminate].
  destruct (clear_held INV n P ccw inc ghost Ex _ _ _ _ _ _ _ _ _ _ _ O1 I1 E2) as (H2 & I2). destruct (clear_end _ _ _ _ _ _ _ _ _ _ _ O1 I1 D1 E2) as (D2 & w & W & B1 & B2).
  pose proof (clear_kept _ _ _ _ _ _ _ _ _ _ _ _ _ _ O1 I1 D1 (kp_pairs _ _ _ _ _ _ K1) (uncrossed_kept _ _ _ _ _ _ K1 U) A1 Pd T1 T2 Px E2) as K2. pose proof (kept_trans _ _ _ _ _ _ _ _ K1 K2) as K12.
  destruct c; [destruct (B2 eq_refl) as (X & Y & Z & Q); now elim (Al w)|]. specialize (B1 eq_refl). subst w. rewrite D2 in E.
  pose proof (ok_held _ _ _ _ _ _ O1 H2) as (S2 & Mp2 & Ln2 & Li2). assert (N : a <> b) by (intros <-; apply (proj2 S2 fx2 I2); congruence).
  destruct (Nat.eqb_spec a b) as [|_]; [contradiction|]. destruct (set_marks INV m2 fx2 (twin k)) as [m3|] eqn:E3; [|discriminate]. injection E as <- <-.
  destruct (wf_nei m2 (proj1 S2) fx2 I2) as (g & Sg & _).
  destruct (marks_placed m2 fx2 g (twin k) m3 b a S2 Li2 I2 Sg W D2 E3) as (Pl & _ & Mp3). exists m2, vm2. split; [exact K12|]. split; [now apply placed_back|].
  intros N1 N2. apply Mp3; [apply K12|exact N2|]. rewrite twin_other, twin_twin. exact N1.
Qed.
(** A segment with no other point on its line is in the mesh after its insertion; if the
    line goes between the ends of no marked side within the border, the other segments are what they were,
    but for a mark the edge had before. *)
Theorem C83_insert ff m vm a b k m' vm' : sound m -> mapped m vm -> length vm = n -> length m <= INV -> a <> b -> alone a b ->
  insert_segment INV n ccw inc ghost careful ff m vm a b k = Some (m', vm') ->
  segment m' k a b /\ segment m' (other_mark k) b a /\
  (marked_pairs INV m -> k <> INV -> other_mark k <> INV -> uncrossed m a b -> marked_pairs INV m' /\
   (forall k' u v, k' <> INV -> segment m k' u v -> ~ (u = a /\ v = b) -> ~ (u = b /\ v = a) -> segment m' k' u v) /\
   (forall h, inside m' h -> mark m' h <> Some INV -> was n m m' h \/ (mark m' h = Some k /\ org m' h = Some a /\ dest m' h = Some b) \/ (mark m' h = Some (other_mark k) /\ org m' h = Some b /\ dest m' h = Some a))).
Proof.
  intros S Mp Ln Li N Al E. assert (O : ok INV n m vm) by (unfold ok; auto). unfold insert_segment in E. destruct (nth_error vm a) as [h|] eqn:Ea; [|discriminate].
  assert (Fi : forall m h ep k turns fuel r, scout_segment INV n ccw m ghost h ep k turns fuel = Some r -> snd h < 3 -> inside m h).
  { intros x y ep q turns fuel r Q Sy. split; [|exact Sy]. destruct fuel; [discriminate|]. cbn [scout_segment] in Q. unfold find_direction in Q. unfold org in Q. destruct (get_data x (fst y) _) eqn:G; [|discriminate].
    unfold get_data in G. destruct (nth_error x (fst y)) eqn:G'; [|discriminate]. eapply nth_error_lt; eauto. }
  assert (Fin : forall m', placed m m' k a b -> (marked_pairs INV m -> k <> INV -> other_mark k <> INV -> marked_pairs INV m') -> segment m' k a b /\ segment m' (other_mark k) b a /\
    (marked_pairs INV m -> k <> INV -> other_mark k <> INV -> uncrossed m a b -> marked_pairs INV m' /\
     (forall k' u v, k' <> INV -> segment m k' u v -> ~ (u = a /\ v = b) -> ~ (u = b /\ v = a) -> segment m' k' u v) /\
     (forall h, inside m' h -> mark m' h <> Some INV -> was n m m' h \/ (mark m' h = Some k /\ org m' h = Some a /\ dest m' h = Some b) \/ (mark m' h = Some (other_mark k) /\ org m' h = Some b /\ dest m' h = Some a)))).
  { intros m1 [(A & B) C D] Q. split; [exact A|]. split; [exact B|]. intros X Y Z _. split; [auto|]. split; [intros k' u v _; apply C|exact D]. }
  assert (Tw : forall x, x <> INV -> other_mark x <> INV -> twin x <> INV /\ other_mark (twin x) <> INV) by (intros x X Y; split; [exact Y|rewrite twin_other; rewrite twin_twin; exact X]).
  destruct (scout_segment INV n ccw m ghost h b k ff ff) as [((m1 & h1) & f1)|] eqn:E1; [|discriminate]. destruct (Mp _ _ Ea) as (Sh & Oh). pose proof (Fi _ _ _ _ _ _ _ E1 Sh) as Ih.
  pose proof (scout_alone _ _ _ _ _ _ _ _ _ _ _ O Ih (Oh (proj1 Ih)) Al E1) as R1. destruct f1.
  - injection E as <- <-. destruct R1 as (e & g & kk & Ie & Sg & Em & [(Oe & De & ->)|(Oe & De & ->)]); destruct (marks_placed m e g _ m1 _ _ S Li Ie Sg Oe De Em) as (Pl & _ & Pr); apply Fin; auto; [now apply placed_back|].
    intros X Y Z. destruct (Tw k Y Z). auto.
  - destruct R1 as (-> & I1 & Oa & d & x & Dd & Ax & Pd & Px). rewrite Oa in E. destruct (nth_error vm b) as [h2|] eqn:Eb; [|discriminate].
    destruct (scout_segment INV n ccw m ghost h2 a (twin k) ff ff) as [((m2 & h3) & f2)|] eqn:E2; [|discriminate]. destruct (Mp _ _ Eb) as (Sh2 & Oh2). pose proof (Fi _ _ _ _ _ _ _ E2 Sh2) as Ih2.
    pose proof (scout_alone _ _ _ _ _ _ _ _ _ _ _ O Ih2 (Oh2 (proj1 Ih2)) (alone_back _ _ Al) E2) as R2. destruct f2.
    + injection E as <- <-. destruct R2 as (e & g & kk & Ie & Sg & Em & [(Oe & De & ->)|(Oe & De & ->)]).
      * destruct (marks_placed m e g _ m2 _ _ S Li Ie Sg Oe De Em) as (Pl & _ & Pr). apply Fin; [now apply placed_back|]. intros X Y Z. destruct (Tw k Y Z). auto.
      * rewrite twin_twin in Em. destruct (marks_placed m e g _ m2 _ _ S Li Ie Sg Oe De Em) as (Pl & _ & Pr). now apply Fin.
    + destruct R2 as (-> & _ & Ob & _). rewrite Ob in E. destruct (C83_constrained _ _ _ _ _ _ _ _ _ _ S Mp Ln Li I1 Oa Al E) as (A & B). split; [exact A|]. split; [exact B|].
      intros Pr N1 N2 U. destruct (constrained_placed _ _ _ _ _ _ _ _ _ _ _ _ O I1 Oa Al Dd Ax Pd Px Pr U E) as (m3 & vm3 & K & Pl & Q). split; [auto|]. apply (placed_after m vm m3 vm3 m' k a b K Pl).
Qed.
(** The line of a later segment [t] does not go between the ends of an earlier one [s],
    and they are not the same. *)
Definition clear_of (s t : nat * nat) : Prop := let (u, v) := s in let (a, b) := t in
  ~ (ccw a b u < 0 < ccw a b v)%Z /\ ~ (ccw a b v < 0 < ccw a b u)%Z /\ ~ (u = a /\ v = b) /\ ~ (u = b /\ v = a).
(** The side has the mark of the segment number [j] from [a] to [b], or its other mark, and its ends. *)
Definition side_of (m : list triangle) (h : hedge) (j a b : nat) : Prop :=
  (mark m h = Some (2 * j) /\ org m h = Some a /\ dest m h = Some b) \/ (mark m h = Some (2 * j + 1) /\ org m h = Some b /\ dest m h = Some a).
(** Several segments: each is in the mesh in the end, those there before still are, and no
    other side has a mark.
    Missing: the same when only the segments do not cross, and not their lines; that the
    insertion ends. *)
Theorem C83_all_partial ff : forall l m vm i m', sound m -> mapped m vm -> length vm = n -> length m <= INV -> marked_pairs INV m -> 2 * (i + length l) <= INV ->
  (forall a b, In (a, b) l -> a <> b /\ alone a b /\ uncrossed m a b) -> ForallOrdPairs clear_of l ->
  insert_segments INV n ccw inc ghost careful ff m vm i (flat_map (fun s => [fst s; snd s]) l) = Some m' ->
  (forall j a b, nth_error l j = Some (a, b) -> segment m' (2 * (i + j)) a b /\ segment m' (2 * (i + j) + 1) b a) /\
  (forall k u v, k <> INV -> segment m k u v -> ~ In (u, v) l -> ~ In (v, u) l -> segment m' k u v) /\
  (forall h, inside m' h -> mark m' h <> Some INV -> was n m m' h \/ exists j a b, nth_error l j = Some (a, b) /\ side_of m' h (i + j) a b).
Proof.
  induction l as [|(a & b) l IH]; intros m vm i m' S Mp Ln Li Pr Lk Al Cl E; cbn [flat_map fst snd app insert_segments] in E.
  { injection E as <-. split; [intros [|j] a b Q; discriminate Q|]. split; [auto|]. intros h I _. left. exists h. auto 6. }
  destruct (Al a b (or_introl eq_refl)) as (N & Ab & Ub). destruct (Nat.eqb_spec a b) as [|_]; [contradiction|]. cbn [negb] in E.
  destruct (insert_segment INV n ccw inc ghost careful ff m vm a b (2 * i)) as [(m1 & vm1)|] eqn:E1; [|discriminate].
  assert (O : ok INV n m vm) by (unfold ok; auto). pose proof (insert_held INV n P ccw inc ghost Ex _ _ _ _ _ _ _ _ O E1) as H1. pose proof (ok_held _ _ _ _ _ _ O H1) as (S1 & Mp1 & Ln1 & Li1).
  cbn [length] in Lk. assert (Ok2 : other_mark (2 * i) = 2 * i + 1). { unfold other_mark. replace (Nat.even (2 * i)) with true; [reflexivity|]. symmetry. apply Nat.even_spec. now exists i. }
  destruct (C83_insert _ _ _ _ _ _ _ _ S Mp Ln Li N Ab E1) as (A1 & A2 & R). rewrite Ok2 in *. destruct (R Pr ltac:(lia) ltac:(lia) Ub) as (Pr1 & Ke & Wa). clear R.
  inversion Cl as [|x y Cx Cy]; subst x y. rewrite Forall_forall in Cx.
  destruct (IH m1 vm1 (Datatypes.S i) m' S1 Mp1 Ln1 Li1 Pr1 ltac:(lia)) as (R1 & R2 & R3); [|exact Cy|exact E|].
  { intros a' b' Hin. destruct (Al a' b' (or_intror Hin)) as (N' & Ab' & Ub'). split; [exact N'|]. split; [exact Ab'|]. destruct (Cx _ Hin) as (C1 & C2 & _).
    intros h u v I Mk Ou Dv Cr. destruct (Wa h I Mk) as [(h1 & I1 & M1 & O1 & D1 & B1)|[(_ & X & Y)|(_ & X & Y)]].
    - apply B1, (Ub' h1 u v); congruence || assumption.
    - elim C1. assert (u = a) by congruence. assert (v = b) by congruence. subst. exact Cr.
    - elim C2. assert (u = b) by congruence. assert (v = a) by congruence. subst. exact Cr. }
  assert (No : ~ In (a, b) l /\ ~ In (b, a) l) by (split; intros Hin; destruct (Cx _ Hin) as (_ & _ & X & Y); tauto).
  split; [|split].
  - intros [|j] a' b' Q; cbn [nth_error] in Q.
    + injection Q as <- <-. rewrite Nat.add_0_r. split; apply R2; try tauto; lia.
    + replace (i + Datatypes.S j) with (Datatypes.S i + j) by lia. now apply R1.
  - intros k u v Nk Sg N1 N2. cbn [In] in N1, N2. apply R2; [exact Nk| |tauto|tauto]. apply Ke; [exact Nk|exact Sg| |]; intros (-> & ->); tauto.
  - intros h I Mk. destruct (R3 h I Mk) as [(h1 & I1 & M1 & O1 & D1 & B1)|(j & a' & b' & Q & Sd)].
    2:{ right. exists (Datatypes.S j), a', b'. split; [exact Q|]. replace (i + Datatypes.S j) with (Datatypes.S i + j) by lia. exact Sd. }
    destruct (Wa h1 I1 ltac:(congruence)) as [(h2 & I2 & M2 & O2 & D2 & B2)|W].
    + left. exists h2. split; [exact I2|]. split; [congruence|]. split; [congruence|]. split; [congruence|auto].
    + right. exists 0, a, b. split; [reflexivity|]. unfold side_of. rewrite Nat.add_0_r, <- M1, <- O1, <- D1. exact W.
Qed.
End Constrained.
(** The whole of [form_skeleton], on a triangulation without marks.  Missing as above. *)
Theorem C83_form_partial INV n P ccw inc ghost ff m l m' : exact_signs P ccw -> sound m -> length ghost = length m -> length m <= INV ->
  (forall t i v, real ghost t -> i < 3 -> get_data m t i = Some v -> v < n) -> (forall h, inside m h -> mark m h = Some INV) -> 2 * length l <= INV ->
  (forall a b, In (a, b) l -> a <> b /\ alone n ccw a b) -> ForallOrdPairs (clear_of ccw) l ->
  form_skeleton_with INV n ccw inc ghost careful ff m (flat_map (fun s => [fst s; snd s]) l) = Some m' ->
  form_skeleton INV n ccw inc ghost ff m (flat_map (fun s => [fst s; snd s]) l) = Some m' /\
  (forall j a b, nth_error l j = Some (a, b) -> segment m' (2 * j) a b /\ segment m' (2 * j + 1) b a) /\
  (forall h, inside m' h -> mark m' h <> Some INV -> exists j a b, nth_error l j = Some (a, b) /\ side_of m' h j a b).
Proof.
  intros Ex S Lg Li Hn Un Ll Al Cl E. split; [now apply careful_same|]. unfold form_skeleton_with in E. destruct (map_ok INV n m ghost S Lg Li Hn) as (vm & Ev & (_ & Mp & Lv & _)). rewrite Ev in E.
  destruct (C83_all_partial INV n P ccw inc ghost Ex ff l m vm 0 m' S Mp Lv Li) as (A & _ & B); [|exact Ll| |exact Cl|exact E|].
  - intros h g I Sg. destruct (wf_nei m (proj1 S) h I) as (g' & Sg' & Ig & _). assert (g' = g) by congruence. subst g'. rewrite !Un by assumption. tauto.
  - intros a b Hin. destruct (Al a b Hin). split; [assumption|]. split; [assumption|]. intros h u v I Mk. elim Mk. now apply Un.
  - split; [exact A|]. intros h I Mk. destruct (B h I Mk) as [(h1 & I1 & M1 & _)|X]; [elim Mk; rewrite <- M1; now apply Un|exact X].
Qed.

(** * Runs *)
(** A test of [sound] and one of [marked_pairs], for the runs. *)
Definition sides (m : list triangle) : list hedge := list_prod (seq 0 (length m)) (seq 0 3).
Definition oeqb (a b : option nat) : bool := match a, b with Some x, Some y => x =? y | None, None => true | _, _ => false end.
Definition sound_b (m : list triangle) : bool :=
  forallb (fun ti => match get_data m (fst ti) (snd ti) with Some _ => true | None => false end) (list_prod (seq 0 (length m)) (seq 0 6)) &&
  forallb (fun h => match sym m h with
    | Some g => (fst g <? length m) && (snd g <? 3) && match sym m g with Some h' => he_eqb h' h | None => false end &&
        oeqb (org m g) (dest m h) && oeqb (dest m g) (org m h) && negb (oeqb (org m h) (dest m h))
    | None => false end) (sides m).
Definition pairs_b (INV : nat) (m : list triangle) : bool :=
  forallb (fun h => match sym m h with Some g => eqb (oeqb (mark m h) (Some INV)) (oeqb (mark m g) (Some INV)) | None => true end) (sides m).
Lemma oeqb_eq a b : oeqb a b = true <-> a = b.
Proof. destruct a as [x|], b as [y|]; cbn; split; intros H; try discriminate; try reflexivity; [apply Nat.eqb_eq in H; congruence|injection H as ->; apply Nat.eqb_refl]. Qed.
Lemma in_sides m h : inside m h -> In h (sides m).
Proof. destruct h as (t & i). intros (A & B). apply in_prod; apply in_seq; cbn in *; lia. Qed.
Lemma sound_b_ok m : sound_b m = true -> sound m.
Proof.
  unfold sound_b. rewrite andb_true_iff, !forallb_forall. intros (A & B).
  assert (C : forall h, inside m h -> exists g, sym m h = Some g /\ inside m g /\ sym m g = Some h /\ org m g = dest m h /\ dest m g = org m h /\ org m h <> dest m h).
  { intros h I. specialize (B h (in_sides m h I)). cbn beta in B. destruct (sym m h) as [g|]; [|discriminate]. exists g. split; [reflexivity|]. rewrite !andb_true_iff in B. destruct B as (((((B1 & B2) & B3) & B4) & B5) & B6).
    split; [split; now apply Nat.ltb_lt|]. split; [destruct (sym m g) as [h'|]; [|discriminate]; destruct (he_eqb_spec h' h); congruence|]. apply oeqb_eq in B4, B5. split; [exact B4|]. split; [exact B5|].
    intros Q. apply oeqb_eq in Q. rewrite Q in B6. discriminate. }
  split; [constructor|].
  - intros t i Ht Hi Q. specialize (A (t, i)). cbn [fst snd] in A. rewrite Q in A. discriminate A. apply in_prod; apply in_seq; lia.
  - intros h I. destruct (C h I) as (g & X). exists g. tauto.
  - intros h I. destruct (C h I) as (g & X). tauto.
Qed.
Lemma pairs_b_ok INV m : pairs_b INV m = true -> marked_pairs INV m.
Proof.
  unfold pairs_b. rewrite forallb_forall. intros A h g I E. specialize (A h (in_sides m h I)). cbn beta in A. rewrite E in A. apply eqb_prop in A. rewrite <- !oeqb_eq, A. tauto.
Qed.
Definition mapped_b (m : list triangle) (vm : list hedge) : bool := forallb (fun vg => (snd (snd vg) <? 3) && oeqb (org m (snd vg)) (Some (fst vg))) (combine (seq 0 (length vm)) vm).
Lemma mapped_b_ok m vm : mapped_b m vm = true -> mapped m vm.
Proof.
  unfold mapped_b. rewrite forallb_forall. intros A v g E.
  assert (In (v, g) (combine (seq 0 (length vm)) vm)) as Q.
  { apply (nth_error_In _ v). clear A. pose proof (nth_error_lt _ _ _ E) as L. assert (forall (l : list hedge) s v, nth_error l v = Some g -> nth_error (combine (seq s (length l)) l) v = Some (s + v, g)) as G.
    { clear. induction l as [|x l IH]; intros s [|v] E; try discriminate; cbn in *; [injection E as ->; now rewrite Nat.add_0_r|]. rewrite (IH (S s) v E). f_equal. f_equal. lia. }
    now rewrite (G vm 0 v E). }
  specialize (A _ Q). cbn [fst snd] in A. apply andb_true_iff in A. destruct A as (A & B). apply Nat.ltb_lt in A. apply oeqb_eq in B. auto.
Qed.

(** The nine points of C82 and the ghosts of their triangulation. *)
Definition mesh9 : list triangle := match run9 with Some (m, _, _) => m | None => [] end.
Definition ghost9 : list bool := match run9 with Some (m, h, _) => match mark_ghost m h with Some g => g | None => [] end | None => [] end.
(** The hull, and a segment across two edges: the last two marks are its sides. *)
Definition hull_and_2_7 : list nat := [0; 8; 8; 6; 6; 1; 1; 0; 2; 7].
Definition skeleton9 (segs : list nat) : list triangle := match form_skeleton_with 99 9 spot_ccw spot_inc ghost9 careful 40 mesh9 segs with Some m => m | None => [] end.
Example C83_skeleton_case : exact_signs spotR spot_ccw /\ sound mesh9 /\ length ghost9 = length mesh9 /\ length mesh9 <= 99 /\
  (forall t i v, real ghost9 t -> i < 3 -> get_data mesh9 t i = Some v -> v < 9) /\
  form_skeleton_with 99 9 spot_ccw spot_inc ghost9 careful 40 mesh9 hull_and_2_7 = Some (skeleton9 hull_and_2_7) /\
  ~ (exists h, inside mesh9 h /\ org mesh9 h = Some 2 /\ dest mesh9 h = Some 7) /\
  segment (skeleton9 hull_and_2_7) 8 2 7 /\ segment (skeleton9 hull_and_2_7) 9 7 2.
Proof.
  split; [apply spot_ccw_exact|]. split; [apply sound_b_ok; vm_compute; reflexivity|]. split; [vm_compute; reflexivity|]. split; [apply Nat.leb_le; vm_compute; reflexivity|].
  split.
  { assert (A : forallb (fun ti => match nth_error ghost9 (fst ti), get_data mesh9 (fst ti) (snd ti) with Some false, Some v => v <? 9 | _, _ => true end) (sides mesh9) = true) by (vm_compute; reflexivity).
    rewrite forallb_forall in A. intros t i v Rt Hi E. specialize (A (t, i)). cbn [fst snd] in A. unfold real in Rt. rewrite Rt, E in A. apply Nat.ltb_lt, A. apply in_sides. split; [|exact Hi]. cbn [fst].
    unfold get_data in E. destruct (nth_error mesh9 t) eqn:Q; [|discriminate]. eapply nth_error_lt; eauto. }
  split; [vm_compute; reflexivity|]. split.
  { intros (h & I & A & B). assert (C : forallb (fun h => negb (oeqb (org mesh9 h) (Some 2) && oeqb (dest mesh9 h) (Some 7))) (sides mesh9) = true) by (vm_compute; reflexivity).
    rewrite forallb_forall in C. specialize (C h (in_sides _ _ I)). rewrite A, B in C. discriminate. }
  split; [exists (9, 1)|exists (13, 2)]; (split; [split; apply Nat.ltb_lt; vm_compute; reflexivity|]); vm_compute; auto.
Qed.
(** After the segment from 2 to 4, an edge beside it is flipped the wrong way; the repair
    flips it back, and leaves the segment. *)
Definition bent : option (list triangle * list hedge) := vm <- make_vertex_map 99 mesh9 ghost9 9 ;; '(m, vm) <- insert_segment 99 9 spot_ccw spot_inc ghost9 careful 40 mesh9 vm 2 4 0 ;; flip m (4, 0) vm.
Definition bent_m : list triangle := match bent with Some (m, _) => m | None => [] end.
Definition bent_vm : list hedge := match bent with Some (_, vm) => vm | None => [] end.
Example C83_fixup_case : exact_signs spotR spot_ccw /\ sound bent_m /\ mapped bent_m bent_vm /\ length bent_vm = 9 /\ inside bent_m (prev (4, 0)) /\ marked_pairs 99 bent_m /\
  segment bent_m 0 2 4 /\
  exists m' vm' fx', delaunay_fixup 99 9 spot_ccw spot_inc ghost9 flip bent_m bent_vm (prev (4, 0)) true 20 = Some (m', vm', fx') /\ map (fun t => firstn 3 (data t)) m' <> map (fun t => firstn 3 (data t)) bent_m.
Proof.
  split; [apply spot_ccw_exact|]. split; [apply sound_b_ok; vm_compute; reflexivity|]. split; [apply mapped_b_ok; vm_compute; reflexivity|]. split; [vm_compute; reflexivity|].
  split; [split; apply Nat.ltb_lt; vm_compute; reflexivity|]. split; [apply pairs_b_ok; vm_compute; reflexivity|].
  split; [exists (2, 2); split; [split; apply Nat.ltb_lt; vm_compute; reflexivity|vm_compute; auto]|].
  assert (Q : match delaunay_fixup 99 9 spot_ccw spot_inc ghost9 flip bent_m bent_vm (prev (4, 0)) true 20 with
    | Some (m', _, _) => match map (fun t => firstn 3 (data t)) m' with [3; 4; 2] :: _ => true | _ => false end | None => false end = true) by (vm_compute; reflexivity).
  destruct (delaunay_fixup 99 9 spot_ccw spot_inc ghost9 flip bent_m bent_vm (prev (4, 0)) true 20) as [((m' & vm') & fx')|]; [|discriminate]. exists m', vm', fx'. split; [reflexivity|].
  intros E. rewrite E in Q. vm_compute in Q. discriminate Q.
Qed.

(** Segments that cross: a segment already there is flipped away by the next one, since
    [constrained_edge] does not look at the marks of the edges in its way, and its mark is
    left on a side off its line. *)
Theorem C83_crossing_refuted : ~ (forall INV n P ccw inc ghost ff m segs m' i a b, exact_signs P ccw -> exact_circles P inc -> sound m -> marked_pairs INV m ->
  form_skeleton INV n ccw inc ghost ff m segs = Some m' -> nth_error segs (2 * i) = Some a -> nth_error segs (2 * i + 1) = Some b ->
  forall u v, segment m' (2 * i) u v -> ccw a b u = 0%Z /\ ccw a b v = 0%Z).
Proof.
  intros H. specialize (H 99 9 spotR spot_ccw spot_inc ghost9 40 mesh9 [3; 4; 2; 7] (skeleton9 [3; 4; 2; 7]) 0 3 4 spot_ccw_exact spot_inc_exact).
  assert (S : sound mesh9) by (apply sound_b_ok; vm_compute; reflexivity). assert (M : marked_pairs 99 mesh9) by (apply pairs_b_ok; vm_compute; reflexivity).
  assert (E : form_skeleton 99 9 spot_ccw spot_inc ghost9 40 mesh9 [3; 4; 2; 7] = Some (skeleton9 [3; 4; 2; 7])) by (vm_compute; reflexivity).
  assert (G : segment (skeleton9 [3; 4; 2; 7]) (2 * 0) 5 2) by (exists (4, 1); split; [split; apply Nat.ltb_lt; vm_compute; reflexivity|vm_compute; auto]).
  destruct (H S M E eq_refl eq_refl 5 2 G) as (A & _). vm_compute in A. discriminate A.
Qed.
(** The whole of [triangulate] on the nine points. *)
Fixpoint place (axis a : nat) (l : list nat) : list nat := match l with [] => [a] | b :: l' => if spot_lt axis a b then a :: l else b :: place axis a l' end.
Example C83_triangulate_run :
  triangulate 99 spot_ccw spot_inc spot_lt (fold_right (place 0) []) (fun axis _ => fold_right (place axis) []) 40 9 hull_and_2_7 =
  Some [2; 0; 3; 8; 3; 0; 2; 4; 1; 0; 2; 1; 2; 3; 5; 7; 5; 8; 3; 8; 5; 6; 4; 7; 7; 4; 2; 8; 6; 7; 1; 4; 6; 7; 2; 5].
Proof. vm_compute. reflexivity. Qed.
(** The segment from 2 to 7 of the nine points, after the hull: two edges are in its way. *)
Definition map9 : list hedge := match make_vertex_map 99 mesh9 ghost9 9 with Some vm => vm | None => [] end.
Definition hull9 : list triangle := skeleton9 [0; 8; 8; 6; 6; 1; 1; 0].
Definition alone_b (a b : nat) : bool := forallb (fun w => (w =? a) || (w =? b) || negb (spot_ccw a b w =? 0)%Z) (seq 0 9).
Lemma alone_b_ok a b : alone_b a b = true -> alone 9 spot_ccw a b.
Proof.
  unfold alone_b. rewrite forallb_forall. intros C w Hw N1 N2 Q. specialize (C w ltac:(apply in_seq; lia)). rewrite Q in C. destruct (Nat.eqb_spec w a), (Nat.eqb_spec w b); try contradiction. discriminate C.
Qed.
Definition uncrossed_b (a b : nat) : bool := forallb (fun h => match mark hull9 h, org hull9 h, dest hull9 h with
  | Some k, Some u, Some v => (k =? 99) || negb ((spot_ccw a b u <? 0)%Z && (0 <? spot_ccw a b v)%Z) ||
    existsb (fun i => match get_data hull9 (fst h) i, match sym hull9 h with Some c => get_data hull9 (fst c) i | None => None end with Some w, Some w' => (9 <=? w) || (9 <=? w') | _, _ => false end) [0; 1; 2]
  | _, _, _ => false end) (sides hull9).
Lemma uncrossed_b_ok a b : uncrossed_b a b = true -> uncrossed 99 9 spot_ccw hull9 a b.
Proof.
  unfold uncrossed_b. rewrite forallb_forall. intros C h u v I Mk Ou Dv (X & Y). specialize (C h (in_sides _ _ I)). rewrite Ou, Dv in C. destruct (mark hull9 h) as [k|] eqn:Ek; [|discriminate C].
  destruct (Nat.eqb_spec k 99); [congruence|]. apply Z.ltb_lt in X, Y. rewrite X, Y in C. cbn [andb negb orb] in C. apply existsb_exists in C. destruct C as (i & Hi & C).
  assert (i < 3) by (destruct Hi as [<-|[<-|[<-|[]]]]; lia). destruct (get_data hull9 (fst h) i) as [w|] eqn:G1; [|discriminate C]. destruct (sym hull9 h) as [c|] eqn:Sc; [|discriminate C].
  destruct (get_data hull9 (fst c) i) as [w'|] eqn:G2; [|discriminate C]. apply orb_true_iff in C. destruct C as [C|C]; apply Nat.leb_le in C; [exists h, i, w; auto|exists c, i, w'; auto].
Qed.
Example C83_insert_case : exact_signs spotR spot_ccw /\ sound hull9 /\ mapped hull9 map9 /\ length map9 = 9 /\ length hull9 <= 99 /\ alone 9 spot_ccw 2 7 /\ marked_pairs 99 hull9 /\
  uncrossed 99 9 spot_ccw hull9 2 7 /\ segment hull9 0 0 8 /\ insert_segment 99 9 spot_ccw spot_inc ghost9 careful 40 hull9 map9 2 7 8 <> None.
Proof.
  split; [apply spot_ccw_exact|]. split; [apply sound_b_ok; vm_compute; reflexivity|]. split; [apply mapped_b_ok; vm_compute; reflexivity|]. split; [vm_compute; reflexivity|]. split; [apply Nat.leb_le; vm_compute; reflexivity|].
  split; [apply alone_b_ok; vm_compute; reflexivity|]. split; [apply pairs_b_ok; vm_compute; reflexivity|]. split; [apply uncrossed_b_ok; vm_compute; reflexivity|].
  split; [|vm_compute; discriminate]. exists (1, 1). split; [split; apply Nat.ltb_lt; vm_compute; reflexivity|]. vm_compute. auto.
Qed.
(** And then that from 4 to 8. *)
Example C83_all_case : (forall a b, In (a, b) [(2, 7); (4, 8)] -> a <> b /\ alone 9 spot_ccw a b /\ uncrossed 99 9 spot_ccw hull9 a b) /\ ForallOrdPairs (clear_of spot_ccw) [(2, 7); (4, 8)] /\
  (forall a b, In (a, b) [(2, 7); (4, 8)] -> ~ exists h, inside hull9 h /\ org hull9 h = Some a /\ dest hull9 h = Some b) /\
  insert_segments 99 9 spot_ccw spot_inc ghost9 careful 40 hull9 map9 4 [2; 7; 4; 8] <> None.
Proof.
  split; [|split; [|split; [|vm_compute; discriminate]]].
  - intros a b [Q|[Q|[]]]; injection Q as <- <-; (split; [discriminate|]); (split; [apply alone_b_ok|apply uncrossed_b_ok]); vm_compute; reflexivity.
  - repeat constructor; unfold clear_of.
    1,2: intros (X & Y); apply Z.ltb_lt in X, Y; revert X Y; vm_compute; intros X Y; discriminate X || discriminate Y.
    all: intros (X & _); discriminate X.
  - intros a b Hin (h & I & A & B).
    assert (C : forallb (fun h => negb (oeqb (org hull9 h) (Some 2) && oeqb (dest hull9 h) (Some 7)) && negb (oeqb (org hull9 h) (Some 4) && oeqb (dest hull9 h) (Some 8))) (sides hull9) = true) by (vm_compute; reflexivity).
    rewrite forallb_forall in C. specialize (C h (in_sides _ _ I)). rewrite A, B in C. destruct Hin as [Q|[Q|[]]]; injection Q as <- <-; discriminate C.
Qed.
(** These two, and then the hull. *)
Definition two_and_hull : list (nat * nat) := [(2, 7); (4, 8); (0, 8); (8, 6); (6, 1); (1, 0)].
Definition clear_b (s t : nat * nat) : bool :=
  negb ((spot_ccw (fst t) (snd t) (fst s) <? 0)%Z && (0 <? spot_ccw (fst t) (snd t) (snd s))%Z) && negb ((spot_ccw (fst t) (snd t) (snd s) <? 0)%Z && (0 <? spot_ccw (fst t) (snd t) (fst s))%Z) &&
  negb ((fst s =? fst t) && (snd s =? snd t)) && negb ((fst s =? snd t) && (snd s =? fst t)).
Lemma clear_b_ok s t : clear_b s t = true -> clear_of spot_ccw s t.
Proof.
  destruct s as (u & v), t as (a & b). unfold clear_b, clear_of. cbn [fst snd]. rewrite !andb_true_iff, !negb_true_iff, !andb_false_iff, !Z.ltb_ge, !Nat.eqb_neq. lia.
Qed.
Example C83_form_case : length ghost9 = length mesh9 /\ (forall h, inside mesh9 h -> mark mesh9 h = Some 99) /\ (forall a b, In (a, b) two_and_hull -> a <> b /\ alone 9 spot_ccw a b) /\
  ForallOrdPairs (clear_of spot_ccw) two_and_hull /\
  form_skeleton_with 99 9 spot_ccw spot_inc ghost9 careful 40 mesh9 (flat_map (fun s => [fst s; snd s]) two_and_hull) <> None.
Proof.
  split; [vm_compute; reflexivity|]. split; [|split; [|split; [|vm_compute; discriminate]]].
  - intros h I. assert (C : forallb (fun h => oeqb (mark mesh9 h) (Some 99)) (sides mesh9) = true) by (vm_compute; reflexivity). rewrite forallb_forall in C. apply oeqb_eq, C, in_sides, I.
  - assert (C : forallb (fun s => negb (fst s =? snd s) && alone_b (fst s) (snd s)) two_and_hull = true) by (vm_compute; reflexivity). rewrite forallb_forall in C. intros a b Hin. specialize (C _ Hin). cbn [fst snd] in C.
    apply andb_true_iff in C. destruct C as (A & B). apply negb_true_iff, Nat.eqb_neq in A. split; [exact A|now apply alone_b_ok].
  - unfold two_and_hull. repeat match goal with |- ForallOrdPairs _ _ => constructor | |- Forall _ _ => constructor end; apply clear_b_ok; vm_compute; reflexivity.
Qed.
(** The flips start at a triangle whose edge across is crossed. *)
Example C83_constrained_case : exists start, inside mesh9 start /\ org mesh9 start = Some 2 /\ constrained_edge 99 9 spot_ccw spot_inc ghost9 careful 40 mesh9 map9 start 7 0 40 <> None.
Proof. exists (4, 0). split; [split; apply Nat.ltb_lt; vm_compute; reflexivity|]. split; [vm_compute; reflexivity|vm_compute; discriminate]. Qed.

(** A segment through a point between its ends, with edges in the way on both sides of the
    point: [constrained_edge] does not mark the first part. *)
Definition knot (v : nat) : Z * Z := match v with 0 => (0, 0)%Z | 1 => (3, 1)%Z | 2 => (4, -1)%Z | 3 => (7, 0)%Z | 4 => (10, 1)%Z | 5 => (11, -1)%Z | _ => (14, 0)%Z end.
Definition knotR (v : nat) : R * R := (IZR (fst (knot v)), IZR (snd (knot v))).
Definition knot_ccw (a b c : nat) : Z :=
  Z.sgn ((fst (knot b) - fst (knot a)) * (snd (knot c) - snd (knot a)) - (snd (knot b) - snd (knot a)) * (fst (knot c) - fst (knot a))).
Definition knot_inc (a b c d : nat) : Z :=
  let x p := (fst (knot p) - fst (knot d))%Z in let y p := (snd (knot p) - snd (knot d))%Z in let q p := (x p * x p + y p * y p)%Z in
  Z.sgn (q a * (x b * y c - y b * x c) - q b * (x a * y c - y a * x c) + q c * (x a * y b - y a * x b)).
Definition knot_lt (axis a b : nat) : bool := if axis =? 0 then (fst (knot a) <? fst (knot b))%Z else (snd (knot a) <? snd (knot b))%Z.
Lemma knot_ccw_exact : exact_signs knotR knot_ccw.
Proof. intros a b c. unfold knot_ccw. rewrite sgn_IZR. f_equal. unfold det, knotR. cbn [fst snd]. repeat rewrite ?minus_IZR, ?plus_IZR, ?mult_IZR. ring. Qed.
Lemma knot_inc_exact : exact_circles knotR knot_inc.
Proof. intros a b c d. unfold knot_inc. rewrite sgn_IZR. f_equal. unfold circ, knotR. cbn [fst snd]. repeat rewrite ?minus_IZR, ?plus_IZR, ?mult_IZR. ring. Qed.
Definition knot_run := div_conq_recurse 99 knot_ccw (merge_hulls 99 knot_ccw knot_inc knot_lt 30) [] [0; 2; 1; 5; 3; 4; 6] 0 30.
Definition knot_m : list triangle := match knot_run with Some (m, _, _) => m | None => [] end.
Definition knot_ghost : list bool := match knot_run with Some (m, h, _) => match mark_ghost m h with Some g => g | None => [] end | None => [] end.
Definition knot_skeleton : list triangle := match form_skeleton 99 7 knot_ccw knot_inc knot_ghost 40 knot_m [0; 6] with Some m => m | None => [] end.
(** That a segment is there from its start on: some side from it has its mark. *)
Theorem C83_collision_refuted : ~ (forall INV n P ccw inc ghost ff m a b m', exact_signs P ccw -> exact_circles P inc -> sound m -> marked_pairs INV m -> length m <= INV -> a <> b ->
  form_skeleton INV n ccw inc ghost ff m [a; b] = Some m' -> exists w, segment m' 0 a w).
Proof.
  intros H. specialize (H 99 7 knotR knot_ccw knot_inc knot_ghost 40 knot_m 0 6 knot_skeleton knot_ccw_exact knot_inc_exact).
  destruct H as (w & h & I & Mk & Oh & _).
  - apply sound_b_ok. vm_compute. reflexivity.
  - apply pairs_b_ok. vm_compute. reflexivity.
  - apply Nat.leb_le. vm_compute. reflexivity.
  - discriminate.
  - vm_compute. reflexivity.
  - assert (C : forallb (fun h => negb (oeqb (mark knot_skeleton h) (Some 0) && oeqb (org knot_skeleton h) (Some 0))) (sides knot_skeleton) = true) by (vm_compute; reflexivity).
    rewrite forallb_forall in C. specialize (C h (in_sides _ _ I)). rewrite Mk, Oh in C. discriminate C.
Qed.
(** With it the triangles below the segment, outside the polygon 0 6 4 1, come out too;
    split at the point by hand, the segments give those of the polygon. *)
Example C83_collision_output :
  (m <- form_skeleton 99 7 knot_ccw knot_inc knot_ghost 40 knot_m [0; 6; 6; 4; 4; 1; 1; 0] ;; classify 99 m knot_ghost) = Some [0; 2; 3; 1; 0; 3; 2; 5; 3; 3; 5; 6; 6; 4; 3; 1; 3; 4] /\
  (m <- form_skeleton 99 7 knot_ccw knot_inc knot_ghost 40 knot_m [0; 3; 3; 6; 6; 4; 4; 1; 1; 0] ;; classify 99 m knot_ghost) = Some [1; 0; 3; 6; 4; 3; 1; 3; 4].
Proof. split; vm_compute; reflexivity. Qed.
(** The other part is marked. *)
Example C83_collision_rest : segment knot_skeleton 0 3 6.
Proof.
  assert (C : existsb (fun h => (fst h <? length knot_skeleton) && (snd h <? 3) && oeqb (mark knot_skeleton h) (Some 0) && oeqb (org knot_skeleton h) (Some 3) && oeqb (dest knot_skeleton h) (Some 6)) (sides knot_skeleton) = true) by (vm_compute; reflexivity).
  apply existsb_exists in C. destruct C as (h & _ & C). rewrite !andb_true_iff in C. destruct C as ((((A & B) & C) & D) & E). apply Nat.ltb_lt in A, B. apply oeqb_eq in C, D, E. exists h. repeat split; auto.
Qed.
Print Assumptions C83_fixup.
Print Assumptions C83_skeleton_partial.
Print Assumptions C83_crossing_refuted.
Print Assumptions C83_constrained.
Print Assumptions C83_insert.
Print Assumptions C83_all_partial.
Print Assumptions C83_form_partial.
Print Assumptions C83_collision_refuted.
