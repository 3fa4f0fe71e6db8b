(** Lemmas on flips in a triangulation whose triangles have three different corners (C83). *)
From Coq Require Import List Arith Bool ZArith Reals Lia.
From Verif Require Import Lib Flip Prop_Flip TriSegSpec TriSeg TriSegProofs Prop_TriSeg MergeInv Skeleton SkeletonSpec.
Import ListNotations.
Local Open Scope opt_scope.

Lemma org_next m h : snd h < 3 -> org m (next h) = dest m h. Proof. intros H. change (org m (next h)) with (apex m (next (next h))). rewrite nn by auto. reflexivity. Qed.
Lemma dest_next m h : snd h < 3 -> dest m (next h) = apex m h. Proof. intros H. change (dest m (next h)) with (apex m (prev (next h))). rewrite pn by auto. reflexivity. Qed.
Lemma org_prev m h : snd h < 3 -> org m (prev h) = apex m h. Proof. intros H. change (org m (prev h)) with (apex m (next (prev h))). rewrite np by auto. reflexivity. Qed.
Lemma dest_prev m h : snd h < 3 -> dest m (prev h) = org m h. Proof. intros H. change (dest m (prev h)) with (apex m (prev (prev h))). rewrite pp by auto. reflexivity. Qed.
Lemma in_next m h : inside m h -> inside m (next h). Proof. intros (A & B). split; [exact A|apply snd_next]. Qed.
Lemma in_prev m h : inside m h -> inside m (prev h). Proof. intros (A & B). split; [exact A|apply snd_prev]. Qed.
Lemma differ m : sound m -> forall h, inside m h -> org m h <> dest m h /\ dest m h <> apex m h /\ apex m h <> org m h.
Proof.
  intros (_ & Di) h I. pose proof (Di _ (in_next _ _ I)) as A. pose proof (Di _ (in_prev _ _ I)) as B. rewrite org_next, dest_next in A by apply I. rewrite org_prev, dest_prev in B by apply I. auto.
Qed.
Lemma not_own m : sound m -> forall h g, inside m h -> sym m h = Some g -> fst g <> fst h.
Proof.
  intros S h g I E F. destruct (wf_nei m (proj1 S) h I) as (g' & E' & Ig & _ & Og & Dg). assert (g' = g) by congruence. subst g'.
  destruct (differ m S h I) as (D1 & D2 & D3). destruct (sides h g (proj2 I) (proj2 Ig) F) as [->|[->| ->]].
  - congruence.
  - rewrite dest_next in Dg by apply I. congruence.
  - rewrite org_prev in Og by apply I. congruence.
Qed.
Lemma sound_proper m e top : sound m -> inside m e -> sym m e = Some top -> apex m e <> apex m top -> proper_edge m e top.
Proof.
  intros S I E N. destruct (wf_nei m (proj1 S) e I) as (g' & E' & It & Eb & Ot & Dt). assert (g' = top) by congruence. subst g'.
  split; [exact I|]. split; [exact E|]. split; [eapply not_own; eauto|]. intros h c Ih F N1 N2 Ec. pose proof (not_own m S h c Ih Ec) as No.
  destruct (wf_nei m (proj1 S) h Ih) as (c' & Ec' & Ic & Ecb & Oc & Dc). assert (c' = c) by congruence. subst c'.
  destruct (differ m S e I) as (D1 & D2 & D3). destruct (differ m S top It) as (D4 & D5 & D6).
  assert (K : forall x y h c : hedge, inside m x -> inside m y -> org m y = dest m x -> dest m y = org m x -> org m x <> dest m x -> dest m x <> apex m x -> apex m x <> org m x ->
    org m y <> dest m y -> dest m y <> apex m y -> apex m y <> org m y -> apex m x <> apex m y ->
    snd h < 3 -> snd c < 3 -> fst h = fst x -> h <> x -> org m c = dest m h -> dest m c = org m h -> c <> y -> fst c <> fst y).
  { clear. intros x y h c Ix Iy A B X1 X2 X3 Y1 Y2 Y3 XY Sh Sc Fh Nh Oc Dc Ny F.
    destruct (sides x h (proj2 Ix) Sh Fh) as [->|[->| ->]]; [congruence| |]; (destruct (sides y c (proj2 Iy) Sc F) as [->|[->| ->]]; [congruence| |]);
      destruct Ix as (_ & Ix), Iy as (_ & Iy); repeat rewrite ?(org_next m x), ?(dest_next m x), ?(org_prev m x), ?(dest_prev m x), ?(org_next m y), ?(dest_next m y), ?(org_prev m y), ?(dest_prev m y) in Oc by assumption;
      repeat rewrite ?(org_next m x), ?(dest_next m x), ?(org_prev m x), ?(dest_prev m x), ?(org_next m y), ?(dest_next m y), ?(org_prev m y), ?(dest_prev m y) in Dc by assumption; congruence. }
  destruct F as [F|F]; split; try congruence.
  - apply (K e top h c); auto; try apply Ih; try apply Ic. intros ->. congruence.
  - apply (K top e h c); auto; try apply Ih; try apply Ic; congruence.
Qed.
Lemma redirect_at vm w a b new vm' : redirect vm w a b new = Some vm' -> forall v g, nth_error vm v = Some g -> nth_error vm' v = Some g \/ ((g = a \/ g = b) /\ nth_error vm' v = Some new).
Proof.
  unfold redirect. intros E v g Hg. destruct (nth_error vm w) as [x|] eqn:Ex; [|discriminate]. destruct (he_eqb_spec x a) as [->|Na]; [|destruct (he_eqb_spec x b) as [->|Nb]]; cbn [orb] in E.
  3:{ injection E as <-. auto. }
  all: apply set_Some in E; destruct E as (L & ->); rewrite nth_error_upd; destruct (Nat.eqb_spec w v) as [->|]; cbn [andb]; [|auto]; (destruct (Nat.ltb_spec v (length vm)); [|lia]); right; (split; [|reflexivity]); first [left; congruence|right; congruence].
Qed.

Lemma flip_kept INV n m e top vm rv lv bv fv : sound m -> mapped m vm -> length vm = n -> inside m e -> sym m e = Some top ->
  org m e = Some rv -> dest m e = Some lv -> apex m e = Some bv -> apex m top = Some fv -> bv <> fv -> rv < n -> lv < n -> bv < n -> fv < n ->
  exists m' vm', flip m e vm = Some (m', vm') /\ held n m vm m' vm' /\ (marked_pairs INV m -> mark m e = Some INV -> kept INV n m vm m' vm').
Proof.
  intros S Mp Ln I Et Hr Hl Hb Hf Nbf Lr Ll Lb Lf. pose proof (sound_proper m e top S I Et ltac:(congruence)) as P.
  destruct (C40_flip m e top vm rv lv bv fv (proj1 S) P Hr Hl Hb Hf) as (m' & vm' & E & W' & L & Lv & Dat & (E1 & E2 & E3) & (T1 & T2 & T3) & (S0 & Me & Mt) & (S1 & M1) & (S2 & M2) & (S3 & M3) & (S4 & M4) & So & V); try lia.
  exists m', vm'. split; [exact E|].
  destruct (wf_nei m (proj1 S) e I) as (g' & E' & It & Eb & Ot & Dt). assert (g' = top) by congruence. subst g'. clear E'.
  destruct P as (_ & _ & Nt & Cas). pose proof (proj2 I) as Ie. pose proof (proj2 It) as Itop.
  destruct (differ m S e I) as (D1 & D2 & D3). destruct (differ m S top It) as (D4 & D5 & D6). rewrite Hr, Hl in *. rewrite Hb, Hf, Ot, Dt in *.
  assert (Ins : forall h, inside m' h <-> inside m h) by (intros; unfold inside; now rewrite L).
  assert (Far : forall h, fst h <> fst e -> fst h <> fst top -> org m' h = org m h /\ dest m' h = dest m h /\ mark m' h = mark m h) by (intros h A B; unfold org, dest, mark; rewrite !Dat by auto; auto).
  assert (Co : forall x y, In (x, y) [(next e, prev top); (prev e, next e); (next top, prev e); (prev top, next top)] ->
    mark m' y = mark m x /\ org m' y = org m x /\ dest m' y = dest m x /\ sym m' y = sym m x /\ inside m x /\ inside m y /\ x <> e /\ x <> top /\ (fst x = fst e \/ fst x = fst top)).
  { destruct (sides_neq e Ie) as (Q1 & Q2 & _). destruct (sides_neq top Itop) as (Q3 & Q4 & _).
    intros x y [Q|[Q|[Q|[Q|[]]]]]; injection Q as <- <-; rewrite ?org_next, ?dest_next, ?org_prev, ?dest_prev by assumption; repeat split; auto using in_next, in_prev; try congruence; try (apply in_next; assumption); try (apply in_prev; assumption);
      try (apply snd_next); try (apply snd_prev); try (intros Q; apply (f_equal fst) in Q; cbn in Q; congruence); cbn; auto; try apply I; try apply It. }
  assert (Cx : forall h, inside m h -> h <> e -> h <> top -> fst h = fst e \/ fst h = fst top -> exists y, In (h, y) [(next e, prev top); (prev e, next e); (next top, prev e); (prev top, next top)]).
  { intros h Ih N1 N2 [F|F]; [destruct (sides e h Ie (proj2 Ih) F) as [->|[->| ->]]|destruct (sides top h Itop (proj2 Ih) F) as [->|[->| ->]]]; try congruence; eexists; cbn; auto 6. }
  assert (Cy : forall h, inside m h -> h <> e -> h <> top -> fst h = fst e \/ fst h = fst top -> exists y, In (y, h) [(next e, prev top); (prev e, next e); (next top, prev e); (prev top, next top)]).
  { intros h Ih N1 N2 [F|F]; [destruct (sides e h Ie (proj2 Ih) F) as [->|[->| ->]]|destruct (sides top h Itop (proj2 Ih) F) as [->|[->| ->]]]; try congruence; eexists; cbn; auto 6. }
  assert (He : held n m vm m' vm').
  { constructor; [|exact L|split; [|exact Lv]|].
    - split; [exact W'|]. intros h Ih. apply Ins in Ih. destruct (Nat.eq_dec (fst h) (fst e)) as [F|F]; [|destruct (Nat.eq_dec (fst h) (fst top)) as [F'|F']].
      + destruct (sides e h Ie (proj2 Ih) F) as [->|[->| ->]]; rewrite ?org_next, ?dest_next, ?org_prev, ?dest_prev by assumption; rewrite ?E1, ?E2, ?E3; congruence.
      + destruct (sides top h Itop (proj2 Ih) F') as [->|[->| ->]]; rewrite ?org_next, ?dest_next, ?org_prev, ?dest_prev by assumption; rewrite ?T1, ?T2, ?T3; congruence.
      + destruct (Far h F F') as (-> & -> & _). now apply S.
    - intros v g' Hg.
      assert (exists g, nth_error vm v = Some g) as (g & Gv). { destruct (nth_error vm v) eqn:Q; [eauto|]. apply nth_error_None in Q. apply nth_error_lt in Hg. lia. }
      destruct (Mp v g Gv) as (Sg & Og).
      assert (Ch : snd g' < 3 /\ (g' = g \/ fst g = fst e \/ fst g = fst top)).
      { assert (Step : forall vm1 w a b new vm2 g1, redirect vm1 w a b new = Some vm2 -> nth_error vm1 v = Some g1 -> snd new < 3 -> (fst a = fst e \/ fst a = fst top) -> (fst b = fst e \/ fst b = fst top) ->
          snd g1 < 3 /\ (g1 = g \/ fst g = fst e \/ fst g = fst top) -> exists g2, nth_error vm2 v = Some g2 /\ snd g2 < 3 /\ (g2 = g \/ fst g = fst e \/ fst g = fst top)).
        { intros vm1 w a b new vm2 g1 R Q1 Q2 Q3 Q4 (Q5 & Q6). destruct (redirect_at _ _ _ _ _ _ R _ _ Q1) as [Q|(Q & Q')]; [eauto|]. exists new. split; [exact Q'|]. split; [exact Q2|]. right.
          destruct Q6 as [->|Q6]; [|exact Q6]. destruct Q as [->| ->]; auto. }
        unfold flip in E.
        repeat match type of E with (match ?x with _ => _ end = _) => let Z := fresh "Z" in destruct x eqn:Z; [|discriminate] end.
        injection E as _ Ev.
        repeat match goal with Z : redirect _ _ _ _ _ = Some _ |- _ => revert Z end. intros R1 R2 R3 R4. subst.
        injection Et as ->.
        destruct (Step _ _ _ _ _ _ g R1 Gv) as (g1 & G1 & K1); cbn; auto; [apply snd_prev|];
        destruct (Step _ _ _ _ _ _ g1 R2 G1) as (g2 & G2 & K2); cbn; auto; [apply snd_prev|];
        destruct (Step _ _ _ _ _ _ g2 R3 G2) as (g3 & G3 & K3); cbn; auto; [apply snd_next|];
        destruct (Step _ _ _ _ _ _ g3 R4 G3) as (g4 & G4 & K4); cbn; auto; [apply snd_next|];
        replace g' with g4 by congruence; exact K4. }
      destruct Ch as (Sg' & Ch). split; [exact Sg'|]. intros Fg. destruct Ch as [->|Ch].
      + rewrite L in Fg. destruct (V v g Gv Sg (Og Fg)) as (g2 & G2 & O2). congruence.
      + assert (fst g < length m) as Fg' by (destruct Ch as [->| ->]; [apply I|apply It]). destruct (V v g Gv Sg (Og Fg')) as (g2 & G2 & O2). congruence.
    - intros t (i & v & Hi & Gi & Nv) j Hj. apply Dat; intros ->.
      + destruct (sides e (fst e, i) Ie Hi eq_refl) as [Q|[Q|Q]]; change (get_data m (fst e) i) with (apex m (fst e, i)) in Gi; rewrite Q in Gi; [|change (apex m (next e)) with (org m e) in Gi|change (apex m (prev e)) with (dest m e) in Gi]; assert (v < n) by congruence; lia.
      + destruct (sides top (fst top, i) Itop Hi eq_refl) as [Q|[Q|Q]]; change (get_data m (fst top) i) with (apex m (fst top, i)) in Gi; rewrite Q in Gi; [|change (apex m (next top)) with (org m top) in Gi|change (apex m (prev top)) with (dest m top) in Gi]; assert (v < n) by congruence; lia. }
  split; [exact He|]. intros Pr Mi.
  assert (Mj : mark m top = Some INV) by (apply (Pr e top I Et); exact Mi).
  constructor; [exact He| | |].
  - intros h g Ih Eg. apply Ins in Ih. destruct (he_eqb_spec h e) as [->|Ne]; [assert (g = top) by congruence; subst g; rewrite Me, Mt; tauto|].
    destruct (wf_nei m' W' e (proj2 (Ins e) I)) as (t' & X1 & _ & X2 & _). assert (t' = top) by congruence. subst t'.
    destruct (he_eqb_spec h top) as [->|Nh]; [assert (g = e) by congruence; subst g; rewrite Me, Mt; tauto|].
    destruct (Nat.eq_dec (fst h) (fst e)) as [F|F]; [|destruct (Nat.eq_dec (fst h) (fst top)) as [F'|F']].
    1,2: destruct (Cy h Ih Ne Nh ltac:(auto)) as (x & Hx); destruct (Co x h Hx) as (A1 & A2 & A3 & A4 & A5 & A6 & A7 & A8 & A9); assert (Sx : sym m x = Some g) by congruence;
      destruct (Cas x g A5 A9 A7 A8 Sx) as (C1 & C2); destruct (Far g C1 C2) as (_ & _ & ->); rewrite A1; apply (Pr x g A5 Sx).
    destruct (wf_nei m (proj1 S) h Ih) as (c & C1 & C2 & C3 & _). destruct (Far h F F') as (_ & _ & ->).
    assert (c <> e) by (intros ->; congruence). assert (c <> top) by (intros ->; congruence).
    destruct (Nat.eq_dec (fst c) (fst e)) as [Fc|Fc]; [|destruct (Nat.eq_dec (fst c) (fst top)) as [Fc'|Fc']].
    1,2: destruct (Cx c C2 ltac:(auto) ltac:(auto) ltac:(auto)) as (y & Hy); destruct (Co c y Hy) as (A1 & A2 & A3 & A4 & A5 & A6 & A7 & A8 & A9);
      destruct (wf_nei m' W' y (proj2 (Ins y) A6)) as (h' & H1 & _ & H2 & _); assert (h' = h) by congruence; subst h'; assert (g = y) by congruence; subst g; rewrite A1; apply (Pr h c Ih C1).
    rewrite (So h c Ih C1 F F' Fc Fc') in Eg. injection Eg as <-. destruct (Far c Fc Fc') as (_ & _ & ->). apply (Pr h c Ih C1).
  - intros k u v Nk. split; intros (h & Ih & Mh & Oh & Dh).
    + assert (h <> e) by (intros ->; congruence). assert (h <> top) by (intros ->; congruence).
      destruct (Nat.eq_dec (fst h) (fst e)) as [F|F]; [|destruct (Nat.eq_dec (fst h) (fst top)) as [F'|F']].
      1,2: destruct (Cx h Ih ltac:(auto) ltac:(auto) ltac:(auto)) as (y & Hy); destruct (Co h y Hy) as (A1 & A2 & A3 & A4 & A5 & A6 & _); exists y; rewrite Ins, A1, A2, A3; auto.
      exists h. destruct (Far h F F') as (-> & -> & ->). rewrite Ins. auto.
    + apply Ins in Ih. assert (h <> e) by (intros ->; congruence). assert (h <> top) by (intros ->; congruence).
      destruct (Nat.eq_dec (fst h) (fst e)) as [F|F]; [|destruct (Nat.eq_dec (fst h) (fst top)) as [F'|F']].
      1,2: destruct (Cy h Ih ltac:(auto) ltac:(auto) ltac:(auto)) as (y & Hy); destruct (Co y h Hy) as (A1 & A2 & A3 & A4 & A5 & A6 & _); exists y; rewrite <- A1, <- A2, <- A3; auto.
      destruct (Far h F F') as (F1 & F2 & F3). exists h. rewrite <- F1, <- F2, <- F3. auto.
  - intros h Ih Mh. apply Ins in Ih. assert (h <> e) by (intros ->; congruence). assert (h <> top) by (intros ->; congruence).
    assert (Low : forall t i w, get_data m t i = Some w -> i < 3 -> n <= w -> t <> fst e /\ t <> fst top).
    { intros t i w Gi Hi Nw. split; intros ->.
      - destruct (sides e (fst e, i) Ie Hi eq_refl) as [Q|[Q|Q]]; change (get_data m (fst e) i) with (apex m (fst e, i)) in Gi; rewrite Q in Gi; [|change (apex m (next e)) with (org m e) in Gi|change (apex m (prev e)) with (dest m e) in Gi]; assert (w < n) by congruence; lia.
      - destruct (sides top (fst top, i) Itop Hi eq_refl) as [Q|[Q|Q]]; change (get_data m (fst top) i) with (apex m (fst top, i)) in Gi; rewrite Q in Gi; [|change (apex m (next top)) with (org m top) in Gi|change (apex m (prev top)) with (dest m top) in Gi]; assert (w < n) by congruence; lia. }
    destruct (Nat.eq_dec (fst h) (fst e)) as [F|F]; [|destruct (Nat.eq_dec (fst h) (fst top)) as [F'|F']].
    1,2: destruct (Cy h Ih ltac:(auto) ltac:(auto) ltac:(auto)) as (y & Hy); destruct (Co y h Hy) as (A1 & A2 & A3 & A4 & A5 & A6 & A7 & A8 & A9); exists y; (split; [exact A5|]); (split; [auto|]); (split; [auto|]); (split; [auto|]);
      intros (c & i & w & Hc & Hi & Gi & Nw); destruct (Low _ _ _ Gi Hi Nw) as (L1 & L2); exists c, i, w; rewrite Dat by auto; (split; [|auto]); destruct Hc as [->|Hc]; [destruct A9; contradiction|right; congruence].
    destruct (Far h F F') as (F1 & F2 & F3). exists h. split; [exact Ih|]. split; [auto|]. split; [auto|]. split; [auto|].
    intros (c & i & w & Hc & Hi & Gi & Nw). destruct (Low _ _ _ Gi Hi Nw) as (L1 & L2). exists c, i, w. rewrite Dat by auto. split; [|auto]. destruct Hc as [->|Hc]; [auto|right; now apply So].
Qed.
