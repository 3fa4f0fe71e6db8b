(** Facts about one constraint after the other. *)
From Coq Require Import List Arith Bool ZArith Permutation Lia.
From Verif Require Import Lib Geo Tet TetSpec TetProofs TetFace TetFaceProofs Bsp BspSpec Trace TraceSpec TraceWalk TraceMark TraceFlood.
Import ListNotations.
Local Open Scope opt_scope.

Section Run.
  Variables (g : geom) (m : tetmesh).
  Hypothesis L : linked m.
  Hypothesis C : consistent m.
  Hypothesis GL : ghost_last m.
  Hypothesis PL : placed m.
  Hypothesis HC : hull_closed g m.
  Hypothesis FG : fair g.
  Hypothesis Few : n_points m <= length (tets m).

  (** * What is along a path is real *)
  Lemma star_real v t0 t : real m t0 -> star m v t0 t -> real m t.
  Proof using. intros R S. induction S; auto. destruct H as (x & y & i & k & _ & _ & _ & Ey & Ny). exists y. auto. Qed.
  Lemma about_real t s u : real m t -> holds m t s -> face_open m t s -> about m t s u -> real m u.
  Proof using PL GL.
    clear Few. intros R Hs O A. unfold about in A. destruct s as [|a [|b [|c0 [|? ?]]]]; try contradiction.
    - destruct A as (t0 & E & S). destruct Hs as (x & Ex & I). assert (Ha : a < n_points m) by (eapply (real_vertex m GL); eauto; apply I; now left).
      destruct (PL a Ha) as (t1 & E1 & R1 & _). rewrite E in E1. inversion E1; subst. eapply star_real; eauto.
    - apply A.
    - destruct A as [-> |(f & h & d & Tf & K & F & Th)]; auto. eapply O; eauto.
  Qed.
  Lemma moves_good va vb t s t' s' : va < n_points m -> vb < n_points m -> real m t -> holds m t s -> moves g m va vb t s t' s' ->
    real m t' /\ holds m t' s' /\ face_open m t' s'.
  Proof using HC L C GL.
    clear Few. intros Ha Hb R Hs (_ & R' & H' & _ & M). split; auto. split; auto.
    assert (B : forall v, In v s -> v < n_points m).
    { intros v Hv. destruct Hs as (x & Ex & I). exact (real_vertex m GL t x v R Ex (I v Hv)). }
    assert (G : forall u1, u1 < n_points m -> meets g u1 vb s' -> face_open m t' s').
    { intros u1 Hu Me. destruct s' as [|a [|b [|c0 [|? ?]]]]; try contradiction; try (apply (open_small m); cbn; lia).
      exact (open_by_geometry g m L C HC t' a b c0 u1 vb R' Hu Hb Me). }
    destruct s as [|a [|b [|c0 sr]]].
    - destruct M as (w & _ & _ & [Me|(-> & _)]); [apply (G va); auto|apply (open_small m); cbn; lia].
    - destruct M as (_ & Me). apply (G a); auto. apply B. now left.
    - destruct M as (Me & _). apply (G va); auto.
    - destruct M as (w & _ & _ & [Me|(-> & _)]); [apply (G va); auto|apply (open_small m); cbn; lia].
  Qed.
  Lemma path_real va vb t s l : path g m va vb t s l -> va < n_points m -> vb < n_points m -> real m t -> holds m t s -> face_open m t s ->
    forall u, along m l u -> real m u.
  Proof using HC L C GL PL.
    clear Few. intros P Ha Hb. induction P as [t|t s t' s' l N M Ne P IH]; intros R Hs O u (t0 & s0 & Hin & A).
    - destruct Hin as [E|[]]. inversion E; subst. eapply about_real; eauto.
    - destruct Hin as [E|Hin]; [inversion E; subst; eapply about_real; eauto|].
      destruct (moves_good va vb t s t' s' Ha Hb R Hs M) as (R' & H' & O'). apply IH; auto. exists t0, s0. auto.
  Qed.
  Lemma whole_real va vb l u : whole_path g m va vb l -> va < n_points m -> vb < n_points m -> along m l u -> real m u.
  Proof using HC L C GL PL.
    clear Few. intros (t & t' & s' & l' & -> & M & P) Ha Hb (t0 & s0 & Hin & A).
    assert (Ab : forall t, about m t [va] u -> real m u).
    { intros t1 (t2 & E & S). destruct (PL va Ha) as (t3 & E1 & R1 & _). rewrite E in E1. inversion E1; subst. eapply star_real; eauto. }
    destruct Hin as [E|Hin]; [inversion E; subst; eapply Ab; eauto|].
    destruct M as (_ & R' & H' & _ & _ & Me). eapply path_real; eauto; [|exists t0, s0; auto].
    destruct s' as [|a [|b [|c0 [|? ?]]]]; try contradiction; try (apply (open_small m); cbn; lia).
    exact (open_by_geometry g m L C HC t' a b c0 va vb R' Ha Hb Me).
  Qed.

  (** * The sides of a found face *)
  Lemma place_of t x k a b c d : nth_error (tets m) t = Some x -> (forall y, In y (data x) <-> y = a \/ y = b \/ y = c \/ y = d) ->
    NoDup [a; b; c; d] -> nth_error (data x) k = Some d -> face_place m t k a b c.
  Proof using L.
    clear Few. intros Ex D N Ek. destruct (L _ _ Ex) as (Ld & _ & ND & _). exists x. split; auto. split; [rewrite <- Ld; apply nth_error_Some; congruence|].
    assert (Nd : ~ In d [a; b; c]).
    { intros H. change [a; b; c; d] with ([a; b; c] ++ d :: []) in N. apply NoDup_remove_2 in N. rewrite app_nil_r in N. contradiction. }
    intros y. split.
    - intros Hy. assert (Hx : In y (data x)) by (apply D; cbn in Hy; intuition). apply In_nth_error in Hx. destruct Hx as (j & Ej). exists j. split; auto.
      intros ->. rewrite Ek in Ej. inversion Ej; subst. contradiction.
    - intros (j & Nj & Ej). assert (Hy : In y (data x)) by (eapply nth_error_In; eauto). apply D in Hy. cbn. destruct Hy as [-> |[-> |[-> | ->]]]; auto.
      exfalso. apply Nj. exact (nth_error_NoDup (data x) _ _ _ ND Ej Ek).
  Qed.
  Lemma oppo_place f d : oppo m f = Some d -> exists t x, tet f = Some t /\ nth_error (tets m) t = Some x /\ nth_error (data x) (Nat.land (ver f) 3) = Some d.
  Proof using.
    clear Few. unfold oppo, pivot, tet_at. intros H. destruct f as [ft v]; cbn [tet ver] in *.
    destruct ft as [t|]; [|destruct (look OPPO_PIVOT v); discriminate].
    destruct (nth_error (tets m) t) as [x|] eqn:Ex; [|destruct (look OPPO_PIVOT v); discriminate].
    exists t, x. split; auto. split; auto.
    assert (V : v < 12). { destruct (Nat.lt_ge_cases v 12); auto. exfalso. unfold look in H. destruct (nth_error OPPO_PIVOT v) eqn:E; [apply nth_error_Some_lt in E || (assert (v < length OPPO_PIVOT) by (apply nth_error_Some; congruence)); cbn in *; lia|discriminate]. }
    assert (P : look OPPO_PIVOT v = Some (Nat.land v 3)) by (do 12 (destruct v as [|v]; [reflexivity|]); lia).
    rewrite P in H. exact H.
  Qed.

  Lemma insert_one_ok cid c mark fuel : proper m c -> shaped m mark -> exists o, insert_one g m cid c mark fuel = Some (m, o) /\
    match o with
    | Done mark' => shaped m mark' /\ exists P, places g m c P /\ adds cid P mark mark'
    | Lost => exists va vb, In (va, vb) (sides c) /\ lost g m va vb
    | Out => exists va vb, In (va, vb) (sides c) /\ longer g m va vb fuel
    end.
  Proof using L C GL PL HC FG Few.
    destruct c as ((c0, c1), c2). intros (ND & H0 & H1 & H2) S. unfold insert_one.
    destruct (PL c0 H0) as (t0 & E0 & R0 & (x0 & Ex0 & I0)).
    destruct (triangle_at_tet_ok m c0 c1 c2 t0 x0 L C E0 Ex0) as (f & Ef & Hf & _); [apply I0; now left|]. rewrite Ef.
    destruct (tet f) as [t|] eqn:Tf.
    - destruct Hf as [-> |(d & Hf)]; [discriminate|].
      assert (K : exists b c, corners m f c0 b c d /\ (forall y, In y [c0; b; c] <-> In y [c0; c1; c2])).
      { destruct Hf as [K|K]; [exists c1, c2|exists c2, c1]; split; auto; intros y; cbn; tauto. }
      destruct K as (b & c & K & Perm).
      destruct (corners_in' m L f c0 b c d K) as (t' & x & Tf' & Ex & D & N). rewrite Tf in Tf'. inversion Tf'; subst t'.
      destruct (oppo_place f d) as (t' & x' & Tf'' & Ex' & Od); [apply K|]. rewrite Tf in Tf''. inversion Tf''; subst t'. rewrite Ex in Ex'. inversion Ex'; subst x'.
      pose proof (place_of t x _ c0 b c d Ex D N Od) as P1.
      destruct (nei_fsym m L C f c0 b c d K) as (nf & h & u & e & En & F & Tn & Th & Lu & Nu & Kh & On).
      destruct (corners_in' m L h b c0 c e Kh) as (u' & y & Th' & Ey & Dy & Ny). rewrite Th in Th'. inversion Th'; subst u'.
      destruct (oppo_place nf e On) as (u' & y' & Tn' & Ey' & Oe). rewrite Tn in Tn'. inversion Tn'; subst u'. rewrite Ey in Ey'. inversion Ey'; subst y'.
      pose proof (place_of u y _ b c0 c e Ey Dy Ny Oe) as P2.
      assert (Place : forall t k p q r p' q' r', face_place m t k p q r -> (forall y, In y [p; q; r] <-> In y [p'; q'; r']) -> face_place m t k p' q' r').
      { intros t1 k p q r p' q' r' (z & Ez & Kz & Hz) Hp. exists z. split; auto. split; auto. intros w. rewrite <- Hp. auto. }
      assert (P1' : face_place m t (Nat.land (ver f) 3) c0 c1 c2) by (eapply Place; eauto).
      assert (P2' : face_place m u (Nat.land (ver nf) 3) c0 c1 c2).
      { eapply Place; [exact P2|]. intros w. rewrite <- Perm. cbn. tauto. }
      assert (Lt : t < length (tets m)) by (apply nth_error_Some; congruence).
      assert (K1 : Nat.land (ver f) 3 < 4) by (destruct P1 as (? & _ & ? & _); auto).
      assert (K2 : Nat.land (ver nf) 3 < 4) by (destruct P2 as (? & _ & ? & _); auto).
      destruct (adds_push m mark (Nat.land (ver f) 3) t cid S) as (mark1 & E1 & S1 & A1); [lia|auto|]. rewrite E1.
      rewrite Tf in En. rewrite En, Tn.
      destruct (adds_push m mark1 (Nat.land (ver nf) 3) u cid S1) as (mark2 & E2 & S2 & A2); [lia|auto|]. rewrite E2.
      assert (Ntu : t <> u) by congruence.
      eexists; split; [reflexivity|]. split; auto. eexists; split; [|eapply adds_app; [|exact A1|exact A2]].
      + left. exists t, u, (Nat.land (ver f) 3), (Nat.land (ver nf) 3). split; auto. split; [|split; auto; split; auto; intros; cbn; tauto].
        exists x, nf. split; auto. split; auto. unfold nei_at, tet_at in En. rewrite Ex in En. eapply nth_error_In; eauto.
      + cbn. intros k' t' (-> & _) (E & _). auto.
    - destruct (sides_ok g m L C GL PL HC FG c0 c1 c2 (no_info m) fuel ND H0 H1 H2 (no_info_ok m)) as (o & Eo & Ho). rewrite Eo.
      destruct o as [i| |]; [|eexists; split; [reflexivity|exact Ho]..].
      destruct Ho as ((NDi & Lv & V) & l1 & l2 & l3 & W1 & W2 & W3 & Al).
      assert (Al' : forall u, In u (intersected i) <-> along m (l1 ++ l2 ++ l3) u) by (intros u; rewrite Al; cbn; tauto).
      assert (Re : forall t, In t (intersected i) -> real m t).
      { intros t Ht. apply Al' in Ht. destruct Ht as (t1 & s1 & Hin & A).
        apply in_app_or in Hin. destruct Hin as [Hin|Hin]; [apply (whole_real c0 c1 l1); auto; exists t1, s1; auto|].
        apply in_app_or in Hin. destruct Hin as [Hin|Hin]; [apply (whole_real c1 c2 l2); auto; exists t1, s1; auto|apply (whole_real c2 c0 l3); auto; exists t1, s1; auto]. }
      assert (Hc : c0 < n_points m /\ c1 < n_points m /\ c2 < n_points m) by auto.
      destruct (set_improper_ok g m c0 c1 c2 L GL Hc Few cid (intersected i) mark NDi Re S) as (mark1 & E1 & S1 & A1). rewrite E1.
      destruct (flood_ok g m c0 c1 c2 L GL Hc cid (along m (l1 ++ l2 ++ l3)) (Datatypes.S (length (tets m))) mark1 i 0) as (mark2 & i2 & new & E2 & S2 & I2 & Ei & A2 & N2 & F2 & C2); auto; try lia.
      { split; auto. split; auto. split; [intros t Ht; split; auto; now apply V|]. intros t Ht. left. now apply V. }
      { intros t Ht. apply flood_start. now apply Al'. }
      unfold interior_intersections. rewrite E2. eexists; split; [reflexivity|]. split; auto.
      destruct I2 as (ND2 & _ & IR2 & SR2). rewrite Ei in ND2.
      assert (Dis : forall t, In t (intersected i) -> In t new -> False).
      { intros t A B. apply In_nth_error in A, B. destruct A as (j1 & J1), B as (j2 & J2). assert (j1 < length (intersected i)) by (apply nth_error_Some; congruence).
        assert (Q : j1 = length (intersected i) + j2); [|lia].
        eapply nth_error_NoDup; [exact ND2|rewrite nth_error_app1 by auto; exact J1|rewrite nth_error_app2 by lia]. now replace (_ + j2 - _) with j2 by lia. }
      eexists; split; [|eapply adds_app; [|exact A1|exact A2]].
      + right. exists l1, l2, l3. split; auto. split; auto. split; auto. cbn zeta. intros k t. cbn beta.
        assert (Ty : forall t k, t < length (tets m) -> (tet_type g m (c0, c1, c2) t = Some k /\ k < 5) <-> interior_row g m (c0, c1, c2) t k)
          by (intros; apply tet_type_iff; auto).
        assert (Lr : forall t k, interior_row g m (c0, c1, c2) t k -> t < length (tets m)) by (intros t' k' (R & _); exact (real_lt m t' R)).
        assert (Ac : forall t, accepts g m c0 c1 c2 t -> t < length (tets m) -> exists k, interior_row g m (c0, c1, c2) t k).
        { intros t' (k' & Kk & Ek) Lt. exists k'. apply Ty; auto. }
        assert (Cl : forall t, flooded m (fun t => exists k, interior_row g m (c0, c1, c2) t k) (along m (l1 ++ l2 ++ l3)) t -> In t (intersected i2)).
        { intros t1 Ht. induction Ht as [t1 St|t1 u Ht IH Nb (k' & Hk')]; [rewrite Ei; apply in_or_app; left; now apply Al'|].
          destruct (SR2 u (C2 t1 u IH Nb)) as [|T]; auto. apply Ty in Hk'; [|eapply Lr; eauto]. destruct Hk' as (Ek & Kk). rewrite T in Ek. inversion Ek; subst; lia. }
        assert (Fl2 : forall t, flooded m (accepts g m c0 c1 c2) (along m (l1 ++ l2 ++ l3)) t ->
          flooded m (fun t => exists k, interior_row g m (c0, c1, c2) t k) (along m (l1 ++ l2 ++ l3)) t).
        { intros t1 Ht. induction Ht as [t1 St|t1 u Ht IH Nb Hu]; [now apply flood_start|]. eapply flood_next; eauto. apply Ac; auto.
          destruct Nb as (y & f' & Ey & Hf' & Ef'). apply In_nth_error in Hf'. destruct Hf' as (q & Eq). destruct (L _ _ Ey) as (_ & _ & _ & _ & _ & Hn).
          destruct (Hn q f' Eq) as (u' & y' & Eu' & Ey' & _). rewrite Ef' in Eu'. inversion Eu'; subst u'. apply nth_error_Some. congruence. }
        split.
        * intros [(H & E)|(H & E)]; [left; split; auto; now apply Al'|]. right. split; [intros St; apply Al' in St; eauto|].
          assert (Hi2 : In t (intersected i2)) by (rewrite Ei; apply in_or_app; auto).
          split; [apply Fl2, F2; auto|]. apply Ty; [apply (real_lt m); apply IR2; auto|]. split; auto.
          destruct (N2 t H) as (k' & Kk & Ek). rewrite E in Ek. inversion Ek; subst; auto.
        * intros [(St & E)|(Ns & Fl & E)]; [left; split; auto; now apply Al'|]. right. split.
          -- apply Cl in Fl. rewrite Ei in Fl. apply in_app_or in Fl. destruct Fl as [Fl|Fl]; auto. exfalso. apply Ns. now apply Al'.
          -- apply Ty in E; [apply E|eapply Lr; eauto].
      + cbn. intros k t (A & _) (B & _). eauto.
  Qed.

  Lemma insert_from_ok fuel l : forall cid mark, (forall c, In c l -> proper m c) -> shaped m mark -> exists o, insert_from g m cid l mark fuel = Some (m, o) /\
    match o with
    | Done mark' => shaped m mark' /\ exists Ps, Forall2 (places g m) l Ps /\
        forall k t lm, mark_at mark k t = Some lm -> exists new, mark_at mark' k t = Some (lm ++ new) /\ increasing new /\
          forall j, In j new <-> exists i P, j = cid + i /\ nth_error Ps i = Some P /\ P k t
    | Lost => exists c va vb, In c l /\ In (va, vb) (sides c) /\ lost g m va vb
    | Out => exists c va vb, In c l /\ In (va, vb) (sides c) /\ longer g m va vb fuel
    end.
  Proof using L C GL PL HC FG Few.
    induction l as [|c l IH]; intros cid mark Pr S; cbn [insert_from].
    - eexists; split; [reflexivity|]. split; auto. exists []. split; auto. intros k t lm E. exists []. rewrite app_nil_r. split; auto. split; [exact Logic.I|].
      intros j. split; [intros []|]. intros (i & P & _ & E' & _). destruct i; discriminate.
    - destruct (insert_one_ok cid c mark fuel) as (o & Eo & Ho); auto; [apply Pr; now left|]. rewrite Eo.
      destruct o as [mark1| |]; [|eexists; split; [reflexivity|]..].
      2, 3: solve [destruct Ho as (va & vb & Hs & Lo); exists c, va, vb; split; [now left|auto]].
      destruct Ho as (S1 & P & HP & A).
      destruct (IH (Datatypes.S cid) mark1) as (o & Eo' & Ho); auto; [intros; apply Pr; now right|]. rewrite Eo'. exists o. split; auto.
      destruct o as [mark2| |]; auto; [|destruct Ho as (c' & va & vb & Hc & Ho); exists c', va, vb; split; [now right|exact Ho]..].
      destruct Ho as (S2 & Ps & HPs & Hm). split; auto. exists (P :: Ps). split; [now constructor|].
      intros k t lm E. destruct (A k t lm E) as [(Hp & E1)|(Hp & E1)]; destruct (Hm k t _ E1) as (new & E2 & Inc & Hnew).
      + exists (cid :: new). rewrite <- app_assoc in E2. split; auto. split.
        * split; auto. intros y Hy. apply Hnew in Hy. destruct Hy as (i & Q & -> & _). lia.
        * intros j. cbn [In]. rewrite Hnew. split.
          -- intros [<-|(i & Q & -> & Ei & Hq)]; [exists 0, P; rewrite Nat.add_0_r; auto|exists (Datatypes.S i), Q; split; [lia|auto]].
          -- intros (i & Q & -> & Ei & Hq). destruct i as [|i]; [left; lia|]. right. exists i, Q. split; [lia|auto].
      + exists new. split; auto. split; auto. intros j. rewrite Hnew. split.
        * intros (i & Q & -> & Ei & Hq). exists (Datatypes.S i), Q. split; [lia|auto].
        * intros (i & Q & -> & Ei & Hq). destruct i as [|i]; [cbn in Ei; inversion Ei; subst; contradiction|]. exists i, Q. split; [lia|auto].
  Qed.
End Run.
Lemma shaped_new m : shaped m (repeat (repeat [] (length (tets m))) 5).
Proof. split; [apply repeat_length|]. intros row H. apply repeat_spec in H. subst. apply repeat_length. Qed.
Lemma new_empty m k t l : mark_at (repeat (repeat [] (length (tets m))) 5) k t = Some l -> l = [].
Proof.
  unfold mark_at. destruct (nth_error _ k) as [row|] eqn:E; [|discriminate]. apply nth_error_In, repeat_spec in E. subst.
  intros H. apply nth_error_In, repeat_spec in H. auto.
Qed.
