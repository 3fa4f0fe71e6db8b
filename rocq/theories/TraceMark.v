(** Facts about the marks of a constraint. *)
From Coq Require Import List Arith Bool ZArith Permutation Lia.
From Verif Require Import Lib Geo Tet TetSpec TetProofs TetFace TetFaceProofs Bsp BspSpec Trace TraceSpec TraceWalk.
Import ListNotations.
Local Open Scope opt_scope.

(** * Writing marks *)
Definition shaped (m : tetmesh) (mark : list (list (list nat))) : Prop :=
  length mark = 5 /\ forall row, In row mark -> length row = length (tets m).
Lemma shaped_at m mark k t : shaped m mark -> k < 5 -> t < length (tets m) -> exists l, mark_at mark k t = Some l.
Proof.
  intros (L5 & Lr) K T. unfold mark_at. destruct (nth_error_ex mark k) as (row & E); [lia|]. rewrite E.
  apply nth_error_ex. rewrite (Lr row); auto. eapply nth_error_In; eauto.
Qed.
Lemma push_mark_ok m mark k t cid : shaped m mark -> k < 5 -> t < length (tets m) ->
  exists mark', push_mark mark k t cid = Some mark' /\ shaped m mark' /\
    forall k' t' l, mark_at mark k' t' = Some l -> mark_at mark' k' t' = Some (if (k' =? k) && (t' =? t) then l ++ [cid] else l).
Proof.
  intros (L5 & Lr) K T. unfold push_mark. destruct (nth_error_ex mark k) as (row & E); [lia|]. rewrite E.
  assert (Er : length row = length (tets m)) by (apply Lr; eapply nth_error_In; eauto).
  destruct (nth_error_ex row t) as (l & El); [lia|]. rewrite El, set_ok by lia. rewrite set_ok by lia.
  eexists; split; [reflexivity|]. split.
  - split; [now rewrite upd_length|]. intros r Hr. apply In_nth_error in Hr. destruct Hr as (i & Ei).
    destruct (Nat.eq_dec k i) as [<-|N].
    + rewrite nth_error_upd_eq in Ei by lia. inversion Ei. now rewrite upd_length.
    + rewrite nth_error_upd_neq in Ei by auto. apply Lr. eapply nth_error_In; eauto.
  - intros k' t' l' H. unfold mark_at in *. destruct (Nat.eqb_spec k' k) as [->|Nk]; cbn [andb].
    + rewrite nth_error_upd_eq by lia. rewrite E in H. destruct (Nat.eqb_spec t' t) as [->|Nt].
      * rewrite nth_error_upd_eq by lia. congruence.
      * rewrite nth_error_upd_neq by auto. exact H.
    + rewrite nth_error_upd_neq by auto. exact H.
Qed.

(** * The questions all have answers *)
Lemma anyp_some {A} (f : A -> option bool) l : (forall x, In x l -> exists b, f x = Some b) -> exists b, anyp f l = Some b.
Proof. intros H. unfold anyp. destruct (findp_ok f l H) as (r & E & _). rewrite E. eauto. Qed.
Lemma anyp_true {A} (f : A -> option bool) l : anyp f l = Some true -> exists x, In x l /\ f x = Some true.
Proof.
  unfold anyp. intros H. destruct (findp f l) as [[x|]|] eqn:E; try discriminate. exists x. clear H.
  induction l as [|y l IH]; cbn in E; [discriminate|]. destruct (f y) as [[]|] eqn:Ey; try discriminate.
  - inversion E; subst. split; auto. now left.
  - destruct (IH E). split; auto. now right.
Qed.
Lemma orp_some x y : (exists b, x = Some b) -> (exists b, y = Some b) -> exists b, orp x y = Some b.
Proof. intros ([] & ->) (b & ->); cbn; eauto. Qed.
Lemma andp_some x y : (exists b, x = Some b) -> (exists b, y = Some b) -> exists b, andp x y = Some b.
Proof. intros ([] & ->) (b & ->); cbn; eauto. Qed.
Lemma orp_true x y : orp x y = Some true -> x = Some true \/ y = Some true.
Proof. destruct x as [[]|]; cbn; auto; discriminate. Qed.
Lemma andp_true x y : andp x y = Some true -> x = Some true /\ y = Some true.
Proof. destruct x as [[]|]; cbn; auto; discriminate. Qed.

Lemma segs_true g m u1 u2 v1 v2 : segs g m u1 u2 v1 v2 = Some true -> g_segs g u1 u2 v1 v2 = true.
Proof. unfold segs, on_points. destruct (_ || _); [discriminate|]. destruct (forallb _ _); [congruence|discriminate]. Qed.

Section Mark.
  Variables (g : geom) (m : tetmesh) (c0 c1 c2 : nat).
  Let c : tri3 := (c0, c1, c2).
  Hypothesis L : linked m.
  Hypothesis GL : ghost_last m.
  Hypothesis Hc : c0 < n_points m /\ c1 < n_points m /\ c2 < n_points m.
  Hypothesis Few : n_points m <= length (tets m).

  Notation pt v := (v < n_points m).
  Lemma q_seg_tri u1 u2 v1 v2 v3 : pt u1 -> pt u2 -> pt v1 -> pt v2 -> pt v3 -> exists b, seg_tri g m u1 u2 v1 v2 v3 = Some b.
  Proof using. clear Hc Few. intros. unfold seg_tri. destruct (_ || _); eauto. rewrite on_points_some; eauto. cbn [In]. intuition congruence. Qed.
  Lemma q_segs u1 u2 v1 v2 : pt u1 -> pt u2 -> pt v1 -> pt v2 -> exists b, segs g m u1 u2 v1 v2 = Some b.
  Proof using. clear Hc Few. intros. unfold segs. destruct (_ || _); eauto. rewrite on_points_some; eauto. cbn [In]. intuition congruence. Qed.
  Lemma q_plain u1 u2 v1 v2 : pt u1 -> pt u2 -> pt v1 -> pt v2 -> exists b, segs_plain g m u1 u2 v1 v2 = Some b.
  Proof using. clear Hc Few. intros. unfold segs_plain. rewrite on_points_some; eauto. cbn [In]. intuition congruence. Qed.
  Lemma q_in_seg u v1 v2 : pt u -> pt v1 -> pt v2 -> exists b, in_seg g m u v1 v2 = Some b.
  Proof using. clear Hc Few. intros. unfold in_seg. destruct (inb _ _); eauto. rewrite on_points_some; eauto. cbn [In]. intuition congruence. Qed.
  Lemma q_ctri u1 u2 : pt u1 -> pt u2 -> exists b, seg_ctri g m u1 u2 c = Some b.
  Proof using Hc. intros. unfold seg_ctri, c. destruct (_ || _); eauto. rewrite on_points_some; eauto. cbn [In]. intuition congruence. Qed.
  Lemma q_in_inner_tri p : pt p -> exists b, in_inner_tri g m p c = Some b.
  Proof using Hc. intros. unfold in_inner_tri, c. destruct (inb _ _); eauto. rewrite on_points_some; eauto. cbn [In]. intuition congruence. Qed.
  Lemma q_in_tri p : pt p -> exists b, in_tri g m p c = Some b.
  Proof using Hc. intros. unfold in_tri, c. destruct (inb _ _); eauto. rewrite on_points_some; eauto. cbn [In]. intuition congruence. Qed.
  Lemma side_pts s : In s (pairs (corner_list c)) -> pt (fst s) /\ pt (snd s).
  Proof using Hc. cbn. intuition; subst; cbn; auto. Qed.

  Lemma face_total t0 t1 t2 : pt t0 -> pt t1 -> pt t2 -> exists b, constraint_intersect_face g m c [t0; t1; t2] = Some b.
  Proof using Hc.
    intros. unfold constraint_intersect_face. cbn [nth_error]. apply orp_some; [repeat apply andp_some; apply q_in_tri; auto|].
    apply anyp_some. intros e He. apply anyp_some. intros s Hs. apply side_pts in Hs. destruct Hs.
    cbn in He. destruct He as [<-|[<-|[<-|[]]]]; apply q_segs; auto.
  Qed.
  Lemma on_sides_total v : pt v -> exists r, on_sides g m c v = Some r.
  Proof using Hc.
    intros. unfold on_sides, c. destruct Hc as (? & ? & ?).
    destruct (q_in_seg v c1 c2) as (? & ->); auto. destruct (q_in_seg v c2 c0) as (? & ->); auto. destruct (q_in_seg v c0 c1) as (? & ->); eauto.
  Qed.
  Lemma edge_total v w n p : pt v -> pt w -> pt n -> pt p -> exists b, constraint_intersect_edge g m c v w n p = Some b.
  Proof using Hc.
    intros. unfold constraint_intersect_edge, c. fold c.
    destruct (q_in_inner_tri v) as (vi & ->); auto. destruct (q_in_inner_tri w) as (wi & ->); auto. destruct (vi && wi); eauto.
    destruct (on_sides_total v) as (vs & ->); auto. destruct (on_sides_total w) as (ws & ->); auto.
    destruct (q_ctri n p) as (ct & Ec); auto. rewrite Ec. pose proof Hc as (? & ? & ?).
    destruct ((vi || any3 vs) && (wi || any3 ws)).
    - destruct vs as ((v0 & v1) & v2), ws as ((w0 & w1) & w2). destruct (negb _); eauto. destruct ct; eauto.
      destruct (v0 && w0); [|destruct (v1 && w1)]; apply anyp_some; intros ev Hev; apply anyp_some; intros tv Htv;
        cbn in Hev, Htv; apply q_seg_tri; intuition (subst; auto).
    - destruct (_ || _); eauto. apply orp_some; [|apply orp_some; [eauto|]].
      + apply anyp_some. intros s Hs. apply side_pts in Hs. apply q_segs; tauto.
      + apply anyp_some. intros s Hs. apply side_pts in Hs. apply anyp_some. intros tv Htv. cbn in Htv. apply q_seg_tri; intuition (subst; auto).
  Qed.
  Lemma vertex_total tv o u0 u1 : pt tv -> pt o -> pt u0 -> pt u1 -> exists b, constraint_intersect_vertex g m c tv o u0 u1 = Some b.
  Proof using Hc.
    intros. unfold constraint_intersect_vertex. destruct (q_in_inner_tri tv) as (vi & ->); auto. destruct vi; eauto.
    destruct (anyp_some (fun s => in_seg g m tv (fst s) (snd s)) (pairs (corner_list c))) as (b & ->).
    { intros s Hs. apply side_pts in Hs. apply q_in_seg; tauto. }
    destruct (negb b); eauto. apply orp_some; [apply andp_some; apply q_ctri; auto|].
    apply anyp_some. intros s Hs. apply side_pts in Hs. repeat apply orp_some; apply q_seg_tri; tauto.
  Qed.
  Lemma empty_total d0 d1 d2 d3 neg pos : pt d0 -> pt d1 -> pt d2 -> pt d3 -> (forall v, In v neg -> pt v) -> (forall v, In v pos -> pt v) ->
    exists b, constraint_intersect_empty g m c [d0; d1; d2; d3] neg pos = Some b.
  Proof using Hc.
    intros ? ? ? ? Hn Hp. unfold constraint_intersect_empty, c. fold c. pose proof Hc as (? & ? & ?).
    match goal with |- exists b, match anyp ?f ?l with _ => _ end = _ => destruct (anyp_some f l) as (bad & ->) end.
    { intros nv Hnv. apply anyp_some. intros pv Hpv.
      destruct (anyp_some (fun s => segs_plain g m nv pv (fst s) (snd s)) (pairs (corner_list c))) as (b & ->); eauto.
      intros s Hs. apply side_pts in Hs. apply q_plain; auto; tauto. }
    destruct (negb bad); eauto. apply orp_some.
    - apply anyp_some. intros nv Hnv. apply anyp_some. intros pv Hpv. apply q_seg_tri; auto.
    - apply anyp_some. intros s Hs. apply side_pts in Hs. apply anyp_some. intros f Hf. cbn in Hf.
      destruct Hf as [<-|[<-|[<-|[<-|[]]]]]; apply q_seg_tri; tauto.
  Qed.

  Lemma real_data t : real m t -> exists d0 d1 d2 d3 x, nth_error (tets m) t = Some x /\ data x = [d0; d1; d2; d3] /\
    pt d0 /\ pt d1 /\ pt d2 /\ pt d3 /\ NoDup [d0; d1; d2; d3].
  Proof using L GL.
    clear Hc Few. intros R. pose proof R as (x & Ex & _). destruct (L _ _ Ex) as (Ld & _ & ND & _).
    assert (RV : forall y, In y (data x) -> y < n_points m) by (intros; eapply real_vertex; eauto).
    destruct (data x) as [|d0 [|d1 [|d2 [|d3 [|? ?]]]]] eqn:D; cbn in Ld; try lia.
    exists d0, d1, d2, d3, x. split; auto. split; auto. repeat split; auto; apply RV; cbn; auto.
  Qed.
  Lemma vert_ori_some v : pt v -> vert_ori g m c v = Some (plane_side g c v).
  Proof using Hc Few.
    intros. unfold vert_ori, c, ori. rewrite (proj2 (Nat.ltb_lt _ _)) by lia. rewrite on_points_some; auto. cbn [In]. intuition congruence.
  Qed.

  (** What [improper] answers for a real tetrahedron. *)
  Lemma improper_total t : real m t -> exists r, improper g m c t = Some r /\
    match r with
    | Some k =>
      exists x, nth_error (tets m) t = Some x /\
      ((k < 4 /\ (forall j v, nth_error (data x) j = Some v -> (plane_side g c v = 0%Z <-> j <> k)) /\
        ((forall v, In v (data x) -> plane_side g c v = 0%Z -> in_closed g c v) \/
         exists u v a b, u <> v /\ In u (data x) /\ In v (data x) /\ plane_side g c u = 0%Z /\ plane_side g c v = 0%Z /\
           In (a, b) (sides c) /\ g_segs g u v a b = true)) \/
       (k = 4 /\ ((exists u v, In u (data x) /\ In v (data x) /\ (plane_side g c u < 0 < plane_side g c v)%Z) \/
                  (forall u v, In u (data x) -> In v (data x) -> plane_side g c u = plane_side g c v))))
    | None => True
    end.
  Proof using L GL Hc Few.
    intros R. destruct (real_data t R) as (d0 & d1 & d2 & d3 & x & Ex & D & P0 & P1 & P2 & P3 & ND).
    assert (PT : forall v, In v (data x) -> pt v) by (rewrite D; intros v [<-|[<-|[<-|[<-|[]]]]]; auto).
    assert (Ld : length (data x) = 4) by now rewrite D.
    assert (Three : forall z0 z1 z2 k, pt z0 -> pt z1 -> pt z2 -> k < 4 ->
      (forall v, In v [z0; z1; z2] <-> In v (data x) /\ plane_side g c v = 0%Z) -> NoDup [z0; z1; z2] ->
      (forall j v, nth_error (data x) j = Some v -> (plane_side g c v = 0%Z <-> j <> k)) ->
      exists r, (b <- constraint_intersect_face g m c [z0; z1; z2] ;; Some (if b then Some k else None)) = Some r /\
      match r with
      | Some k' => k' = k /\ ((forall v, In v (data x) -> plane_side g c v = 0%Z -> in_closed g c v) \/
         exists u v a b, u <> v /\ In u (data x) /\ In v (data x) /\ plane_side g c u = 0%Z /\ plane_side g c v = 0%Z /\
           In (a, b) (sides c) /\ g_segs g u v a b = true)
      | None => True end).
    { intros z0 z1 z2 k Z0 Z1 Z2 K HZ NZ HK. destruct (face_total z0 z1 z2 Z0 Z1 Z2) as (b & Eb). rewrite Eb. eexists; split; [reflexivity|].
      destruct b; auto. split; auto. unfold constraint_intersect_face in Eb. cbn [nth_error] in Eb. apply orp_true in Eb. destruct Eb as [Eb|Eb].
      - left. apply andp_true in Eb. destruct Eb as (A0 & Eb). apply andp_true in Eb. destruct Eb as (A1 & A2).
        assert (T : forall v, pt v -> in_tri g m v c = Some true -> in_closed g c v).
        { intros v Pv. unfold in_tri, c, in_closed. destruct (inb v [c0; c1; c2]) eqn:Ei.
          - intros _. left. unfold inb in Ei. apply existsb_exists in Ei. destruct Ei as (y & Hy & Ey). apply Nat.eqb_eq in Ey. now subst.
          - rewrite on_points_some by (cbn [In]; intuition congruence). intros E. right. congruence. }
        intros v Hv Zv. assert (In v [z0; z1; z2]) by (apply HZ; auto). destruct H as [<-|[<-|[<-|[]]]]; auto.
      - right. apply anyp_true in Eb. destruct Eb as (e & He & Eb). apply anyp_true in Eb. destruct Eb as ((a, b) & Hs & Eb). cbn [fst snd] in Eb.
        assert (E2 : pt (fst e) /\ pt (snd e) /\ In (fst e) [z0; z1; z2] /\ In (snd e) [z0; z1; z2] /\ fst e <> snd e).
        { cbn in He. repeat match goal with H : NoDup (_ :: _) |- _ => inversion H; clear H; subst end. cbn [In] in *.
          destruct He as [<-|[<-|[<-|[]]]]; cbn; repeat split; auto; intuition congruence. }
        destruct E2 as (Q1 & Q2 & Q3 & Q4 & Q5). apply HZ in Q3, Q4. pose proof (side_pts _ Hs) as (S1 & S2). cbn [fst snd] in S1, S2.
        apply segs_true in Eb.
        exists (fst e), (snd e), a, b. repeat split; auto; tauto. }
    unfold improper, tet_at. rewrite Ex.
    assert (EO : omap (fun v => o <- vert_ori g m c v ;; Some (v, o)) (data x) = Some (map (fun v => (v, plane_side g c v)) (data x))).
    { clear -PT Hc Few. induction (data x) as [|v l IH]; cbn [omap map]; auto. rewrite vert_ori_some by (apply PT; now left).
      rewrite IH; auto. intros; apply PT; now right. }
    rewrite EO.
    assert (Sel : forall f, map fst (filter (fun vo => f (snd vo)) (map (fun v => (v, plane_side g c v)) (data x))) = filter (fun v => f (plane_side g c v)) (data x)).
    { intros f. clear. induction (data x) as [|v l IH]; cbn [map filter snd]; auto. destruct (f (plane_side g c v)); cbn [map fst]; now rewrite IH. }
    rewrite (Sel (fun o => Z.eqb o 0)), (Sel (fun o => Z.ltb 0 o)), (Sel (fun o => Z.ltb o 0)). clear Sel EO.
    set (zero := filter (fun v => Z.eqb (plane_side g c v) 0) (data x)).
    set (pos := filter (fun v => Z.ltb 0 (plane_side g c v)) (data x)).
    set (neg := filter (fun v => Z.ltb (plane_side g c v) 0) (data x)).
    assert (Hz : forall v, In v zero <-> In v (data x) /\ plane_side g c v = 0%Z) by (intros v; unfold zero; rewrite filter_In, Z.eqb_eq; tauto).
    assert (Hp : forall v, In v pos <-> In v (data x) /\ (0 < plane_side g c v)%Z) by (intros v; unfold pos; rewrite filter_In, Z.ltb_lt; tauto).
    assert (Hn : forall v, In v neg <-> In v (data x) /\ (plane_side g c v < 0)%Z) by (intros v; unfold neg; rewrite filter_In, Z.ltb_lt; tauto).
    assert (Len : length zero + length pos + length neg = 4).
    { rewrite <- Ld. unfold zero, pos, neg. clear. induction (data x) as [|v l IH]; cbn [filter length]; auto.
      destruct (Z.eqb_spec (plane_side g c v) 0), (Z.ltb_spec 0 (plane_side g c v)), (Z.ltb_spec (plane_side g c v) 0); cbn [length]; lia. }
    assert (NDx : NoDup (data x)) by (rewrite D; exact ND).
    assert (Nz : NoDup zero) by (apply NoDup_filter; auto).
    assert (Sg : forall v, plane_side g c v = (-1)%Z \/ plane_side g c v = 0%Z \/ plane_side g c v = 1%Z).
    { intros v. unfold plane_side, c. destruct (Z.sgn_spec (g_o3 g c0 c1 c2 v)) as [(? & ?)|[(? & ?)|(? & ?)]]; auto. }
    clearbody zero pos neg.
    assert (Both : forall (b : option bool) n p, In n neg -> In p pos -> (exists b', b = Some b') -> exists r, (b' <- b ;; Some (if b' then Some 4 else None)) = Some r /\
      match r with
      | Some k => exists x', Some x = Some x' /\ ((k < 4 /\ (forall j v, nth_error (data x') j = Some v -> (plane_side g c v = 0%Z <-> j <> k)) /\
        ((forall v, In v (data x') -> plane_side g c v = 0%Z -> in_closed g c v) \/
         exists u v a b, u <> v /\ In u (data x') /\ In v (data x') /\ plane_side g c u = 0%Z /\ plane_side g c v = 0%Z /\
           In (a, b) (sides c) /\ g_segs g u v a b = true)) \/
        (k = 4 /\ ((exists u v, In u (data x') /\ In v (data x') /\ (plane_side g c u < 0 < plane_side g c v)%Z) \/
                  (forall u v, In u (data x') -> In v (data x') -> plane_side g c u = plane_side g c v))))
      | None => True end).
    { intros b n p In1 In2 (b' & ->). eexists; split; [reflexivity|]. destruct b'; auto. exists x. split; auto. right. split; auto. left. exists n, p.
      apply Hn in In1. apply Hp in In2. intuition. }
    destruct zero as [|z0 [|z1 [|z2 [|z3 zr]]]].
    - (* no vertex in the plane *)
      rewrite D. destruct (empty_total d0 d1 d2 d3 neg pos) as (b & Eb); auto; try (intros v Hv; apply PT; first [apply Hn in Hv | apply Hp in Hv]; tauto).
      rewrite Eb. eexists; split; [reflexivity|]. destruct b; auto. exists x. split; auto. right. split; auto.
      destruct neg as [|n neg'], pos as [|p pos'].
      + cbn in Len. lia.
      + right. assert (A : forall v, In v (data x) -> plane_side g c v = 1%Z).
        { intros v Hv. destruct (Sg v) as [S|[S|S]]; auto; exfalso; [apply (Hn v)|apply (Hz v)]; split; auto; lia. }
        intros u v Hu Hv. rewrite !A; auto.
      + right. assert (A : forall v, In v (data x) -> plane_side g c v = (-1)%Z).
        { intros v Hv. destruct (Sg v) as [S|[S|S]]; auto; exfalso; [apply (Hz v)|apply (Hp v)]; split; auto; lia. }
        intros u v Hu Hv. rewrite !A; auto.
      + left. exists n, p. destruct (proj1 (Hn n) (or_introl eq_refl)), (proj1 (Hp p) (or_introl eq_refl)). intuition.
    - (* one *)
      destruct neg as [|n0 neg']; [eexists; split; [reflexivity|exact Logic.I]|]. destruct pos as [|p0 pos']; [eexists; split; [reflexivity|exact Logic.I]|].
      destruct (if length (p0 :: pos') <? length (n0 :: neg') then (n0 :: neg', p0) else (p0 :: pos', n0)) as (under, over) eqn:Eu.
      assert (Hu : exists u0 u1 ur, under = u0 :: u1 :: ur /\ pt u0 /\ pt u1 /\ pt over).
      { assert (A : forall v, In v (n0 :: neg') -> pt v) by (intros v Hv; apply PT; apply Hn in Hv; tauto).
        assert (B : forall v, In v (p0 :: pos') -> pt v) by (intros v Hv; apply PT; apply Hp in Hv; tauto).
        destruct (Nat.ltb_spec (length (p0 :: pos')) (length (n0 :: neg'))) as [Lt|Ge]; inversion Eu; subst; cbn [length] in *.
        - destruct neg' as [|n1 neg']; [cbn in Lt; lia|]. exists n0, n1, neg'. repeat split; auto; [apply A|apply A|apply B]; cbn; auto.
        - destruct pos' as [|p1 pos']; [cbn in *; lia|]. exists p0, p1, pos'. repeat split; auto; [apply B|apply B|apply A]; cbn; auto. }
      destruct Hu as (u0 & u1 & ur & -> & U0 & U1 & Uo). cbn [nth_error].
      apply (Both _ n0 p0); [now left|now left|]. apply vertex_total; auto. apply PT. apply (Hz z0). now left.
    - (* two *)
      destruct neg as [|n [|n1 neg']]; try (eexists; split; [reflexivity|exact Logic.I]).
      destruct pos as [|p pos']; [cbn in Len; lia|]. cbn [nth_error]. apply (Both _ n p); [now left|now left|].
      apply edge_total; apply PT; [apply (Hz z0)|apply (Hz z1)|apply (Hn n)|apply (Hp p)]; cbn; auto.
    - (* three *)
      assert (V : exists v, (match pos with [] => nth_error neg 0 | p :: _ => Some p end) = Some v /\ In v (data x) /\ plane_side g c v <> 0%Z /\
         forall w, In w (data x) -> plane_side g c w <> 0%Z -> w = v).
      { destruct pos as [|p [|p1 pr]], neg as [|n [|n1 nr]]; cbn [length] in Len; try lia.
        - exists n. cbn [nth_error]. destruct (proj1 (Hn n) (or_introl eq_refl)) as (A & B). split; auto. split; auto. split; [lia|].
          intros w Hw Zw. destruct (Sg w) as [S|[S|S]]; [|lia|].
          + assert (Hw' : In w [n]) by (apply Hn; split; auto; lia). destruct Hw' as [|[]]; auto.
          + assert (Hw' : In w []) by (apply Hp; split; auto; lia). destruct Hw'.
        - exists p. destruct (proj1 (Hp p) (or_introl eq_refl)) as (A & B). split; auto. split; auto. split; [lia|].
          intros w Hw Zw. destruct (Sg w) as [S|[S|S]]; [|lia|].
          + assert (Hw' : In w []) by (apply Hn; split; auto; lia). destruct Hw'.
          + assert (Hw' : In w [p]) by (apply Hp; split; auto; lia). destruct Hw' as [|[]]; auto. }
      destruct V as (v & Ev & Iv & Nv & Uv). rewrite Ev. destruct (index_of_some v _ Iv) as (k & Ek & Nk). rewrite Ek.
      assert (K : k < 4) by (rewrite <- Ld; apply nth_error_Some; congruence).
      assert (HK : forall j w, nth_error (data x) j = Some w -> (plane_side g c w = 0%Z <-> j <> k)).
      { intros j w Hj. split.
        - intros Zw ->. congruence.
        - intros Nj. destruct (Z.eq_dec (plane_side g c w) 0) as [|Zw]; auto. exfalso. apply Nj.
          rewrite (Uv w (nth_error_In _ _ Hj) Zw) in Hj. exact (nth_error_NoDup (data x) _ _ _ NDx Hj Nk). }
      destruct (Three z0 z1 z2 k) as (r & Er & Hr); auto; try (apply PT; first [apply (Hz z0) | apply (Hz z1) | apply (Hz z2)]; cbn; auto).
      rewrite Er. exists r. split; auto. destruct r as [k'|]; auto. destruct Hr as (-> & Hr). exists x. split; [reflexivity|]. left. auto.
    - (* all four *)
      rewrite D. destruct (empty_total d0 d1 d2 d3 neg pos) as (b & Eb); auto; try (intros v Hv; apply PT; first [apply Hn in Hv | apply Hp in Hv]; tauto).
      rewrite Eb. eexists; split; [reflexivity|]. destruct b; auto. exists x. split; auto. right. split; auto. right.
      destruct zr; cbn in Len; [|lia]. destruct pos; [|cbn in Len; lia]. destruct neg; [|cbn in Len; lia].
      assert (A : forall v, In v (data x) -> plane_side g c v = 0%Z).
      { intros v Hv. destruct (Sg v) as [S|[S|S]]; auto; exfalso; [apply (Hn v)|apply (Hp v)]; split; auto; lia. }
      intros u v Hu Hv. rewrite !A; auto.
  Qed.

  Lemma findp_none {A} (f : A -> option bool) l : (forall x, In x l -> exists b, f x = Some b) ->
    anyp f l = Some (existsb (fun x => match f x with Some true => true | _ => false end) l).
  Proof using.
    clear. unfold anyp. induction l as [|x l IH]; intros H; cbn [findp existsb]; auto.
    destruct (H x) as (b & E); [now left|]. rewrite E. destruct b; cbn [orb]; auto. apply IH. intros; apply H; now right.
  Qed.
  Lemma face_iff z0 z1 z2 : pt z0 -> pt z1 -> pt z2 -> exists b, constraint_intersect_face g m c [z0; z1; z2] = Some b /\
    (b = true <-> ((in_closed g c z0 /\ in_closed g c z1 /\ in_closed g c z2) \/
     exists u v a b, In (u, v) [(z0, z1); (z1, z2); (z2, z0)] /\ In (a, b) (sides c) /\
       u <> a /\ u <> b /\ v <> a /\ v <> b /\ g_segs g u v a b = true)).
  Proof using Hc.
    clear Few. intros Z0 Z1 Z2. unfold constraint_intersect_face. cbn [nth_error].
    assert (T : forall v, pt v -> exists b, in_tri g m v c = Some b /\ (b = true <-> in_closed g c v)).
    { intros v Pv. unfold in_tri, c, in_closed. destruct (inb v [c0; c1; c2]) eqn:Ei.
      - exists true. split; auto. split; auto. intros _. left. unfold inb in Ei. apply existsb_exists in Ei. destruct Ei as (y & Hy & Ey). apply Nat.eqb_eq in Ey. now subst.
      - rewrite on_points_some by (clear - Pv Hc; destruct Hc as (? & ? & ?); intros w [<-|[<-|[<-|[<-|[]]]]]; assumption).
        apply inb_false in Ei. eexists; split; [reflexivity|]. tauto. }
    destruct (T z0 Z0) as (t0 & E0 & H0). destruct (T z1 Z1) as (t1 & E1 & H1). destruct (T z2 Z2) as (t2 & E2 & H2). rewrite E0, E1, E2.
    set (f := fun e : nat * nat => anyp (fun s => segs g m (fst e) (snd e) (fst s) (snd s)) (pairs (corner_list c))).
    assert (Fe : forall u v, pt u -> pt v -> exists b, f (u, v) = Some b /\ (b = true <-> exists a b', In (a, b') (sides c) /\ u <> a /\ u <> b' /\ v <> a /\ v <> b' /\ g_segs g u v a b' = true)).
    { intros u v Pu Pv. unfold f. cbn [fst snd].
      assert (Sg : forall s, In s (pairs (corner_list c)) -> exists b, segs g m u v (fst s) (snd s) = Some b /\
         (b = true <-> u <> fst s /\ u <> snd s /\ v <> fst s /\ v <> snd s /\ g_segs g u v (fst s) (snd s) = true)).
      { intros (a, b') Hs. destruct (side_pts _ Hs) as (Pa & Pb). cbn [fst snd] in *. unfold segs.
        destruct (inb u [a; b'] || inb v [a; b']) eqn:Eo.
        - exists false. split; auto. split; [discriminate|]. intros (N1 & N2 & N3 & N4 & _). exfalso. apply orb_true_iff in Eo.
          unfold inb in Eo. cbn [existsb] in Eo. rewrite !orb_true_iff, !Nat.eqb_eq in Eo. intuition congruence.
        - rewrite on_points_some by (clear - Pu Pv Pa Pb; intros w [<-|[<-|[<-|[<-|[]]]]]; assumption).
          apply orb_false_iff in Eo. destruct Eo as (O1 & O2). apply inb_false in O1, O2. cbn [In] in O1, O2.
          eexists; split; [reflexivity|]. intuition congruence. }
      rewrite findp_none by (intros s Hs; destruct (Sg s Hs) as (b & E & _); eauto). eexists; split; [reflexivity|].
      rewrite existsb_exists. split.
      - intros ((a, b') & Hs & Hb). destruct (Sg _ Hs) as (b & E & Hb'). cbn [fst snd] in *. rewrite E in Hb. destruct b; [|discriminate]. exists a, b'. split; [exact Hs|]. tauto.
      - intros (a & b' & Hs & H). exists (a, b'). split; [exact Hs|]. destruct (Sg (a, b') Hs) as (b & E & Hb'). cbn [fst snd] in *. rewrite E. rewrite (proj2 Hb'); tauto. }
    rewrite findp_none by (intros e [<-|[<-|[<-|[]]]]; [destruct (Fe z0 z1) as (? & ? & _)|destruct (Fe z1 z2) as (? & ? & _)|destruct (Fe z2 z0) as (? & ? & _)]; eauto).
    exists ((t0 && (t1 && t2)) || existsb (fun x => match f x with Some true => true | _ => false end) [(z0, z1); (z1, z2); (z2, z0)]).
    split; [unfold orp, andp; destruct t0, t1, t2; reflexivity|].
    assert (Ex : existsb (fun x => match f x with Some true => true | _ => false end) [(z0, z1); (z1, z2); (z2, z0)] = true <->
       exists u v a b, In (u, v) [(z0, z1); (z1, z2); (z2, z0)] /\ In (a, b) (sides c) /\ u <> a /\ u <> b /\ v <> a /\ v <> b /\ g_segs g u v a b = true).
    { rewrite existsb_exists.
      assert (P : forall u v, In (u, v) [(z0, z1); (z1, z2); (z2, z0)] -> pt u /\ pt v)
        by (intros u v [E|[E|[E|[]]]]; inversion E; subst; auto).
      split.
      - intros ((u, v) & Hin & H). destruct (P u v Hin) as (Pu & Pv). destruct (Fe u v Pu Pv) as (b & E & Hb). rewrite E in H. destruct b; [|discriminate].
        destruct (proj1 Hb eq_refl) as (a & b' & H'). exists u, v, a, b'. auto.
      - intros (u & v & a & b' & Hin & H). exists (u, v). split; auto. destruct (P u v Hin) as (Pu & Pv). destruct (Fe u v Pu Pv) as (b & E & Hb). rewrite E.
        rewrite (proj2 Hb); auto. exists a, b'. auto. }
    rewrite <- Ex, <- H0, <- H1, <- H2, orb_true_iff, !andb_true_iff. tauto.
  Qed.
  Lemma filter_zeros (s : nat -> Z) l : (forall w, In w l -> s w = 0%Z) ->
    filter (fun v => Z.eqb (s v) 0) l = l /\ filter (fun v => Z.ltb 0 (s v)) l = [] /\ filter (fun v => Z.ltb (s v) 0) l = [].
  Proof using.
    induction l as [|a l IH]; intros H; cbn [filter]; auto. rewrite (H a (or_introl eq_refl)). cbn.
    destruct IH as (-> & -> & ->); [intros; apply H; now right|auto].
  Qed.
  (** One value of a list is not 0. *)
  Lemma filter_one (s : nat -> Z) l : forall k v, nth_error l k = Some v -> (forall j w, nth_error l j = Some w -> (s w = 0%Z <-> j <> k)) ->
    s v <> 0%Z /\ filter (fun v => Z.eqb (s v) 0) l = firstn k l ++ skipn (S k) l /\
    filter (fun v => Z.ltb 0 (s v)) l = (if Z.ltb 0 (s v) then [v] else []) /\ filter (fun v => Z.ltb (s v) 0) l = (if Z.ltb (s v) 0 then [v] else []).
  Proof using.
    clear Hc Few. induction l as [|a l IH]; intros k v Hv H; [destruct k; discriminate|]. destruct k as [|k]; cbn [nth_error] in Hv.
    - injection Hv as ->. assert (Nv : s v <> 0%Z) by (intros Q; apply (H 0 v eq_refl) in Q; congruence). split; [exact Nv|].
      destruct (filter_zeros s l) as (E1 & E2 & E3).
      { intros w Hw. apply In_nth_error in Hw. destruct Hw as (j & Hj). apply (H (S j) w Hj). discriminate. }
      cbn [filter]. rewrite E1, E2, E3. rewrite (proj2 (Z.eqb_neq _ _) Nv). cbn [firstn skipn app]. destruct (Z.ltb 0 (s v)), (Z.ltb (s v) 0); auto.
    - destruct (IH k v Hv) as (Nv & E1 & E2 & E3).
      { intros j w Hj. rewrite (H (S j) w Hj). split; intros Q R; apply Q; lia. }
      split; [exact Nv|]. cbn [filter]. rewrite E1, E2, E3. rewrite (proj2 (H 0 a eq_refl)) by discriminate. cbn. auto.
  Qed.
  Lemma index_at v l k : NoDup l -> nth_error l k = Some v -> index_of v l = Some k.
  Proof using.
    intros ND Hv. destruct (index_of_some v l (nth_error_In _ _ Hv)) as (k' & E & N). rewrite E. f_equal. exact (nth_error_NoDup l _ _ _ ND N Hv).
  Qed.
  Lemma improper_three t x k v z0 z1 z2 : nth_error (tets m) t = Some x -> (forall w, In w (data x) -> pt w) -> NoDup (data x) -> nth_error (data x) k = Some v ->
    (forall j v, nth_error (data x) j = Some v -> (plane_side g c v = 0%Z <-> j <> k)) -> firstn k (data x) ++ skipn (S k) (data x) = [z0; z1; z2] ->
    improper g m c t = (b <- constraint_intersect_face g m c [z0; z1; z2] ;; Some (if b then Some k else None)).
  Proof using Hc Few.
    intros Ex PT ND Hv HK Ez. unfold improper, tet_at. rewrite Ex.
    assert (EO : omap (fun v => o <- vert_ori g m c v ;; Some (v, o)) (data x) = Some (map (fun v => (v, plane_side g c v)) (data x))).
    { clear -PT Hc Few. induction (data x) as [|v l IH]; cbn [omap map]; auto. rewrite vert_ori_some by (apply PT; now left).
      rewrite IH; auto. intros; apply PT; now right. }
    rewrite EO.
    assert (Sel : forall f, map fst (filter (fun vo => f (snd vo)) (map (fun v => (v, plane_side g c v)) (data x))) = filter (fun v => f (plane_side g c v)) (data x)).
    { intros f. clear. induction (data x) as [|v l IH]; cbn [map filter snd]; auto. destruct (f (plane_side g c v)); cbn [map fst]; now rewrite IH. }
    rewrite (Sel (fun o => Z.eqb o 0)), (Sel (fun o => Z.ltb 0 o)), (Sel (fun o => Z.ltb o 0)). clear Sel EO.
    destruct (filter_one (plane_side g c) (data x) k v Hv HK) as (Nv & E1 & E2 & E3). rewrite E1, E2, E3, Ez.
    assert (V : (match (if Z.ltb 0 (plane_side g c v) then [v] else []) with [] => nth_error (if Z.ltb (plane_side g c v) 0 then [v] else []) 0 | p :: _ => Some p end) = Some v).
    { destruct (Z.ltb_spec 0 (plane_side g c v)); [reflexivity|]. destruct (Z.ltb_spec (plane_side g c v) 0); [reflexivity|lia]. }
    rewrite V, (index_at v (data x) k ND Hv). reflexivity.
  Qed.
  Lemma improper_face_iff t k : real m t -> (improper g m c t = Some (Some k) /\ k < 4) <-> face_row g m c t k.
  Proof using L GL Hc Few.
    intros R. destruct (real_data t R) as (d0 & d1 & d2 & d3 & x & Ex & D & P0 & P1 & P2 & P3 & ND).
    assert (NDx : NoDup (data x)) by (rewrite D; exact ND).
    assert (PT : forall v, In v (data x) -> pt v) by (rewrite D; intros v [<-|[<-|[<-|[<-|[]]]]]; auto).
    assert (Main : k < 4 -> (forall j v, nth_error (data x) j = Some v -> (plane_side g c v = 0%Z <-> j <> k)) ->
      forall z0 z1 z2, firstn k (data x) ++ skipn (S k) (data x) = [z0; z1; z2] ->
      improper g m c t = (b <- constraint_intersect_face g m c [z0; z1; z2] ;; Some (if b then Some k else None)) /\ pt z0 /\ pt z1 /\ pt z2).
    { intros K HK z0 z1 z2 Ez. split.
      - destruct (nth_error (data x) k) as [v|] eqn:Hv; [|apply nth_error_None in Hv; rewrite D in Hv; cbn in Hv; lia]. apply (improper_three t x k v); auto.
      - assert (In' : forall w, In w [z0; z1; z2] -> In w (data x)).
        { intros w Hw. rewrite <- Ez, in_app_iff in Hw. rewrite <- (firstn_skipn k (data x)), in_app_iff. destruct Hw as [Hw|Hw]; [auto|right].
          revert Hw. generalize (data x). clear. intros l. revert l. induction k as [|k' IH]; intros [|a l]; cbn; auto. }
        repeat split; apply PT, In'; cbn; auto. }
    unfold face_row. split.
    - intros (E & K). destruct (improper_total t R) as (r & Er & Hr). rewrite E in Er. inversion Er; subst r. destruct Hr as (x' & Ex' & [(_ & HK & _)|(-> & _)]); [|lia].
      rewrite Ex in Ex'. inversion Ex'; subst x'. clear Ex'.
      assert (Z3 : exists z0 z1 z2, firstn k (data x) ++ skipn (S k) (data x) = [z0; z1; z2]).
      { rewrite D. destruct k as [|[|[|[|k]]]]; [| | | |lia]; cbn [firstn skipn app]; eauto. }
      destruct Z3 as (z0 & z1 & z2 & Ez). destruct (Main K HK z0 z1 z2 Ez) as (Em & Z0 & Z1 & Z2).
      destruct (face_iff z0 z1 z2 Z0 Z1 Z2) as (b & Eb & Hb). rewrite Eb in Em. rewrite Em in E. destruct b; [|discriminate].
      exists x, z0, z1, z2. split; auto. split; auto. split; auto. split; auto. now apply Hb.
    - intros (x' & z0 & z1 & z2 & Ex' & K & HK & Ez & Hb'). rewrite Ex in Ex'. inversion Ex'; subst x'. clear Ex'. split; auto.
      destruct (Main K HK z0 z1 z2 Ez) as (Em & Z0 & Z1 & Z2).
      destruct (face_iff z0 z1 z2 Z0 Z1 Z2) as (b & Eb & Hb). rewrite Em, Eb. apply Hb in Hb'. now subst b.
  Qed.
  (** What [tet_type] answers. *)
  Lemma interior_row_one t k k' : interior_row g m c t k -> interior_row g m c t k' -> k = k'.
  Proof using L.
    clear - L. intros (_ & x & Ex & A) (_ & x' & Ex' & B). rewrite Ex in Ex'. inversion Ex'; subst x'. clear Ex'. destruct (L _ _ Ex) as (Ld & _).
    assert (W : forall k i j u v, i < j -> nth_error (data x) i = Some u -> nth_error (data x) j = Some v -> ~ within g c u -> ~ within g c v ->
      (forall j v, nth_error (data x) j = Some v -> (within g c v <-> j <> k)) -> False).
    { intros q i j u v Lt Ei Ej Nu Nv H. destruct (Nat.eq_dec i q) as [->|D]; [apply Nv; apply (H j v Ej); lia|apply Nu; now apply (H i u Ei)]. }
    destruct A as [(K & A)|(-> & i & j & u & v & Lt & Ei & Ej & Nu & Nv & _)], B as [(K' & B)|(-> & i' & j' & u' & v' & Lt' & Ei' & Ej' & Nu' & Nv' & _)]; auto.
    - destruct (nth_error_ex (data x) k) as (v & E); [lia|]. destruct (Nat.eq_dec k k') as [|D]; auto. exfalso. apply (proj1 (A k v E)); auto. now apply (B k v E).
    - exfalso. exact (W k i' j' u' v' Lt' Ei' Ej' Nu' Nv' A).
    - exfalso. exact (W k' i j u v Lt Ei Ej Nu Nv B).
  Qed.
  Lemma tet_type_total t : t < length (tets m) -> exists k, tet_type g m c t = Some k /\ k <= 5 /\
    (k < 5 -> interior_row g m c t k) /\ (k = 5 -> forall k', ~ interior_row g m c t k').
  Proof using L GL Hc.
    clear Few. intros Lt. unfold tet_type. destruct (hull_test m L t Lt) as (h & Eh & Hh). rewrite Eh.
    destruct h; [exists 5; split; auto; split; [lia|split; [lia|]]; intros _ k' (R & _); apply Hh in R; discriminate|].
    assert (R : real m t) by (apply Hh; auto). destruct (real_data t R) as (d0 & d1 & d2 & d3 & x & Ex & D & P0 & P1 & P2 & P3 & ND).
    unfold tet_at. rewrite Ex. unfold c. fold c.
    assert (Q : forall v, pt v -> exists b, (o <- ori g m v c0 c1 c2 ;; b <- (if Z.eqb o 0 then in_inner_tri g m v c else Some false) ;; Some (o, b)) =
       Some (plane_side' g c v, b) /\ (b = true <-> within g c v)).
    { intros v Pv. unfold ori. rewrite on_points_some by (clear - Pv Hc; destruct Hc as (? & ? & ?); intros w [<-|[<-|[<-|[<-|[]]]]]; assumption).
      unfold within, plane_side', c. fold c.
      destruct (Z.eqb_spec (Z.sgn (g_o3 g v c0 c1 c2)) 0) as [E|E].
      - unfold in_inner_tri, c. destruct (inb v [c0; c1; c2]) eqn:Ei.
        + exists false. split; auto. split; [discriminate|]. intros (_ & Nv & _). apply inb_false in Nv. congruence.
        + rewrite on_points_some by (clear - Pv Hc; destruct Hc as (? & ? & ?); intros w [<-|[<-|[<-|[<-|[]]]]]; assumption).
          eexists; split; [reflexivity|]. apply inb_false in Ei. tauto.
      - exists false. split; auto. split; [discriminate|]. intros (E' & _). destruct (E E'). }
    assert (Q' : forall i v, pt v -> nth_error (data x) i = Some v -> exists b,
      (v <- nth_error (data x) i ;; o <- ori g m v c0 c1 c2 ;; b <- (if Z.eqb o 0 then in_inner_tri g m v c else Some false) ;; Some (i, o, b)) =
       Some (i, plane_side' g c v, b) /\ (b = true <-> within g c v)).
    { intros i v Pv Ei. rewrite Ei. destruct (Q v Pv) as (b & E & Hb). exists b. split; auto.
      destruct (ori g m v c0 c1 c2) as [o|]; [|discriminate]. destruct (if Z.eqb o 0 then _ else _) as [b'|]; [|discriminate]. congruence. }
    cbn [seq omap].
    destruct (Q' 0 d0 P0) as (b0 & E0 & H0); [now rewrite D|]. destruct (Q' 1 d1 P1) as (b1 & E1 & H1); [now rewrite D|].
    destruct (Q' 2 d2 P2) as (b2 & E2 & H2); [now rewrite D|]. destruct (Q' 3 d3 P3) as (b3 & E3 & H3); [now rewrite D|].
    rewrite E0, E1, E2, E3. clear Q Q' E0 E1 E2 E3.
    (* the same question, on the four answers *)
    set (os := [(0, plane_side' g c d0, b0); (1, plane_side' g c d1, b1); (2, plane_side' g c d2, b2); (3, plane_side' g c d3, b3)]).
    pose (meet := fun u v => negb (inb u [c0; c1; c2]) && negb (inb v [c0; c1; c2]) && g_seg_tri g u v c0 c1 c2).
    pose (diff := fun i j => negb (nth i [b0; b1; b2; b3] true) && negb (nth j [b0; b1; b2; b3] true) &&
       negb (Z.eqb (nth i [plane_side' g c d0; plane_side' g c d1; plane_side' g c d2; plane_side' g c d3] 0%Z)
                   (nth j [plane_side' g c d0; plane_side' g c d1; plane_side' g c d2; plane_side' g c d3] 0%Z)) &&
       ((b0 || b1 || b2 || b3) || meet (nth i [d0; d1; d2; d3] 0) (nth j [d0; d1; d2; d3] 0))).
    pose (six := [(0, 1); (0, 2); (0, 3); (1, 2); (1, 3); (2, 3)]).
    assert (W : forall i v, nth_error [d0; d1; d2; d3] i = Some v -> nth i [d0; d1; d2; d3] 0 = v /\ (nth i [b0; b1; b2; b3] true = true <-> within g c v) /\
       nth i [plane_side' g c d0; plane_side' g c d1; plane_side' g c d2; plane_side' g c d3] 0%Z = plane_side' g c v /\ i < 4).
    { intros i v Hi. do 4 (destruct i as [|i]; [cbn [nth_error] in Hi; injection Hi as <-; cbn [nth]; split; [reflexivity|]; split; [assumption|]; split; [reflexivity|lia]|]). destruct i; discriminate Hi. }
    assert (Sx : forall i j, i < j -> j < 4 <-> In (i, j) six).
    { intros i j Lij. split.
      - intros Lj. destruct j as [|[|[|[|j]]]], i as [|[|[|i]]]; try lia; cbn; auto 10.
      - intros Hin. unfold six in Hin. cbn [In] in Hin. repeat (destruct Hin as [E|Hin]; [inversion E; subst; lia|]). contradiction. }
    assert (Any : (b0 || b1 || b2 || b3 = true) <-> exists w, In w (data x) /\ within g c w).
    { rewrite D. rewrite !orb_true_iff. rewrite H0, H1, H2, H3. cbn [In]. split.
      - intros [[[H|H]|H]|H]; eexists; (split; [|exact H]); auto.
      - intros (w & [<-|[<-|[<-|[<-|[]]]]] & H); auto. }
    assert (Meet : forall u v, meet u v = true <-> ~ In u [c0; c1; c2] /\ ~ In v [c0; c1; c2] /\ g_seg_tri g u v c0 c1 c2 = true).
    { intros u v. unfold meet. rewrite !andb_true_iff, !negb_true_iff, !inb_false. tauto. }
    assert (Df : existsb (fun ij => diff (fst ij) (snd ij)) six = true <-> interior_row g m c t 4).
    { rewrite existsb_exists. unfold interior_row. split.
      - intros ((i, j) & Hij & Hd). cbn [fst snd] in Hd. assert (Lij : i < j /\ j < 4) by (unfold six in Hij; cbn [In] in Hij; repeat (destruct Hij as [E|Hij]; [inversion E; subst; lia|]); contradiction).
        destruct (nth_error_ex [d0; d1; d2; d3] i) as (u & Eu); [cbn; lia|]. destruct (nth_error_ex [d0; d1; d2; d3] j) as (v & Ev); [cbn; lia|].
        destruct (W i u Eu) as (Wu & Wbu & Wsu & _). destruct (W j v Ev) as (Wv & Wbv & Wsv & _).
        unfold diff in Hd. rewrite Wu, Wv, Wsu, Wsv in Hd. rewrite !andb_true_iff, !negb_true_iff, orb_true_iff in Hd.
        destruct Hd as (((Nu & Nv) & Ns) & Hd). split; auto. exists x. split; auto. right. split; auto. exists i, j, u, v. rewrite D.
        split; [lia|]. split; auto. split; auto. rewrite <- Wbu, <- Wbv, Nu, Nv. apply Z.eqb_neq in Ns. split; [discriminate|]. split; [discriminate|]. split; auto.
        destruct Hd as [Hd|Hd]; [left|right; now apply Meet]. rewrite <- D. now apply Any.
      - intros (_ & x' & Ex' & [(K & _)|(_ & i & j & u & v & Lij & Eu & Ev & Nu & Nv & Ns & Hd)]); [lia|]. rewrite Ex in Ex'. inversion Ex'; subst x'. clear Ex'.
        rewrite D in Eu, Ev. destruct (W i u Eu) as (Wu & Wbu & Wsu & Li). destruct (W j v Ev) as (Wv & Wbv & Wsv & Lj).
        exists (i, j). split; [now apply Sx|]. cbn [fst snd]. unfold diff. rewrite Wu, Wv, Wsu, Wsv, !andb_true_iff, !negb_true_iff, orb_true_iff.
        rewrite <- Wbu in Nu. rewrite <- Wbv in Nv. apply not_true_is_false in Nu, Nv. apply Z.eqb_neq in Ns. repeat split; auto.
        destruct Hd as [Hd|Hd]; [left; now apply Any|right; now apply Meet]. }
    assert (Al : forall k, k < 4 -> (forall j, j < 4 -> nth j [b0; b1; b2; b3] true = negb (j =? k)) <-> interior_row g m c t k).
    { intros k K. unfold interior_row. split.
      - intros H. split; auto. exists x. split; auto. left. split; auto. intros j v Ej. rewrite D in Ej. destruct (W j v Ej) as (_ & Wb & _ & Lj).
        rewrite <- Wb, H by auto. rewrite negb_true_iff. apply Nat.eqb_neq.
      - intros (_ & x' & Ex' & [(_ & H)|(-> & _)]); [|lia]. rewrite Ex in Ex'. inversion Ex'; subst x'. clear Ex'. intros j Lj.
        destruct (nth_error_ex [d0; d1; d2; d3] j) as (v & Ev); [cbn; lia|]. destruct (W j v Ev) as (_ & Wb & _ & _).
        rewrite <- D in Ev. specialize (H j v Ev). rewrite <- Wb in H. destruct (Nat.eqb_spec j k) as [->|N]; cbn [negb]; [|tauto].
        apply not_true_is_false. intros Hb. now apply H. }
    assert (K5 : forall k, interior_row g m c t k -> k < 5) by (intros k (_ & ? & _ & [(? & _)|(-> & _)]); lia).
    assert (One : forall k, k < 4 -> (forall j, j < 4 -> nth j [b0; b1; b2; b3] true = negb (j =? k)) ->
      exists k', Some k = Some k' /\ k' <= 5 /\ (k' < 5 -> interior_row g m c t k') /\ (k' = 5 -> forall k'', ~ interior_row g m c t k'')).
    { intros k K H. exists k. split; auto. split; [lia|]. split; [intros _; now apply Al|lia]. }
    assert (Four : forall r b, (forall k, k < 4 -> exists j, j < 4 /\ nth j [b0; b1; b2; b3] true <> negb (j =? k)) ->
      existsb (fun ij => diff (fst ij) (snd ij)) six = b -> r = Some (if b then 4 else 5) ->
      exists k', r = Some k' /\ k' <= 5 /\ (k' < 5 -> interior_row g m c t k') /\ (k' = 5 -> forall k'', ~ interior_row g m c t k'')).
    { intros r b No Hb ->. exists (if b then 4 else 5). split; auto. destruct b.
      - split; [lia|]. split; [intros _; now apply Df|lia].
      - split; [lia|]. split; [lia|]. intros _ k Hk. pose proof (K5 k Hk). destruct (Nat.eq_dec k 4) as [->|N].
        + apply Df in Hk. congruence.
        + destruct (No k) as (j & Lj & Hj); [lia|]. apply Hj. apply Al; auto. lia. }
    assert (Last : existsb (fun ij => diff (fst ij) (snd ij)) six = existsb (fun ij => negb (Z.eqb (nth (fst ij) [plane_side' g c d0; plane_side' g c d1; plane_side' g c d2; plane_side' g c d3] 0%Z)
                   (nth (snd ij) [plane_side' g c d0; plane_side' g c d1; plane_side' g c d2; plane_side' g c d3] 0%Z)) && meet (nth (fst ij) [d0; d1; d2; d3] 0) (nth (snd ij) [d0; d1; d2; d3] 0)) six ->
      (b <- anyp (fun ij => oi <- nth_error os (fst ij) ;; oj <- nth_error os (snd ij) ;;
                   if Z.eqb (snd (fst oi)) (snd (fst oj)) then Some false else
                   vi <- nth_error (data x) (fst ij) ;; vj <- nth_error (data x) (snd ij) ;;
                   seg_tri g m vi vj c0 c1 c2) six ;; Some (if b then 4 else 5)) = Some (if existsb (fun ij => diff (fst ij) (snd ij)) six then 4 else 5)).
    { intros ->. rewrite D.
      set (f := fun ij : nat * nat => oi <- nth_error os (fst ij) ;; _).
      set (h := fun ij : nat * nat => negb _ && _).
      assert (Hf : forall ij, In ij six -> f ij = Some (h ij)).
      { assert (ST : forall u v, pt u -> pt v -> seg_tri g m u v c0 c1 c2 = Some (meet u v)).
        { intros u v Pu Pv. unfold seg_tri, meet. destruct (inb u [c0; c1; c2]); cbn [orb negb andb]; auto. destruct (inb v [c0; c1; c2]); cbn [orb negb andb]; auto.
          rewrite on_points_some; auto. clear - Pu Pv Hc; destruct Hc as (? & ? & ?); intros w [<-|[<-|[<-|[<-|[<-|[]]]]]]; assumption. }
        intros ij Hij. unfold six in Hij. cbn [In] in Hij. unfold f, h, os.
        destruct Hij as [<-|[<-|[<-|[<-|[<-|[<-|[]]]]]]]; cbn [fst snd nth_error nth]; destruct (Z.eqb _ _); cbn [negb andb]; auto. }
      assert (A : anyp f six = Some (existsb h six)).
      { unfold anyp. clear - Hf. induction six as [|ij l IH]; cbn [findp existsb]; auto. rewrite Hf by (now left). destruct (h ij); cbn [orb]; auto.
        apply IH. intros; apply Hf; now right. }
      rewrite A. reflexivity. }
    assert (Pick : forall k j, j < 4 -> nth j [b0; b1; b2; b3] true <> negb (j =? k) -> exists j, j < 4 /\ nth j [b0; b1; b2; b3] true <> negb (j =? k)) by eauto.
    destruct b0, b1, b2, b3; cbn [os filter snd fst negb].
    all: try (apply One; [lia|]; intros j Lj; do 4 (destruct j as [|j]; [reflexivity|]); lia).
    all: eapply Four; [intros k K; do 4 (destruct k as [|k]; [first [exists 0; split; [lia|discriminate] | exists 1; split; [lia|discriminate] | exists 2; split; [lia|discriminate] | exists 3; split; [lia|discriminate]]|]); lia
        |reflexivity|].
    (* all within: all in the plane *)
    1: { assert (Z : forall v, within g c v -> plane_side' g c v = 0%Z) by (intros v (Hv & _); exact Hv).
         refine (Last _). unfold six, diff. cbn [existsb fst snd nth negb andb orb].
         rewrite !Z by (first [now apply H0 | now apply H1 | now apply H2 | now apply H3]). reflexivity. }
    all: try (refine (Last _); unfold six, diff; cbn [existsb fst snd nth negb andb orb]; reflexivity).
    all: unfold six, diff; cbn [existsb fst snd nth negb andb orb];
         repeat match goal with |- context [Z.eqb ?a ?b] => destruct (Z.eqb_spec a b) end; cbn [negb andb orb]; try reflexivity; congruence.
  Qed.
  Lemma tet_type_iff t k : t < length (tets m) -> (tet_type g m c t = Some k /\ k < 5) <-> interior_row g m c t k.
  Proof using L GL Hc.
    clear Few. intros Lt. destruct (tet_type_total t Lt) as (k0 & E & K & A & B). rewrite E. split.
    - intros (E' & K'). inversion E'; subst. auto.
    - intros H. destruct (Nat.eq_dec k0 5) as [->|N]; [exfalso; eapply B; eauto|]. assert (R : interior_row g m c t k0) by (apply A; lia).
      rewrite (interior_row_one t k k0 H R). split; auto. lia.
  Qed.
End Mark.
