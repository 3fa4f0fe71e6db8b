(** Facts about the walk along the sides of a constraint. *)
From Coq Require Import List Arith Bool ZArith Permutation Lia.
From Verif Require Import Lib Geo Tet TetSpec TetProofs TetFace TetFaceProofs BspSpec Trace TraceSpec.
Import ListNotations.
Local Open Scope opt_scope.

Definition info_ok (m : tetmesh) (i : info) : Prop :=
  NoDup (intersected i) /\ length (visited i) = length (tets m) /\
  forall t, nth_error (visited i) t = Some true <-> In t (intersected i).

Lemma no_info_ok m : info_ok m (no_info m).
Proof.
  unfold info_ok, no_info; cbn. repeat split; [constructor|apply repeat_length| |intros []].
  intros H. apply nth_error_In, repeat_spec in H. discriminate.
Qed.
Lemma push_new_ok m i t : info_ok m i -> t < length (tets m) ->
  exists i', push_new i t = Some i' /\ info_ok m i' /\ forall u, In u (intersected i') <-> In u (intersected i) \/ u = t.
Proof.
  intros (N & Ln & V) H. unfold push_new.
  destruct (nth_error (visited i) t) as [b|] eqn:E; [|apply nth_error_None in E; lia].
  destruct b.
  - exists i. split; auto. split; [repeat split; auto; apply V|]. intros u. split; auto. intros [| ->]; auto. now apply V.
  - rewrite set_ok by lia. eexists; split; [reflexivity|]. assert (Nt : ~ In t (intersected i)) by (rewrite <- V, E; discriminate).
    split.
    + repeat split; cbn [intersected visited].
      * apply NoDup_app_iff_snoc; auto.
      * rewrite upd_length. auto.
      * intros Hu. apply in_or_app. destruct (Nat.eq_dec t t0) as [<-|D]; [right; now left|].
        rewrite nth_error_upd_neq in Hu by auto. left. now apply V.
      * intros Hu. apply in_app_or in Hu. destruct Hu as [Hu|[<-|[]]]; [|apply nth_error_upd_eq; lia].
        destruct (Nat.eq_dec t t0) as [<-|D]; [contradiction|]. rewrite nth_error_upd_neq by auto. now apply V.
    + intros u. cbn. rewrite in_app_iff. cbn. intuition.
Qed.
Lemma push_all_ok m l : forall i, info_ok m i -> (forall t, In t l -> t < length (tets m)) ->
  exists i', push_all i l = Some i' /\ info_ok m i' /\ forall u, In u (intersected i') <-> In u (intersected i) \/ In u l.
Proof.
  induction l as [|t l IH]; intros i I H; cbn [push_all].
  - exists i. split; auto. split; auto. intros; cbn; tauto.
  - destruct (push_new_ok m i t I) as (i1 & E & I1 & H1); [apply H; now left|]. rewrite E.
    destruct (IH i1 I1) as (i2 & E2 & I2 & H2); [intros; apply H; now right|].
    exists i2. split; auto. split; auto. intros u. rewrite H2, H1. cbn. intuition.
Qed.

Lemma index_of_nth v l : forall k, index_of v l = Some k -> nth_error l k = Some v.
Proof.
  induction l as [|a l IH]; intros k H; cbn in H; [discriminate|].
  destruct (Nat.eqb_spec a v) as [->|N]; [inversion H; reflexivity|].
  destruct (index_of v l) eqn:E; cbn in H; [|discriminate]. inversion H; subst. cbn. auto.
Qed.
Lemma on_points_some {A} m l (x : A) : (forall v, In v l -> v < n_points m) -> on_points m l x = Some x.
Proof.
  intros H. unfold on_points. rewrite (proj2 (forallb_forall _ _)); auto. intros v Hv. apply Nat.ltb_lt. auto.
Qed.
Lemma inb_false v l : inb v l = false <-> ~ In v l.
Proof.
  unfold inb. split.
  - intros H Hin. rewrite (proj2 (existsb_exists _ _)) in H; [discriminate|]. exists v. split; auto. apply Nat.eqb_refl.
  - intros H. destruct (existsb (Nat.eqb v) l) eqn:E; auto. apply existsb_exists in E. destruct E as (y & Hy & E). apply Nat.eqb_eq in E. subst. contradiction.
Qed.
Lemma findp_ok {A} (f : A -> option bool) l : (forall x, In x l -> exists b, f x = Some b) ->
  exists r, findp f l = Some r /\ match r with Some x => In x l /\ f x = Some true | None => forall x, In x l -> f x = Some false end.
Proof.
  induction l as [|x l IH]; intros H; cbn [findp]; [exists None; split; auto; intros ? []|].
  destruct (H x) as (b & E); [now left|]. rewrite E. destruct b.
  - exists (Some x). split; auto. split; auto. now left.
  - destruct IH as (r & Er & Hr); [intros; apply H; now right|]. exists r. split; auto.
    destruct r; [split; [right|]; tauto|]. intros y [<-|Hy]; auto.
Qed.
Lemma fair_inb g a b s : fair g -> 2 <= length s -> inb a s || inb b s = true -> ~ meets g a b s.
Proof.
  intros (_ & _ & F & _) Ls H M. destruct (F a b s Ls M) as (A & B). rewrite <- inb_false in A, B. rewrite A, B in H. discriminate.
Qed.
Lemma seg_tri_ok g m u1 u2 v1 v2 v3 : fair g -> (forall v, In v [u1; u2; v1; v2; v3] -> v < n_points m) ->
  exists b, seg_tri g m u1 u2 v1 v2 v3 = Some b /\ (b = true <-> g_seg_tri g u1 u2 v1 v2 v3 = true).
Proof.
  intros F H. unfold seg_tri. destruct (_ || _) eqn:E.
  - exists false. split; auto. split; [discriminate|]. intros M. destruct (fair_inb g u1 u2 [v1; v2; v3] F ltac:(cbn; lia) E M).
  - rewrite on_points_some by auto. eexists; split; [reflexivity|]. tauto.
Qed.
Lemma segs_ok g m u1 u2 v1 v2 : fair g -> (forall v, In v [u1; u2; v1; v2] -> v < n_points m) ->
  exists b, segs g m u1 u2 v1 v2 = Some b /\ (b = true <-> g_segs g u1 u2 v1 v2 = true).
Proof.
  intros F H. unfold segs. destruct (_ || _) eqn:E.
  - exists false. split; auto. split; [discriminate|]. intros M. destruct (fair_inb g u1 u2 [v1; v2] F ltac:(cbn; lia) E M).
  - rewrite on_points_some by auto. eexists; split; [reflexivity|]. tauto.
Qed.
Lemma half_space_ok g m u1 u2 v1 v2 v3 : (forall v, In v [u1; u2; v1; v2; v3] -> v < n_points m) ->
  exists b, half_space g m u1 u2 v1 v2 v3 = Some b /\ (b = true <-> same_side g u1 u2 v1 v2 v3).
Proof. intros H. unfold half_space. rewrite on_points_some by auto. eexists; split; [reflexivity|]. apply Z.eqb_eq. Qed.
Lemma half_plane_ok g m u1 u2 v1 v2 : ~ In u1 [v1; v2] -> ~ In u2 [v1; v2] -> (forall v, In v [u1; u2; v1; v2] -> v < n_points m) ->
  exists b, half_plane g m u1 u2 v1 v2 = Some b /\ (b = true <-> g_half g u1 u2 v1 v2 = true).
Proof.
  intros A B H. unfold half_plane. rewrite <- inb_false in A, B. rewrite A, B. cbn [orb].
  rewrite on_points_some by auto. eexists; split; [reflexivity|]. tauto.
Qed.
Lemma in_inner_seg_ok g m u v1 v2 : fair g -> (forall v, In v [u; v1; v2] -> v < n_points m) ->
  exists b, in_inner_seg g m u v1 v2 = Some b /\ (b = true <-> g_in_seg g u v1 v2 = true).
Proof.
  intros (_ & _ & _ & F) H. unfold in_inner_seg. destruct (inb _ _) eqn:E.
  - exists false. split; auto. split; [discriminate|]. intros M. apply F in M.
    assert (~ In u [v1; v2]) by (cbn; intuition congruence). rewrite <- inb_false in H0. congruence.
  - rewrite on_points_some by auto. eexists; split; [reflexivity|]. tauto.
Qed.
Lemma andp_ok x y (P Q : Prop) : (exists b, x = Some b /\ (b = true <-> P)) -> (exists b, y = Some b /\ (b = true <-> Q)) ->
  exists b, andp x y = Some b /\ (b = true <-> P /\ Q).
Proof. intros ([] & -> & H) ([] & -> & K); cbn; eexists; split; eauto; intuition congruence. Qed.

Section Walk.
  Variables (g : geom) (m : tetmesh).
  Hypothesis L : linked m.
  Hypothesis C : consistent m.
  Hypothesis GL : ghost_last m.
  Hypothesis PL : placed m.
  Hypothesis HC : hull_closed g m.
  Hypothesis FG : fair g.

  Lemma real_lt t : real m t -> t < length (tets m).
  Proof using. intros (x & E & _). apply nth_error_Some. congruence. Qed.
  Lemma real_vertex t x v : real m t -> nth_error (tets m) t = Some x -> In v (data x) -> v < n_points m.
  Proof using GL.
    intros (x' & E & R) E' Hv. rewrite E in E'. inversion E'; subst x'. apply In_nth_error in Hv. destruct Hv as (i & Ei).
    destruct (GL t x i v E Ei) as (A & B). destruct (Nat.eq_dec v (n_points m)) as [->|]; [|lia]. rewrite (B eq_refl) in Ei. contradiction.
  Qed.
  Lemma hull_test t : t < length (tets m) -> exists h, is_hull_tet m (Some t) = Some h /\ (h = false <-> real m t).
  Proof using L.
    intros H. unfold is_hull_tet, tet_at. destruct (nth_error (tets m) t) as [x|] eqn:E; [|apply nth_error_None in E; lia].
    destruct (L _ _ E) as (Ld & _). destruct (nth_error (data x) 3) as [d|] eqn:Ed; [|apply nth_error_None in Ed; lia].
    eexists; split; [reflexivity|]. rewrite Nat.eqb_neq. split.
    - intros N. exists x. split; auto. rewrite Ed. congruence.
    - intros (x' & E' & N). rewrite E in E'. inversion E'; subst. rewrite Ed in N. congruence.
  Qed.
  Lemma real_dec t : t < length (tets m) -> real m t \/ ~ real m t.
  Proof using L. intros H. destruct (hull_test t H) as (h & _ & Hh). destruct h; [right; rewrite <- Hh; discriminate|left; tauto]. Qed.

  (** the corners are the vertices *)
  Lemma corners_in t v x a b c d : nth_error (tets m) t = Some x -> corners m (TF (Some t) v) a b c d ->
    (forall y, In y (data x) <-> y = a \/ y = b \/ y = c \/ y = d) /\ NoDup [a; b; c; d].
  Proof using L.
    intros Hx K. rewrite (corners_data m t v x) in K by exact Hx. destruct K as (V & A1 & A2 & A3 & A4).
    destruct (L _ _ Hx) as (Ld & _ & ND & _). split.
    - intros y. split.
      + intros Hy. apply In_nth_error in Hy. destruct Hy as (i & Ei).
        assert (i < 4) by (rewrite <- Ld; apply nth_error_Some; congruence).
        assert (i = nth v ORG_PIVOT 0 \/ i = nth v DEST_PIVOT 0 \/ i = nth v APEX_PIVOT 0 \/ i = nth v OPPO_PIVOT 0)
          by (clear -V H; versions v; cbn; lia).
        destruct H0 as [->|[->|[->| ->]]]; rewrite Ei in *; intuition congruence.
      + intros [->|[->|[->| ->]]]; eapply nth_error_In; eassumption.
    - destruct (data x) as [|p0 [|p1 [|p2 [|p3 [|? ?]]]]]; cbn in Ld; try lia. clear -V A1 A2 A3 A4 ND.
      assert (N : p0 <> p1 /\ p0 <> p2 /\ p0 <> p3 /\ p1 <> p2 /\ p1 <> p3 /\ p2 <> p3)
        by (repeat match goal with H : NoDup (_ :: _) |- _ => inversion H; clear H; subst end; cbn [In] in *; intuition congruence).
      clear ND. versions v; cbn in A1, A2, A3, A4; injection A1 as <-; injection A2 as <-; injection A3 as <-; injection A4 as <-;
        repeat constructor; cbn [In]; intuition congruence.
  Qed.
  Lemma corners_in' f a b c d : corners m f a b c d -> exists t x, tet f = Some t /\ nth_error (tets m) t = Some x /\
    (forall y, In y (data x) <-> y = a \/ y = b \/ y = c \/ y = d) /\ NoDup [a; b; c; d].
  Proof using L.
    intros K. destruct (corners_tet _ _ _ _ _ _ K) as (t & x & E & Ex). exists t, x. split; auto. split; auto.
    destruct f as [ft v]. cbn in E. subst. eapply corners_in; eauto.
  Qed.

  (** * Finding the edge or the face *)
  Lemma at_vertex_ok t x v : nth_error (tets m) t = Some x -> In v (data x) ->
    exists f a b c, at_vertex m t v = Some f /\ tet f = Some t /\ corners m f v a b c.
  Proof using L.
    intros Hx Hv. unfold at_vertex, tet_at. rewrite Hx. destruct (index_of_some v _ Hv) as (k & E & N). rewrite E.
    destruct (vpivot_org m v L t x k Hx N) as (p & a & b & c & Ep & K). rewrite Ep. exists (TF (Some t) p), a, b, c. auto.
  Qed.
  Lemma turn_edge_ok t x f p q : nth_error (tets m) t = Some x -> tet f = Some t -> p <> q -> In q (data x) ->
    (exists a b c, corners m f p a b c) ->
    exists e c d, turn_edge m q f 2 = Some e /\ tet e = Some t /\ corners m e p q c d.
  Proof using L.
    intros Hx Hf N Hq (a & b & c & K). assert (In3 : q = a \/ q = b \/ q = c).
    { destruct f as [ft v]. cbn in Hf. subst. apply (corners_in t v x p a b c Hx K) in Hq. intuition congruence. }
    cbn [turn_edge]. pose proof K as (_ & Da & _). rewrite Da. destruct (Nat.eqb_spec a q) as [->|Na]; [eauto 6|].
    destruct (corners_moves m f p a b c K) as (_ & _ & _ & _ & (f1 & E1 & T1 & K1)). rewrite E1.
    pose proof K1 as (_ & Db & _). rewrite Db. destruct (Nat.eqb_spec b q) as [->|Nb]; [exists f1, c, a; intuition congruence|].
    destruct (corners_moves m f1 p b c a K1) as (_ & _ & _ & _ & (f2 & E2 & T2 & K2)). rewrite E2.
    assert (q = c) by (intuition congruence). subst. exists f2, a, b. intuition congruence.
  Qed.
  Lemma turn_face_ok t x f p q r : nth_error (tets m) t = Some x -> tet f = Some t -> NoDup [p; q; r] -> In q (data x) -> In r (data x) ->
    (exists a b c, corners m f p a b c) ->
    exists e d, turn_face m q r f 2 = Some e /\ tet e = Some t /\ (corners m e p q r d \/ corners m e p r q d).
  Proof using L.
    intros Hx Hf N Hq Hr (a & b & c & K).
    assert (Npq : p <> q /\ p <> r /\ q <> r)
      by (repeat match goal with H : NoDup (_ :: _) |- _ => inversion H; clear H; subst end; cbn [In] in *; intuition congruence).
    assert (In3 : (q = a \/ q = b \/ q = c) /\ (r = a \/ r = b \/ r = c)).
    { destruct f as [ft v]. cbn in Hf. subst. apply (corners_in t v x p a b c Hx K) in Hq, Hr. intuition congruence. }
    cbn [turn_face]. pose proof K as (_ & Da & Db & _). rewrite Da, Db.
    destruct (((a =? q) && (b =? r)) || ((a =? r) && (b =? q))) eqn:T.
    { exists f, c. split; auto. split; auto. apply orb_true_iff in T. destruct T as [T|T]; apply andb_prop in T; destruct T as (T1 & T2);
      apply Nat.eqb_eq in T1, T2; subst; auto. }
    destruct (corners_moves m f p a b c K) as (_ & _ & _ & _ & (f1 & E1 & T1 & K1)). rewrite E1.
    pose proof K1 as (_ & Db1 & Dc & _). rewrite Db1, Dc.
    destruct (((b =? q) && (c =? r)) || ((b =? r) && (c =? q))) eqn:T'.
    { exists f1, a. split; auto. split; [congruence|]. apply orb_true_iff in T'. destruct T' as [T'|T']; apply andb_prop in T'; destruct T' as (T2 & T3);
      apply Nat.eqb_eq in T2, T3; subst; auto. }
    destruct (corners_moves m f1 p b c a K1) as (_ & _ & _ & _ & (f2 & E2 & T2 & K2)). rewrite E2.
    apply orb_false_iff in T, T'. rewrite !andb_false_iff, !Nat.eqb_neq in T, T'.
    exists f2, b. split; auto. split; [congruence|].
    destruct In3 as ([-> | [-> | ->]] & [-> | [-> | ->]]); intuition congruence.
  Qed.

  (** * Leaving a vertex *)
  Definition face_open (t : nat) (s : list nat) : Prop := forall a b c f h u d, s = [a; b; c] -> tet f = Some t ->
    (corners m f a b c d \/ corners m f a c b d) -> fsym m f = Some h -> tet h = Some u -> real m u.
  Definition good_to (vb t : nat) (s : list nat) : Prop :=
    real m t /\ holds m t s /\ NoDup s /\ s <> [] /\ length s <= 3 /\ (In vb s -> s = [vb]) /\ face_open t s.

  Lemma open_by_geometry t a b c u1 u2 : real m t -> u1 < n_points m -> u2 < n_points m ->
    g_seg_tri g u1 u2 a b c = true -> face_open t [a; b; c].
  Proof using HC L C.
    intros R H1 H2 S a' b' c' f h u d E Tf K F Th. inversion E; subst a' b' c'.
    assert (Hu : u < length (tets m)).
    { assert (Vf : valid m f) by (destruct K as [K|K]; eapply corners_valid; eauto).
      destruct (fsym_ver m L C f h) as (Vh & _); auto. destruct Vh as (u' & Eu & Lu & _). congruence. }
    destruct (real_dec u Hu) as [|N]; auto. exfalso.
    assert (g_seg_tri g u1 u2 a b c = false); [|congruence].
    destruct K as [K|K]; [eapply (HC f a b c d h t u); eauto|eapply (HC f a c b d h t u); eauto; constructor; constructor].
  Qed.
  Lemma open_small t s : length s < 3 -> face_open t s.
  Proof using. intros H a b c f h u d ->. cbn in H. lia. Qed.

  Lemma leave_vertex_ok v vb prev l : v <> vb -> v < n_points m -> vb < n_points m ->
    (forall t, In t l -> real m t /\ holds m t [v]) ->
    exists r, leave_vertex g m v vb prev l = Some r /\
      match r with
      | Done (t, s) => In t l /\ prev <> Some t /\ good_to vb t s /\ ~ In v s /\ meets g v vb s
      | Lost => forall t s, In t l -> prev <> Some t -> holds m t s -> NoDup s -> ~ In v s -> ~ meets g v vb s
      | Out => False
      end.
  Proof using L C GL HC FG.
    intros Nv Hv Hb. induction l as [|t l IH]; intros H; cbn [leave_vertex]; [eexists; split; [reflexivity|intros ? ? []]|].
    assert (IH' := IH (fun u Hu => H u (or_intror Hu))). clear IH.
    assert (Skip : (prev <> Some t -> forall s, holds m t s -> NoDup s -> ~ In v s -> ~ meets g v vb s) ->
      exists r, leave_vertex g m v vb prev l = Some r /\
      match r with
      | Done (t', s) => In t' (t :: l) /\ prev <> Some t' /\ good_to vb t' s /\ ~ In v s /\ meets g v vb s
      | Lost => forall t' s, In t' (t :: l) -> prev <> Some t' -> holds m t' s -> NoDup s -> ~ In v s -> ~ meets g v vb s
      | Out => False
      end).
    { intros None'. destruct IH' as (r & E & Hr). exists r. split; auto. destruct r as [[t' s]| |]; auto.
      - destruct Hr as (A & B). split; auto. now right.
      - intros t' s [<-|Hin]; [intros; now apply None'|now apply Hr]. }
    clear IH'. destruct (match prev with Some p => t =? p | None => false end) eqn:Ep;
      [apply Skip; intros Np; destruct prev as [p|]; [apply Nat.eqb_eq in Ep; congruence|discriminate]|].
    assert (Np : prev <> Some t) by (intros ->; rewrite Nat.eqb_refl in Ep; discriminate).
    destruct (H t (or_introl eq_refl)) as (R & x & Ex & Hi).
    assert (Vx : In v (data x)) by (apply Hi; now left).
    unfold tet_at. rewrite Ex.
    destruct (L _ _ Ex) as (Ld & _ & ND & _).
    assert (RV : forall y, In y (data x) -> y < n_points m) by (intros; eapply real_vertex; eauto).
    destruct (index_of vb (data x)) as [k|] eqn:Ek.
    { eexists; split; [reflexivity|]. split; [now left|]. split; auto.
      assert (In vb (data x)) by (apply index_of_nth in Ek; eapply nth_error_In; eauto).
      split; [|split; [intros [E|[]]; congruence|left; reflexivity]].
      split; auto. split; [exists x; split; auto; intros y [<-|[]]; auto|]. split; [repeat constructor; intros []|].
      split; [discriminate|]. split; [cbn; lia|]. split; auto. apply open_small. cbn; lia. }
    assert (Nb : ~ In vb (data x)) by (intros Hin; destruct (index_of_some vb _ Hin) as (k & E & _); congruence).
    set (ov := filter (fun y => negb (y =? v)) (data x)).
    assert (Ov : forall y, In y ov <-> In y (data x) /\ y <> v).
    { intros y. unfold ov. rewrite filter_In, negb_true_iff, Nat.eqb_neq. tauto. }
    assert (NDo : NoDup ov) by (apply NoDup_filter; auto).
    assert (Lo : length ov = 3).
    { assert (S (length ov) = 4); [|lia]. rewrite <- Ld. apply Permutation_length with (l := v :: ov). apply NoDup_Permutation; auto.
      - constructor; auto. rewrite Ov. tauto.
      - intros y. cbn. rewrite Ov. destruct (Nat.eq_dec y v) as [->|]; intuition congruence. }
    destruct ov as [|o0 [|o1 [|o2 [|? ?]]]] eqn:Eo; cbn in Lo; try lia. cbn [nth_error].
    assert (Ho : forall y, In y [o0; o1; o2] -> y < n_points m /\ y <> v /\ In y (data x)) by (intros y Hy; apply Ov in Hy; intuition).
    assert (H0 := Ho o0 ltac:(cbn; auto)). assert (H1 := Ho o1 ltac:(cbn; auto)). assert (H2 := Ho o2 ltac:(cbn; auto)).
    destruct (seg_tri_ok g m v vb o0 o1 o2 FG) as (b & Eb & Hb'); [cbn [In]; intuition congruence|]. rewrite Eb.
    assert (Good : forall s, incl s [o0; o1; o2] -> NoDup s -> s <> [] -> length s <= 3 -> meets g v vb s ->
       good_to vb t s /\ ~ In v s /\ meets g v vb s).
    { intros s Is Ns Zs Ls Ms. split; [|split; auto].
      - split; auto. split; [exists x; split; auto; intros y Hy; apply Ho; auto|]. split; auto. split; auto. split; auto.
        split; [intros Hin; exfalso; apply Nb, Ho; auto|].
        destruct s as [|a [|b' [|c [|? ?]]]]; try (apply open_small; cbn; lia); [|cbn in Ls; lia].
        apply (open_by_geometry t a b' c v vb R Hv Hb Ms).
      - intros Hin. apply (Ho v); auto. }
    destruct b.
    { eexists; split; [reflexivity|]. split; [now left|]. split; auto. apply Good; auto; try discriminate; [apply incl_refl|now apply Hb']. }
    assert (N3 : o0 <> o1 /\ o1 <> o2 /\ o0 <> o2)
      by (repeat match goal with H : NoDup (_ :: _) |- _ => inversion H; clear H; subst end; cbn [In] in *; intuition congruence).
    destruct (findp_ok (fun e => segs g m v vb (fst e) (snd e)) (pairs [o0; o1; o2])) as (e & Ee & He).
    { intros e Hin. cbn in Hin. destruct (segs_ok g m v vb (fst e) (snd e) FG) as (b & E & _); eauto.
      intros y Hy. destruct Hin as [<-|[<-|[<-|[]]]]; cbn in Hy; intuition congruence. }
    rewrite Ee. destruct e as [[ua ub]|].
    { destruct He as (Hin & Es). cbn [fst snd] in Es. eexists; split; [reflexivity|]. split; [now left|]. split; auto.
      assert (Hp : In ua [o0; o1; o2] /\ In ub [o0; o1; o2] /\ ua <> ub).
      { cbn in Hin. destruct Hin as [Hin|[Hin|[Hin|[]]]]; injection Hin as <- <-; (split; [cbn; auto|split; [cbn; auto|]]); (apply N3 || apply not_eq_sym, N3). }
      destruct Hp as (P1 & P2 & P3). apply Good.
      - intros y [<-|[<-|[]]]; auto.
      - repeat constructor; cbn; intuition.
      - discriminate.
      - cbn; lia.
      - cbn. destruct (segs_ok g m v vb ua ub FG) as (b & E & Hs); [intros y [<-|[<-|[<-|[<-|[]]]]]; auto; apply Ho; auto|].
        rewrite Es in E. inversion E; subst. now apply Hs. }
    destruct (findp_ok (fun w => in_inner_seg g m w v vb) [o0; o1; o2]) as (p & Ep' & Hp).
    { intros w Hw. destruct (in_inner_seg_ok g m w v vb FG) as (b & E & _); eauto. intros y [<-|[<-|[<-|[]]]]; auto. apply Ho; auto. }
    rewrite Ep'. destruct p as [w|].
    { destruct Hp as (Hin & Es). eexists; split; [reflexivity|]. split; [now left|]. split; auto. apply Good.
      - intros y [<-|[]]; auto.
      - repeat constructor; intros [].
      - discriminate.
      - cbn; lia.
      - cbn. right. destruct (in_inner_seg_ok g m w v vb FG) as (b & E & Hs); [intros y [<-|[<-|[<-|[]]]]; auto; apply Ho; auto|].
        rewrite Es in E. inversion E; subst. now apply Hs. }
    apply Skip. intros _ s (x' & Ex' & Is) Ns Vs M. rewrite Ex in Ex'. inversion Ex'; subst x'.
    assert (Is' : incl s [o0; o1; o2]) by (intros y Hy; apply Ov; split; [now apply Is|intros ->; contradiction]).
    pose proof FG as (FP & _). destruct s as [|a [|b [|c [|? ?]]]]; try contradiction.
    - assert (Ha : In a [o0; o1; o2]) by (apply Is'; now left). destruct M as [-> |M]; [apply Nb, Is; now left|].
      specialize (Hp a Ha). cbn beta in Hp. destruct (in_inner_seg_ok g m a v vb FG) as (b & E & Hs); [intros y [<-|[<-|[<-|[]]]]; auto; apply Ho; auto|].
      rewrite Hp in E. inversion E; subst. apply Hs in M. discriminate.
    - assert (Ha : In a [o0; o1; o2]) by (apply Is'; now left). assert (Hc : In b [o0; o1; o2]) by (apply Is'; cbn; auto).
      assert (Nab : a <> b) by (intros ->; inversion Ns; subst; cbn in *; tauto).
      assert (Ask : forall p q, In (p, q) (pairs [o0; o1; o2]) -> meets g v vb [p; q] -> False).
      { intros p q Hpq M'. specialize (He (p, q) Hpq). cbn [fst snd] in He.
        assert (Hp' : In p [o0; o1; o2] /\ In q [o0; o1; o2]) by (cbn in Hpq; destruct Hpq as [Hpq|[Hpq|[Hpq|[]]]]; inversion Hpq; subst; cbn; auto).
        destruct (segs_ok g m v vb p q FG) as (r & E & Hs); [intros y [<-|[<-|[<-|[<-|[]]]]]; auto; apply Ho; tauto|].
        rewrite He in E. inversion E; subst. apply Hs in M'. discriminate. }
      assert (M' : meets g v vb [b; a]) by (apply (FP v vb [a; b]); [constructor|exact M]).
      cbn in Ha, Hc. destruct Ha as [<-|[<-|[<-|[]]]], Hc as [<-|[<-|[<-|[]]]]; try congruence;
        first [refine (Ask _ _ _ M); cbn; solve [auto]|refine (Ask _ _ _ M'); cbn; solve [auto]].
    - assert (P : Permutation [a; b; c] [o0; o1; o2]) by (apply NoDup_Permutation_bis; auto).
      apply (FP v vb _ _ P) in M. apply Hb' in M. discriminate.
  Qed.

  Lemma vert_on_ok v vb prev i : v <> vb -> v < n_points m -> vb < n_points m -> info_ok m i ->
    exists i' r, vert_on_constraint_side g m v vb prev i = Some (m, i', r) /\ info_ok m i' /\
      (forall u, In u (intersected i') <-> In u (intersected i) \/ about_vertex m v u) /\
      match r with
      | Done (t, s) => about_vertex m v t /\ prev <> Some t /\ good_to vb t s /\ ~ In v s /\ meets g v vb s
      | Lost => forall t s, about_vertex m v t -> prev <> Some t -> holds m t s -> NoDup s -> ~ In v s -> ~ meets g v vb s
      | Out => False
      end.
  Proof using L C GL HC PL FG.
    intros Nv Hv Hb I. unfold vert_on_constraint_side.
    destruct (PL v Hv) as (t0 & Et & R0 & x & Ex & Hx). assert (Vx : In v (data x)) by (apply Hx; now left).
    destruct (incident_ok m v L t0 x Et Ex Vx) as (e & E & ND & St & Inc). rewrite E.
    assert (Rl : forall t, In t (t0 :: e) -> real m t /\ holds m t [v]).
    { intros t Ht. destruct (Inc t Ht) as (y & Ey & Vy). split; [|exists y; split; auto; intros z [<-|[]]; auto].
      apply St in Ht. destruct Ht as [|t u _ (x' & y' & j & k & _ & _ & _ & Ey' & H)]; auto. exists y'. auto. }
    assert (Ab : forall t, In t (t0 :: e) <-> about_vertex m v t).
    { intros t. rewrite St. unfold about_vertex. split; [intros H; exists t0; auto|]. intros (t1 & E1 & H). rewrite Et in E1. inversion E1; subst. auto. }
    destruct (push_all_ok m (t0 :: e) i I) as (i' & Ei & I' & Hi); [intros t Ht; apply real_lt, Rl, Ht|]. rewrite Ei.
    destruct (leave_vertex_ok v vb prev (t0 :: e) Nv Hv Hb Rl) as (r & Er & Hr). rewrite Er.
    exists i', r. split; auto. split; auto. split; [intros u; rewrite Hi, Ab; tauto|].
    destruct r as [[t s]| |]; auto; [rewrite Ab in Hr; exact Hr|]. intros t s At. apply Hr. now apply Ab.
  Qed.

  (** * Turning around an edge *)
  Lemma least_period edge : valid m edge -> exists n, 0 < n <= 12 * length (tets m) /\ spin_n m n edge = Some edge /\
    (forall k, 0 < k < n -> spin_n m k edge <> Some edge) /\ forall k, exists j, j < n /\ spin_n m k edge = spin_n m j edge.
  Proof using L C.
    intros V. destruct (spin_period m L C edge V) as (n0 & Hn0 & P0).
    assert (exists n, 0 < n <= 12 * length (tets m) /\ spin_n m n edge = Some edge /\
        forall k, 0 < k < n -> spin_n m k edge <> Some edge) as (n & Hn & P & Min).
    { clear -Hn0 P0.
      assert (G : forall k, (exists n, 0 < n <= k /\ spin_n m n edge = Some edge /\ forall j, 0 < j < n -> spin_n m j edge <> Some edge) \/
                 (forall j, 0 < j <= k -> spin_n m j edge <> Some edge)).
      { induction k as [|k [(n & A & B & D)|H]].
        - right; intros; lia.
        - left. exists n. split; [lia|split; [exact B|exact D]].
        - assert (D : {spin_n m (S k) edge = Some edge} + {spin_n m (S k) edge <> Some edge}) by (repeat decide equality).
          destruct D as [D|D].
          + left. exists (S k). split; [lia|]. split; auto. intros j Hj. apply H. lia.
          + right. intros j Hj. destruct (Nat.eq_dec j (S k)) as [->|]; auto. apply H. lia. }
      destruct (G n0) as [(n & A & B & D)|H]; [exists n; split; [lia|split; [exact B|exact D]]|exfalso; exact (H n0 (conj (proj1 Hn0) (le_n _)) P0)]. }
    exists n. split; auto. split; auto. split; auto.
    induction k as [|k (j & Hj & E)]; [exists 0; split; auto; lia|].
    destruct (Nat.eq_dec (S j) n) as [<-|N].
    - exists 0. split; [lia|]. cbn [spin_n] in *. rewrite E. exact P.
    - exists (S j). split; [lia|]. cbn [spin_n]. now rewrite E.
  Qed.

  Section Turn.
    Variables (edge : triface) (p q c d t0 n : nat).
    Hypothesis K : corners m edge p q c d.
    Hypothesis T0 : tet edge = Some t0.
    Hypothesis Hn : 0 < n <= 12 * length (tets m).
    Hypothesis P : spin_n m n edge = Some edge.
    Hypothesis Min : forall k, 0 < k < n -> spin_n m k edge <> Some edge.

    Lemma same_tet k s : k <= n -> 0 < k -> spin_n m k edge = Some s -> tet_eqb s edge = (k =? n).
    Proof using K P Min T0 L C Hn.
      intros Hk Pk Es. destruct (spin_n_corners m L C k edge p q c d K) as (s' & c1 & d1 & Es' & Ks). rewrite Es in Es'. inversion Es'; subst s'.
      destruct (corners_tet _ _ _ _ _ _ Ks) as (ts & xs & Ts & _). unfold tet_eqb. rewrite Ts, T0.
      destruct (Nat.eqb_spec k n) as [->|N].
      - rewrite P in Es. inversion Es; subst. rewrite T0 in Ts. inversion Ts. apply Nat.eqb_refl.
      - apply Nat.eqb_neq. intros ->. apply (Min k); [lia|]. rewrite Es. f_equal.
        destruct s as [s1 sv], edge as [e1 ev]. cbn in Ts, T0. subst. f_equal. exact (corners_inj m L _ _ _ _ _ _ _ _ _ Ks K).
    Qed.
    Lemma spin_at k : exists s c1 d1 t, spin_n m k edge = Some s /\ corners m s p q c1 d1 /\ tet s = Some t /\ t < length (tets m) /\
      spin_n m (S k) edge = fnext m s.
    Proof using K L C.
      destruct (spin_n_corners m L C k edge p q c d K) as (s & c1 & d1 & Es & Ks).
      destruct (corners_tet _ _ _ _ _ _ Ks) as (t & x & Ts & Ex). exists s, c1, d1, t. split; auto. split; auto. split; auto. split.
      - apply nth_error_Some. congruence.
      - cbn. now rewrite Es.
    Qed.
    Lemma ring_ok fuel : forall k s i, 0 < k <= n -> n < k + fuel -> spin_n m k edge = Some s -> info_ok m i ->
      exists i', ring m edge s i fuel = Some (i', edge) /\ info_ok m i' /\
        forall u, In u (intersected i') <-> In u (intersected i) \/
          (real m u /\ exists j h, k <= j < n /\ spin_n m j edge = Some h /\ tet h = Some u).
    Proof using K P Min T0 L C Hn.
      induction fuel as [|fuel IH]; intros k s i Hk Hf Es I; [lia|]. cbn [ring].
      rewrite (same_tet k s) by (auto; lia). destruct (Nat.eqb_spec k n) as [->|N].
      - rewrite P in Es. inversion Es; subst s. exists i. split; auto. split; auto. intros u. split; auto. intros [|(_ & j & _ & ? & _)]; auto; lia.
      - destruct (spin_at k) as (s' & c1 & d1 & t & Es' & Ks & Ts & Lt & Nx). rewrite Es in Es'. inversion Es'; subst s'.
        rewrite Ts. destruct (hull_test t Lt) as (h & Eh & Hh). rewrite Eh.
        assert (Step : exists i', (if h then Some i else push_new i t) = Some i' /\ info_ok m i' /\
           forall u, In u (intersected i') <-> In u (intersected i) \/ (u = t /\ real m t)).
        { destruct h.
          - exists i. split; auto. split; auto. intros u. split; auto. intros [|(_ & R)]; auto. apply Hh in R. discriminate.
          - destruct (push_new_ok m i t I Lt) as (i' & A & B & D). exists i'. split; auto. split; auto. intros u. rewrite D.
            assert (real m t) by (apply Hh; auto). intuition. }
        destruct Step as (i1 & E1 & I1 & H1). rewrite E1.
        destruct (spin_at (S k)) as (s2 & _ & _ & _ & Es2 & _). rewrite <- Nx, Es2.
        destruct (IH (S k) s2 i1) as (i2 & E2 & I2 & H2); auto; try lia.
        exists i2. split; auto. split; auto. intros u. rewrite H2, H1. split.
        + intros [[?|(-> & R)]|(R & j & h' & Hj & A)]; auto.
          * right. split; auto. exists k, s. split; [lia|auto].
          * right. split; auto. exists j, h'. split; [lia|auto].
        + intros [?|(R & j & h' & Hj & A & B)]; auto. destruct (Nat.eq_dec j k) as [->|].
          * left. right. rewrite Es in A. inversion A; subst h'. rewrite Ts in B. inversion B; subst. auto.
          * right. split; auto. exists j, h'. split; [lia|auto].
    Qed.
    Lemma around_edge_iff t : about_edge m t0 p q t <-> (real m t /\ exists j h, j < n /\ spin_n m j edge = Some h /\ tet h = Some t).
    Proof using K P Min T0 L C Hn.
      unfold about_edge. split.
      - intros (R & f & h & c1 & d1 & Tf & Kf & A & Th). split; auto.
        assert (f = edge).
        { destruct f as [f1 fv], edge as [e1 ev]. cbn in Tf, T0. subst. f_equal. exact (corners_inj m L _ _ _ _ _ _ _ _ _ Kf K). }
        subst f. apply around_spin_n in A. destruct A as (k & Ek).
        destruct (least_period edge (corners_valid m _ _ _ _ _ K)) as (n' & Hn' & P' & Min' & Mod).
        assert (n' = n).
        { destruct (lt_eq_lt_dec n n') as [[H|H]|H]; auto; exfalso; [apply (Min' n)|apply (Min n')]; auto; lia. }
        subst n'. destruct (Mod k) as (j & Hj & Ej). exists j, h. rewrite <- Ej. auto.
      - intros (R & j & h & Hj & Ej & Th). split; auto. exists edge, h, c, d. split; auto. split; auto. split; auto. eapply spin_n_around; eauto.
    Qed.
  End Turn.

  (** The tests in one tetrahedron at the edge. *)
  Lemma leave_in_ok t f ea eb p q c d : real m t -> tet f = Some t -> corners m f p q c d -> ea < n_points m -> eb < n_points m ->
    eb <> p -> eb <> q ->
    exists r, leave_in g m ea eb p q c d = Some r /\
      match r with
      | Some s => good_to eb t s /\ meets g ea eb s /\ beyond_edge g ea eb p q s
      | None => forall s, holds m t s -> NoDup s -> meets g ea eb s -> ~ beyond_edge g ea eb p q s
      end.
  Proof using L C GL HC FG.
    intros R Tf K Ha Hb Np Nq. destruct (corners_in' f p q c d K) as (t' & x & Tf' & Ex & Cx & ND). rewrite Tf in Tf'. inversion Tf'; subst t'.
    assert (RV : forall y, In y (data x) -> y < n_points m) by (intros; eapply real_vertex; eauto).
    assert (Hp : p < n_points m /\ q < n_points m /\ c < n_points m /\ d < n_points m)
      by (repeat split; apply RV, Cx; auto).
    destruct Hp as (Rp & Rq & Rc & Rd).
    assert (N : p <> q /\ p <> c /\ p <> d /\ q <> c /\ q <> d /\ c <> d)
      by (clear -ND; repeat match goal with H : NoDup (_ :: _) |- _ => inversion H; clear H; subst end; cbn [In] in *; intuition congruence).
    clear ND. destruct N as (N1 & N2 & N3 & N4 & N5 & N6).
    unfold leave_in.
    assert (Good : forall s, incl s [p; q; c; d] -> NoDup s -> s <> [] -> length s <= 3 -> (In eb s -> s = [eb]) ->
       meets g ea eb s -> beyond_edge g ea eb p q s ->
       good_to eb t s /\ meets g ea eb s /\ beyond_edge g ea eb p q s).
    { intros s Is Ns Zs Ls Bs Ms Bd. split; [|auto].
      split; auto. split; [exists x; split; auto; intros y Hy; apply Cx; specialize (Is y Hy); cbn in Is; intuition|].
      split; auto. split; auto. split; auto. split; auto.
      destruct s as [|a [|b' [|c' [|? ?]]]]; try (apply open_small; cbn; lia); [|cbn in Ls; lia].
      apply (open_by_geometry t a b' c' ea eb R Ha Hb Ms). }
    Ltac fin := first [ discriminate | solve [ cbn; lia ] | solve [ intros y; cbn; intuition congruence ]
      | solve [ repeat constructor; cbn; intuition congruence ] | solve [ cbn [In]; intuition congruence ] | solve [ cbn; auto ] ].
    destruct ((c =? eb) || (d =? eb)) eqn:E1.
    { eexists; split; [reflexivity|]. apply orb_true_iff in E1. rewrite !Nat.eqb_eq in E1.
      apply Good; fin. }
    apply orb_false_iff in E1. rewrite !Nat.eqb_neq in E1. destruct E1 as (Nc & Nd).
    assert (In4 : forall l y, In y l -> incl l [ea; eb; p; q; c; d] -> y < n_points m).
    { intros l y Hy Hl. apply Hl in Hy. cbn in Hy. intuition congruence. }
    Ltac nin := cbn [In]; intuition congruence.
    Ltac in4 m := intros ? ?; match goal with X : forall l y, In y l -> incl l _ -> y < n_points m |- _ => eapply X; [eassumption|] end; intros ?; cbn [In]; tauto.
    destruct (andp_ok _ _ _ _ (seg_tri_ok g m ea eb c d p FG ltac:(in4 m)) (half_space_ok g m q ea c d p ltac:(in4 m))) as (b1 & E1 & H1). rewrite E1.
    destruct b1.
    { destruct (proj1 H1 eq_refl) as (M & S). eexists; split; [reflexivity|]. apply Good; fin. }
    destruct (andp_ok _ _ _ _ (seg_tri_ok g m ea eb c d q FG ltac:(in4 m)) (half_space_ok g m p ea c d q ltac:(in4 m))) as (b2 & E2 & H2). rewrite E2.
    destruct b2.
    { destruct (proj1 H2 eq_refl) as (M & S). eexists; split; [reflexivity|]. apply Good; fin. }
    destruct (andp_ok _ _ _ _ (segs_ok g m ea eb c d FG ltac:(in4 m)) (half_space_ok g m ea p c d q ltac:(in4 m))) as (b3 & E3 & H3). rewrite E3.
    destruct b3.
    { destruct (proj1 H3 eq_refl) as (M & S). eexists; split; [reflexivity|]. apply Good; fin. }
    destruct (andp_ok _ _ _ _ (in_inner_seg_ok g m c ea eb FG ltac:(in4 m)) (half_plane_ok g m c eb p q ltac:(nin) ltac:(nin) ltac:(in4 m))) as (b4 & E4 & H4). rewrite E4.
    destruct b4.
    { destruct (proj1 H4 eq_refl) as (M & S). eexists; split; [reflexivity|]. apply Good; fin. }
    destruct (andp_ok _ _ _ _ (in_inner_seg_ok g m d ea eb FG ltac:(in4 m)) (half_plane_ok g m d eb p q ltac:(nin) ltac:(nin) ltac:(in4 m))) as (b5 & E5 & H5). rewrite E5.
    destruct b5.
    { destruct (proj1 H5 eq_refl) as (M & S). eexists; split; [reflexivity|]. apply Good; fin. }
    set (F := fun e => andp (segs g m ea eb (fst e) (snd e)) (half_plane g m (snd e) eb p q)).
    assert (HF : forall e, In e [(p, c); (p, d); (q, c); (q, d)] -> exists b, F e = Some b /\
       (b = true <-> g_segs g ea eb (fst e) (snd e) = true /\ g_half g (snd e) eb p q = true)).
    { intros e He. unfold F. apply andp_ok; [apply segs_ok; [exact FG|]|apply half_plane_ok];
      destruct He as [<-|[<-|[<-|[<-|[]]]]]; cbn [fst snd]; solve [nin|in4 m]. }
    destruct (findp_ok F [(p, c); (p, d); (q, c); (q, d)]) as (e & Ee & He); [intros e Hin; destruct (HF e Hin) as (b & Eb & _); eauto|].
    fold F. rewrite Ee. eexists; split; [reflexivity|]. destruct e as [[u w]|]; cbn [option_map].
    - destruct He as (Hin & EF). destruct (HF _ Hin) as (b & Eb & Hb'). rewrite EF in Eb. inversion Eb; subst b.
      destruct (proj1 Hb' eq_refl) as (M & S). cbn [fst snd] in *.
      assert (U : (u = p \/ u = q) /\ (w = c \/ w = d)) by (cbn in Hin; intuition congruence).
      destruct U as (U & W). apply Good.
      + intros y; cbn. intuition congruence.
      + repeat constructor; cbn; intuition congruence.
      + discriminate.
      + cbn; lia.
      + cbn [In]. intuition congruence.
      + exact M.
      + cbn [beyond_edge]. split; [cbn [In]; intuition congruence|]. left. cbn [In]. intuition.
    - intros s (x' & Ex' & Is) Ns M B. rewrite Ex in Ex'. inversion Ex'; subst x'.
      assert (Is' : forall y, In y s -> ~ In y [p; q] -> y = c \/ y = d) by (intros y Hy Ny; apply Is, Cx in Hy; cbn [In] in Ny; intuition congruence).
      pose proof FG as (FP & FS & _). destruct s as [|a [|b [|w [|? ?]]]]; try contradiction.
      + destruct B as (Na & B). destruct (Is' a ltac:(now left) Na) as [-> | ->].
        * assert (false = true); [|discriminate]. apply H4. destruct M as [M|M]; [congruence|]. destruct B as [B|B]; [congruence|]. auto.
        * assert (false = true); [|discriminate]. apply H5. destruct M as [M|M]; [congruence|]. destruct B as [B|B]; [congruence|]. auto.
      + destruct B as (Nb & B). assert (Hb' := Is' b ltac:(cbn; auto) Nb). destruct B as [(Ia & B)|(Na & B)].
        * assert (Hin : In (a, b) [(p, c); (p, d); (q, c); (q, d)]) by (cbn in Ia |- *; intuition congruence).
          pose proof (He _ Hin) as E. destruct (HF _ Hin) as (r & Er & Hr). rewrite E in Er. inversion Er; subst r.
          assert (false = true); [|discriminate]. apply Hr. auto.
        * assert (Ha' := Is' a ltac:(cbn; auto) Na). assert (a <> b) by (intros ->; inversion Ns; subst; cbn in *; tauto).
          assert (false = true); [|discriminate]. apply H3.
          assert (K' : (a = c /\ b = d) \/ (a = d /\ b = c)) by (intuition congruence).
          destruct K' as [(-> & ->)|(-> & ->)]; [auto|]. split; [exact (FP ea eb [d; c] [c; d] (perm_swap _ _ _) M)|now apply FS].
      + destruct B as (Na & Nb & B). assert (Ha' := Is' a ltac:(cbn; auto) Na). assert (Hb' := Is' b ltac:(cbn; auto) Nb).
        assert (a <> b) by (intros ->; inversion Ns; subst; cbn in *; tauto).
        assert (K' : (a = c /\ b = d) \/ (a = d /\ b = c)) by (intuition congruence).
        assert (M' : meets g ea eb [c; d; w]) by (destruct K' as [(-> & ->)|(-> & ->)]; [exact M|exact (FP ea eb [d; c; w] [c; d; w] (perm_swap _ _ _) M)]).
        assert (B' : (w = p /\ same_side g q ea c d p) \/ (w = q /\ same_side g p ea c d q)).
        { destruct K' as [(-> & ->)|(-> & ->)]; [exact B|]. destruct B as [(? & B)|(? & B)]; [left|right]; (split; [auto|now apply FS]). }
        assert (false = true); [|discriminate]. destruct B' as [(-> & B')|(-> & B')]; [apply H1|apply H2]; auto.
  Qed.

  Lemma leave_edge_ok edge p q c d t0 n ea eb : corners m edge p q c d -> tet edge = Some t0 -> 0 < n <= 12 * length (tets m) ->
    spin_n m n edge = Some edge -> (forall k, 0 < k < n -> spin_n m k edge <> Some edge) ->
    ea < n_points m -> eb < n_points m -> eb <> p -> eb <> q ->
    forall fuel k s, 0 < k <= n -> n < k + fuel -> spin_n m k edge = Some s ->
    exists r, leave_edge g m edge s ea eb p q (Some t0) fuel = Some r /\
      match r with
      | Done (t, s) => about_edge m t0 p q t /\ t <> t0 /\ good_to eb t s /\ meets g ea eb s /\ beyond_edge g ea eb p q s
      | Lost => forall j h t s, k <= j < n -> spin_n m j edge = Some h -> tet h = Some t -> real m t -> t <> t0 ->
          holds m t s -> NoDup s -> meets g ea eb s -> ~ beyond_edge g ea eb p q s
      | Out => False
      end.
  Proof using L C GL HC FG.
    intros K T0 Hn P Min Ha Hb Np Nq. induction fuel as [|fuel IH]; intros k s Hk Hf Es; [lia|]. cbn [leave_edge].
    rewrite (same_tet edge p q c d t0 n K T0 Hn P Min k s) by (auto; lia). destruct (Nat.eqb_spec k n) as [->|N]; [eexists; split; [reflexivity|intros j h t s9 Hj; exfalso; clear -Hj; lia]|].
    destruct (spin_at edge p q c d K k) as (s' & c1 & d1 & t & Es' & Ks & Ts & Lt & Nx). rewrite Es in Es'. inversion Es'; subst s'.
    assert (Next : (real m t -> t <> t0 -> forall s, holds m t s -> NoDup s -> meets g ea eb s -> ~ beyond_edge g ea eb p q s) -> exists r, (s' <- fnext m s ;; leave_edge g m edge s' ea eb p q (Some t0) fuel) = Some r /\
      match r with
      | Done (t, s) => about_edge m t0 p q t /\ t <> t0 /\ good_to eb t s /\ meets g ea eb s /\ beyond_edge g ea eb p q s
      | Lost => forall j h t s, k <= j < n -> spin_n m j edge = Some h -> tet h = Some t -> real m t -> t <> t0 ->
          holds m t s -> NoDup s -> meets g ea eb s -> ~ beyond_edge g ea eb p q s
      | Out => False
      end).
    { destruct (spin_at edge p q c d K (S k)) as (s2 & _ & _ & _ & Es2 & _). rewrite <- Nx, Es2. intros None'.
      destruct (IH (S k) s2) as (r & Er & Hr); auto; try lia. exists r. split; auto. destruct r as [[t' s']| |]; auto.
      intros j h t' s' Hj Ej Th. destruct (Nat.eq_dec j k) as [->|Njk]; [|apply (Hr j h); auto; lia].
      rewrite Es in Ej. inversion Ej; subst h. rewrite Ts in Th. inversion Th; subst t'. intros R Nt. exact (None' R Nt s'). }
    rewrite Ts. destruct (hull_test t Lt) as (h & Eh & Hh). rewrite Eh.
    destruct (t =? t0) eqn:Et; cbn [orb]; [apply Nat.eqb_eq in Et; apply Next; intros; contradiction|].
    destruct h; [apply Next; intros R; apply Hh in R; discriminate|].
    assert (R : real m t) by (apply Hh; auto). apply Nat.eqb_neq in Et.
    pose proof Ks as (_ & _ & Ka & Ko). rewrite Ka, Ko.
    destruct (leave_in_ok t s ea eb p q c1 d1 R Ts Ks Ha Hb Np Nq) as (r & Er & Hr). rewrite Er.
    destruct r as [s'|]; [|apply Next; intros _ _; exact Hr]. eexists; split; [reflexivity|]. split; [|auto].
    apply (around_edge_iff edge p q c d t0 n K T0 Hn P Min). split; auto. exists k, s. split; [lia|auto].
  Qed.

  Lemma edge_cross_ok edge p q c d t0 ea eb i : corners m edge p q c d -> tet edge = Some t0 -> real m t0 ->
    ea < n_points m -> eb < n_points m -> eb <> p -> eb <> q -> info_ok m i -> In t0 (intersected i) ->
    exists i' r, edge_cross_constraint_side g m edge ea eb (Some t0) i = Some (i', r) /\ info_ok m i' /\
      (forall u, In u (intersected i') <-> In u (intersected i) \/ about_edge m t0 p q u) /\
      match r with
      | Done (t, s) => about_edge m t0 p q t /\ t <> t0 /\ good_to eb t s /\ meets g ea eb s /\ beyond_edge g ea eb p q s
      | Lost => forall t s, about_edge m t0 p q t -> t <> t0 -> holds m t s -> NoDup s -> meets g ea eb s -> ~ beyond_edge g ea eb p q s
      | Out => False
      end.
  Proof using L C GL HC FG.
    intros K T0 R0 Ha Hb Np Nq I It.
    destruct (least_period edge (corners_valid m _ _ _ _ _ K)) as (n & Hn & P & Min & _).
    unfold edge_cross_constraint_side.
    destruct (spin_at edge p q c d K 1) as (s1 & _ & _ & _ & E1 & _). assert (F1 : fnext m edge = Some s1) by exact E1. rewrite F1.
    destruct (ring_ok edge p q c d t0 n K T0 Hn P Min (S (12 * length (tets m))) 1 s1 i) as (i' & Ei & I' & Hi); auto; try lia.
    rewrite Ei, F1. pose proof K as (Ko & Kd & _). rewrite Ko, Kd.
    destruct (leave_edge_ok edge p q c d t0 n ea eb K T0 Hn P Min Ha Hb Np Nq (S (12 * length (tets m))) 1 s1) as (r & Er & Hr); auto; try lia.
    rewrite Er. exists i', r. split; auto. split; auto. split.
    2: { destruct r as [[t s]| |]; auto. intros t s A Nt. apply (around_edge_iff edge p q c d t0 n K T0 Hn P Min) in A. destruct A as (R & j & h & Hj & Ej & Th).
      apply (Hr j h t s); auto. split; auto. destruct j as [|j]; [|lia]. cbn in Ej. inversion Ej; subst h. congruence. }
    intros u. rewrite Hi, (around_edge_iff edge p q c d t0 n K T0 Hn P Min). split.
    - intros [?|(R & j & h & Hj & A)]; auto. right. split; auto. exists j, h. split; [lia|auto].
    - intros [?|(R & j & h & Hj & A & B)]; auto. destruct j as [|j].
      + cbn in A. inversion A; subst. rewrite T0 in B. inversion B; subst. auto.
      + right. split; auto. exists (S j), h. split; [lia|auto].
  Qed.

  (** * Through a face *)
  Lemma other_tet f a b c d h : corners m f a b c d -> fsym m f = Some h -> exists t u e, tet f = Some t /\ tet h = Some u /\
    t <> u /\ u < length (tets m) /\ corners m h b a c e.
  Proof using L C.
    intros K F. destruct (corners_valid m _ _ _ _ _ K) as (t & T & Lt & V). destruct f as [ft v]. cbn in T, V. subst ft.
    destruct (C t v a b c d Lt V K) as (u & w & e & F' & Lu & W & _ & K'). rewrite F in F'. inversion F'; subst h.
    exists t, u, e. split; auto. split; auto.
    assert (G : t <> u).
    { intros ->. destruct (corners_moves m _ _ _ _ _ K') as (_ & _ & (f1 & _ & T1 & K1) & _).
      (* esym of the version in the same tetrahedron: a, b, e, c *)
      destruct f1 as [f1 w1]. cbn in T1. subst f1. pose proof (corners_inj m L _ _ _ _ _ _ _ _ _ K K1) as ->.
      destruct (corners_fun m _ _ _ _ _ _ _ _ _ K K1) as (_ & _ & -> & _).
      destruct (corners_in' _ _ _ _ _ K') as (_ & _ & _ & _ & _ & ND).
      repeat match goal with H : NoDup (_ :: _) |- _ => inversion H; clear H; subst end. cbn [In] in *. intuition. }
    repeat split; auto; apply K'.
  Qed.
  Lemma nei_fsym f a b c d : corners m f a b c d -> exists nf h u e, nei_at m (tet f) (Nat.land (ver f) 3) = Some nf /\ fsym m f = Some h /\
    tet nf = Some u /\ tet h = Some u /\ u < length (tets m) /\ tet f <> Some u /\ corners m h b a c e /\ oppo m nf = Some e.
  Proof using L C.
    intros K. destruct (corners_valid m _ _ _ _ _ K) as (t & T & Lt & V). destruct f as [ft v]. cbn [tet ver] in *. subst ft.
    destruct (C t v a b c d Lt V K) as (u & w & e & F & Lu & W & _ & K').
    destruct (other_tet _ _ _ _ _ _ K F) as (t' & u' & e' & T' & U' & N & _). cbn in T', U'. inversion T'; inversion U'; subst t' u'.
    pose proof F as F0. unfold fsym in F0. cbn [tet ver] in F0. destruct (nei_at m (Some t) (Nat.land v 3)) as [nf|] eqn:En; [|discriminate].
    destruct (look2 FSYM_TBL v (ver nf)) as [w'|] eqn:El; [|discriminate]. inversion F0; subst w'.
    assert (Wn : ver nf < 12) by (apply (nei_ver m L C (TF (Some t) v) (Nat.land v 3) nf); [exists t; auto|exact En]).
    exists nf, (TF (Some u) w), u, e. split; auto. split; auto. split; auto. split; auto. split; auto. split; [congruence|]. split; auto.
    destruct K' as (_ & _ & _ & Ko). unfold oppo, pivot in *. cbn [tet ver] in Ko. replace (tet nf) with (Some u).
    assert (Eq : look OPPO_PIVOT (ver nf) = look OPPO_PIVOT w).
    { clear -V W Wn El.
      assert (G : forallb (fun v => forallb (fun j => match look2 FSYM_TBL v j with Some w => nth j OPPO_PIVOT 4 =? nth w OPPO_PIVOT 5 | None => false end)
         (seq 0 12)) (seq 0 12) = true) by (vm_compute; reflexivity).
      rewrite forallb_forall in G. specialize (G v (proj2 (in_seq 12 0 v) (conj (Nat.le_0_l v) V))).
      rewrite forallb_forall in G. specialize (G (ver nf) (proj2 (in_seq 12 0 (ver nf)) (conj (Nat.le_0_l (ver nf)) Wn))).
      rewrite El in G. apply Nat.eqb_eq in G. unfold look.
      destruct (nth_error OPPO_PIVOT (ver nf)) eqn:E1; [|apply nth_error_None in E1; cbn in E1; lia].
      destruct (nth_error OPPO_PIVOT w) eqn:E2; [|apply nth_error_None in E2; cbn in E2; lia].
      apply nth_error_nth with (d := 4) in E1. apply nth_error_nth with (d := 5) in E2. congruence. }
    rewrite Eq. exact Ko.
  Qed.

  Lemma pierced_ok tri a b c d ea eb i t0 : corners m tri a b c d -> tet tri = Some t0 -> real m t0 ->
    (forall h u, fsym m tri = Some h -> tet h = Some u -> real m u) ->
    ea < n_points m -> eb < n_points m -> ~ In eb [a; b; c] -> info_ok m i -> In t0 (intersected i) ->
    exists i' t s, triangle_pierced_by_constraint_side g m tri ea eb i = Some (i', (t, s)) /\ info_ok m i' /\
      (exists h, fsym m tri = Some h /\ tet h = Some t) /\
      (forall u, In u (intersected i') <-> In u (intersected i) \/ u = t) /\
      t <> t0 /\ good_to eb t s /\ exists w, In w s /\ ~ In w [a; b; c] /\ (meets g ea eb s \/
        s = [w] /\ forall s2, holds m t s2 -> NoDup s2 -> 2 <= length s2 -> In w s2 -> ~ meets g ea eb s2).
  Proof using L C GL HC FG.
    intros K T0 R0 Op Ha Hb Nb I It. unfold triangle_pierced_by_constraint_side.
    destruct (nei_fsym tri a b c d K) as (nf & h & u & w & En & F & Tn & Th & Lu & Nu & Kh & Ow). rewrite En, Tn.
    destruct (push_new_ok m i u I Lu) as (i' & Ei & I' & Hi). rewrite Ei, Ow.
    assert (R : real m u) by (eapply Op; eauto).
    assert (Fh : exists h, fsym m tri = Some h /\ tet h = Some u) by eauto.
    destruct (corners_in' h b a c w Kh) as (u' & x & Th' & Ex & Cx & ND). rewrite Th in Th'. inversion Th'; subst u'.
    assert (N : b <> a /\ b <> c /\ b <> w /\ a <> c /\ a <> w /\ c <> w)
      by (clear -ND; repeat match goal with H : NoDup (_ :: _) |- _ => inversion H; clear H; subst end; cbn [In] in *; intuition congruence).
    clear ND. destruct N as (N1 & N2 & N3 & N4 & N5 & N6).
    assert (RV : forall y, In y (data x) -> y < n_points m) by (intros; eapply real_vertex; eauto).
    assert (Ra : a < n_points m /\ b < n_points m /\ c < n_points m /\ w < n_points m) by (repeat split; apply RV, Cx; auto).
    destruct Ra as (Ra & Rb & Rc & Rw).
    assert (Good : forall s, incl s [a; b; c; w] -> In w s -> NoDup s -> s <> [] -> length s <= 3 -> (In eb s -> s = [eb]) ->
       (meets g ea eb s \/ s = [w] /\ forall s2, holds m u s2 -> NoDup s2 -> 2 <= length s2 -> In w s2 -> ~ meets g ea eb s2) ->
       u <> t0 /\ good_to eb u s /\ exists w, In w s /\ ~ In w [a; b; c] /\ (meets g ea eb s \/
        s = [w] /\ forall s2, holds m u s2 -> NoDup s2 -> 2 <= length s2 -> In w s2 -> ~ meets g ea eb s2)).
    { intros s Is Iw Ns Zs Ls Bs Ms. split; [congruence|]. split; [|exists w; split; [exact Iw|split; [cbn [In]; intuition congruence|exact Ms]]].
      split; auto. split; [exists x; split; auto; intros y Hy; apply Cx; specialize (Is y Hy); cbn in Is; intuition|].
      split; auto. split; auto. split; auto. split; auto.
      destruct s as [|p [|p' [|p'' [|? ?]]]]; try (apply open_small; cbn; lia); [|cbn in Ls; lia].
      destruct Ms as [Ms|(E & _)]; [|discriminate]. apply (open_by_geometry u p p' p'' ea eb R Ha Hb Ms). }
    destruct (Nat.eqb_spec w eb) as [->|Nw].
    { exists i', u, [eb]. split; auto. split; auto. split; auto. split; auto. apply Good; try discriminate; cbn; auto.
      - intros y; cbn; tauto.
      - repeat constructor; intros []. }
    cbn [In] in Nb.
    assert (Faces : exists r tri', pierced_faces g m ea eb w tri 3 = Some (r, tri') /\
      match r with
      | Some s => exists p q, s = [p; q; w] /\ In p [a; b; c] /\ In q [a; b; c] /\ p <> q /\ g_seg_tri g ea eb p q w = true
      | None => corners m tri' a b c d /\ g_seg_tri g ea eb a b w <> true /\ g_seg_tri g ea eb b c w <> true /\ g_seg_tri g ea eb c a w <> true
      end).
    { assert (St : forall p q, In p [a; b; c] -> In q [a; b; c] -> exists r, seg_tri g m ea eb p q w = Some r /\ (r = true <-> g_seg_tri g ea eb p q w = true)).
      { intros p q Hp Hq. apply (seg_tri_ok _ _ _ _ _ _ _ FG). cbn [In] in *. intuition congruence. }
      cbn [pierced_faces]. pose proof K as (A1 & A2 & _). rewrite A1, A2.
      destruct (St a b) as (r1 & E1 & S1); try (cbn; tauto). rewrite E1. destruct r1.
      { eexists; eexists; split; [reflexivity|]. exists a, b. apply proj1 in S1. specialize (S1 eq_refl). cbn. intuition congruence. }
      destruct (corners_moves m tri a b c d K) as ((t1 & M1 & _ & K1) & _). rewrite M1.
      pose proof K1 as (B1 & B2 & _). rewrite B1, B2.
      destruct (St b c) as (r2 & E2 & S2); try (cbn; tauto). rewrite E2. destruct r2.
      { eexists; eexists; split; [reflexivity|]. exists b, c. apply proj1 in S2. specialize (S2 eq_refl). cbn. intuition congruence. }
      destruct (corners_moves m t1 b c a d K1) as ((t2 & M2 & _ & K2) & _). rewrite M2.
      pose proof K2 as (D1 & D2 & _). rewrite D1, D2.
      destruct (St c a) as (r3 & E3 & S3); try (cbn; tauto). rewrite E3. destruct r3.
      { eexists; eexists; split; [reflexivity|]. exists c, a. apply proj1 in S3. specialize (S3 eq_refl). cbn. intuition congruence. }
      destruct (corners_moves m t2 c a b d K2) as ((t3 & M3 & _ & K3) & _). rewrite M3.
      eexists; eexists; split; [reflexivity|]. split; [exact K3|]. rewrite <- S1, <- S2, <- S3. repeat split; discriminate. }
    destruct Faces as (r & tri' & Er & Hr). rewrite Er. destruct r as [s|].
    { destruct Hr as (p & q & -> & Hp & Hq & Npq & S). exists i', u, [p; q; w]. split; auto. split; auto. split; auto. split; auto.
      cbn [In] in Hp, Hq. apply Good; try discriminate; cbn [In]; auto.
      - intros y; cbn [In]. intuition congruence.
      - repeat constructor; cbn [In]; intuition congruence.
      - intuition congruence. }
    destruct Hr as (Hr & F1 & F2 & F3). pose proof Hr as (A1 & A2 & A3 & _). rewrite A1, A2, A3.
    destruct (findp_ok (fun v => segs g m ea eb v w) [a; b; c]) as (e & Ee & He).
    { intros v Hv. destruct (segs_ok g m ea eb v w FG) as (b' & E & _); eauto. cbn [In] in *. intuition congruence. }
    rewrite Ee. destruct e as [v|].
    - destruct He as (Hv & Es). destruct (segs_ok g m ea eb v w FG) as (b' & E & Hs); [cbn [In] in *; intuition congruence|].
      rewrite Es in E. inversion E; subst b'. exists i', u, [v; w]. split; auto. split; auto. split; auto. split; auto.
      cbn [In] in Hv. apply Good; try discriminate; cbn [In]; auto.
      + intros y; cbn [In]. intuition congruence.
      + repeat constructor; cbn [In]; intuition congruence.
      + intuition congruence.
      + left. exact (proj1 Hs eq_refl).
    - exists i', u, [w]. split; auto. split; auto. split; auto. split; auto. apply Good; try discriminate; cbn [In]; auto.
      + intros y; cbn [In]. intuition congruence.
      + repeat constructor; intros [].
      + intuition congruence.
      + right. split; auto. intros s2 (x' & Ex' & Is) Ns L2 Iw M. rewrite Ex in Ex'. inversion Ex'; subst x'.
        assert (Is' : forall y, In y s2 -> y <> w -> In y [a; b; c]) by (intros y Hy Ny; apply Is, Cx in Hy; cbn [In]; intuition congruence).
        pose proof FG as (FP & _). destruct (in_split _ _ Iw) as (l1 & l2 & El).
        assert (P : Permutation s2 (l1 ++ l2 ++ [w])) by (rewrite El; apply Permutation_app_head, Permutation_cons_append).
        apply (FP _ _ _ _ P) in M. rewrite app_assoc in M.
        assert (Nl : NoDup (l1 ++ l2) /\ ~ In w (l1 ++ l2)) by (rewrite El in Ns; split; [eapply NoDup_remove_1|eapply NoDup_remove_2]; eauto).
        destruct Nl as (Nl & Nw').
        assert (Il : incl (l1 ++ l2) [a; b; c]).
        { intros y Hy. apply Is'; [|intros ->; contradiction]. rewrite El. apply in_app_or in Hy. apply in_or_app. cbn. tauto. }
        assert (Ll : length s2 = S (length (l1 ++ l2))) by (rewrite El, !app_length; cbn; lia).
        destruct (l1 ++ l2) as [|p [|q [|? [|? ?]]]]; cbn in Ll; try lia; try contradiction.
        * assert (Hp : In p [a; b; c]) by (apply Il; now left). specialize (He p Hp). cbn beta in He.
          destruct (segs_ok g m ea eb p w FG) as (r & E & Hs); [cbn [In] in *; intuition congruence|]. rewrite He in E. inversion E; subst r.
          apply Hs in M. discriminate.
        * assert (Hp : In p [a; b; c]) by (apply Il; now left). assert (Hq : In q [a; b; c]) by (apply Il; cbn; auto).
          assert (Npq : p <> q) by (intros ->; inversion Nl; subst; cbn in *; tauto).
          assert (M' : meets g ea eb [q; p; w]) by exact (FP ea eb [p; q; w] [q; p; w] (perm_swap _ _ _) M).
          cbn [meets app] in M, M'. cbn [In] in Hp, Hq. destruct Hp as [<-|[<-|[<-|[]]]], Hq as [<-|[<-|[<-|[]]]]; congruence.
  Qed.

  (** * One turn of the loop *)
  Lemma corners_tet_eq f h a b c d d' : tet f = tet h -> corners m f a b c d -> corners m h a b c d' -> f = h.
  Proof using L.
    intros E K K'. destruct (corners_tet _ _ _ _ _ _ K) as (t & x & T & _). destruct f as [f1 v], h as [h1 w]. cbn in E, T. subst.
    f_equal. exact (corners_inj m L _ _ _ _ _ _ _ _ _ K K').
  Qed.
  Lemma no_flip f h a b c d d' : tet f = tet h -> corners m f a b c d -> corners m h a c b d' -> False.
  Proof using L.
    intros E K K'. destruct (corners_in' f a b c d K) as (t & x & T & Ex & Cx & ND).
    assert (T' : tet h = Some t) by congruence.
    destruct f as [f1 v], h as [h1 w]. cbn in T, T'. subst.
    assert (d' = d).
    { destruct (corners_in t w x a c b d' Ex K') as (Cx' & ND'). assert (In d (data x)) by (apply Cx; auto).
      apply Cx' in H. repeat match goal with H : NoDup (_ :: _) |- _ => inversion H; clear H; subst end. cbn [In] in *. intuition congruence. }
    subst d'.
    (* with (a, c, b, d) also (a, b, d, c) is a version, which differs in the apex *)
    destruct (corners_moves m _ _ _ _ _ K') as (_ & _ & _ & _ & (f1 & _ & T1 & K1)). destruct f1 as [f1 w1]. cbn in T1. subst f1.
    pose proof (corners_inj m L _ _ _ _ _ _ _ _ _ K K1) as ->. destruct (corners_fun m _ _ _ _ _ _ _ _ _ K K1) as (_ & _ & -> & _).
    repeat match goal with H : NoDup (_ :: _) |- _ => inversion H; clear H; subst end. cbn [In] in *. intuition.
  Qed.

  Lemma side_step_ok va vb t s i : va < n_points m -> vb < n_points m -> good_to vb t s -> ~ In vb s -> info_ok m i -> In t (intersected i) ->
    exists i' r, side_step g m va vb t s i = Some (m, i', r) /\ info_ok m i' /\
      (forall u, In u (intersected i') <-> In u (intersected i) \/ about m t s u) /\
      match r with
      | Done (t', s') => moves g m va vb t s t' s' /\ t' <> t /\ good_to vb t' s' /\ In t' (intersected i')
      | Lost => forall t' s', t' <> t -> ~ moves g m va vb t s t' s'
      | Out => False
      end.
  Proof using L C GL HC PL FG.
    intros Ha Hb (R & Hd & ND & Z & Ls & _ & Op) Nb I It. pose proof Hd as (x & Ex & Ix).
    assert (RV : forall y, In y (data x) -> y < n_points m) by (intros; eapply real_vertex; eauto).
    destruct s as [|c0 [|c1 [|c2 [|? ?]]]]; [congruence| | | |cbn in Ls; lia].
    - cbn [side_step]. cbn [In] in Nb.
      destruct (vert_on_ok c0 vb (Some t) i) as (i' & r & E & I' & Hi & Hr); auto; [apply RV, Ix; now left|].
      exists i', r. split; auto. split; auto. split; [exact Hi|].
      destruct r as [[t' s']| |]; auto; [|intros t' s' Nt (A & _ & H' & N' & Nv & M); apply (Hr t' s'); auto; congruence].
      destruct Hr as (A & P & G & Nv & M). split; [|split; [intros ->; now apply P|split; [exact G|apply Hi; auto]]].
      destruct G as (R' & H' & N' & _). split; [exact A|]. auto 6.
    - cbn [side_step]. destruct (at_vertex_ok t x c0) as (f & a & b & c & Ef & Tf & Kf); [exact Ex|apply Ix; now left|]. rewrite Ef.
      assert (c0 <> c1) by (intros ->; inversion ND; subst; cbn in *; tauto).
      destruct (turn_edge_ok t x f c0 c1 Ex Tf) as (e & c' & d' & Ee & Te & Ke); eauto; [apply Ix; cbn; auto|]. rewrite Ee.
      cbn [In] in Nb.
      destruct (edge_cross_ok e c0 c1 c' d' t va vb i) as (i' & r & E & I' & Hi & Hr); auto. rewrite E.
      exists i', r. split; auto. split; auto. split; [exact Hi|].
      destruct r as [[t' s']| |]; auto; [|intros t' s' Nt (A & _ & H' & N' & M & B); apply (Hr t' s'); auto].
      destruct Hr as (A & P & G & M & B). split; [|split; [auto|split; [exact G|apply Hi; auto]]].
      destruct G as (R' & H' & N' & _). split; [exact A|]. auto 8.
    - cbn [side_step]. destruct (at_vertex_ok t x c0) as (f & a & b & c & Ef & Tf & Kf); [exact Ex|apply Ix; now left|]. rewrite Ef.
      destruct (turn_face_ok t x f c0 c1 c2 Ex Tf) as (e & d' & Ee & Te & Ke); eauto; try (apply Ix; cbn; auto). rewrite Ee.
      assert (K : exists a b c, corners m e a b c d' /\ forall y, In y [a; b; c] <-> In y [c0; c1; c2])
        by (destruct Ke as [Ke|Ke]; [exists c0, c1, c2|exists c0, c2, c1]; (split; [exact Ke|]); intros y; cbn; tauto).
      destruct K as (a' & b' & c' & K & Keq).
      destruct (pierced_ok e a' b' c' d' va vb i t) as (i' & t' & s' & E & I' & (h & Fh & Th) & Hi & P & G & (w & W1 & W2 & M)); auto.
      { intros h u Fh Th. eapply (Op c0 c1 c2); eauto. }
      { rewrite Keq. exact Nb. }
      rewrite E. exists i', (Done (t', s')). split; auto. split; auto.
      assert (Bh : forall u, behind_face m t c0 c1 c2 u <-> u = t').
      { intros u. split.
        - intros (f' & h' & d'' & Tf' & Kf' & Ff & Th'). assert (f' = e).
          { destruct Ke as [Ke|Ke], Kf' as [Kf'|Kf'].
            - exact (corners_tet_eq f' e _ _ _ _ _ (eq_trans Tf' (eq_sym Te)) Kf' Ke).
            - destruct (no_flip e f' _ _ _ _ _ (eq_trans Te (eq_sym Tf')) Ke Kf').
            - destruct (no_flip f' e _ _ _ _ _ (eq_trans Tf' (eq_sym Te)) Kf' Ke).
            - exact (corners_tet_eq f' e _ _ _ _ _ (eq_trans Tf' (eq_sym Te)) Kf' Ke). }
          subst f'. congruence.
        - intros ->. exists e, h, d'. auto. }
      split; [intros u; cbn [about]; rewrite Hi, Bh; split; [tauto|intros [|[->|]]; auto]|].
      split; [|split; [exact P|split; [exact G|apply Hi; auto]]].
      destruct G as (R' & H' & N' & _). split; [cbn; right; now apply Bh|]. split; [exact R'|]. split; [exact H'|]. split; [exact N'|].
      exists w. split; [exact W1|]. split; [rewrite <- Keq; exact W2|exact M].
  Qed.

  Lemma side_loop_ok va vb fuel : va < n_points m -> vb < n_points m -> forall n t s i, good_to vb t s -> arrives g m va vb n t s -> info_ok m i -> In t (intersected i) ->
    exists o, side_loop g m va vb t s i fuel = Some (m, o) /\
      match o with
      | Done i' => info_ok m i' /\ exists l t', path g m va vb t s (l ++ [(t', [vb])]) /\
          (forall u, In u (intersected i') <-> In u (intersected i) \/ along m l u)
      | Lost => lost g m va vb
      | Out => longer g m va vb (n + fuel)
      end.
  Proof using L C GL HC PL FG.
    intros Ha Hb. induction fuel as [|fuel IH]; intros n t s i G Ar I It.
    - pose proof G as (R & Hd & ND & Z & Ls & Bs & Op). destruct s as [|c0 s]; [congruence|]. cbn [side_loop nth_error].
      destruct (Nat.eqb_spec c0 vb) as [->|N]; [|eexists; split; [reflexivity|rewrite Nat.add_0_r; exists t, (c0 :: s); split; [exact Ar|intros Hin; apply Bs in Hin; congruence]]].
      eexists; split; [reflexivity|]. split; auto. exists [], t. assert (E := Bs (or_introl eq_refl)). rewrite E in *. split; [constructor|].
      intros u. split; auto. intros [|(? & ? & [] & _)]; auto.
    - pose proof G as (R & Hd & ND & Z & Ls & Bs & Op). destruct s as [|c0 s]; [congruence|]. cbn [side_loop nth_error].
      destruct (Nat.eqb_spec c0 vb) as [->|N].
      + eexists; split; [reflexivity|]. split; auto. exists [], t. assert (E := Bs (or_introl eq_refl)). rewrite E in *. split; [constructor|].
        intros u. split; auto. intros [|(? & ? & [] & _)]; auto.
      + assert (Nb : ~ In vb (c0 :: s)) by (intros Hin; apply Bs in Hin; congruence).
        destruct (side_step_ok va vb t (c0 :: s) i Ha Hb G Nb I It) as (i1 & r & E & I1 & H1 & Hr). rewrite E.
        destruct r as [[t' s']| |]; [|eexists; split; [reflexivity|]|contradiction].
        2: { right. exists n, t, (c0 :: s). auto. }
        destruct Hr as (Mv & Nt & G' & It').
        destruct (IH (Datatypes.S n) t' s' i1 G' (arrives_next g m va vb n t (c0 :: s) t' s' Ar Nb Mv Nt) I1 It') as (o & Eo & Ho). rewrite Eo.
        eexists; split; [reflexivity|]. destruct o as [i2| |]; auto; [|now rewrite Nat.add_succ_r]. destruct Ho as (I2 & l & t2 & P & H2). split; auto.
        exists ((t, c0 :: s) :: l), t2. split; [cbn [app]; econstructor; eauto|].
        intros u. rewrite H2, H1. unfold along. cbn [In]. split.
        * intros [[?|?]|(t3 & s3 & ? & ?)]; auto; right; [exists t, (c0 :: s)|exists t3, s3]; auto.
        * intros [?|(t3 & s3 & [E3|?] & ?)]; auto; [inversion E3; subst; auto|]. right. exists t3, s3. auto.
  Qed.

  Lemma one_side_ok va vb i fuel : va <> vb -> va < n_points m -> vb < n_points m -> info_ok m i ->
    exists o, one_side g m va vb i fuel = Some (m, o) /\
      match o with
      | Done i' => info_ok m i' /\ exists l t', whole_path g m va vb (l ++ [(t', [vb])]) /\ (exists t0, In (t0, [va]) l) /\
          (forall u, In u (intersected i') <-> In u (intersected i) \/ along m l u)
      | Lost => lost g m va vb
      | Out => longer g m va vb fuel
      end.
  Proof using L C GL HC PL FG.
    intros N Ha Hb I. unfold one_side.
    destruct (vert_on_ok va vb None i N Ha Hb I) as (i1 & r & E & I1 & H1 & Hr). rewrite E.
    destruct r as [[t s]| |]; [|eexists; split; [reflexivity|]|contradiction].
    2: { left. intros t t' s' (A & _ & H' & N' & Nv & M). apply (Hr t' s'); auto. discriminate. }
    destruct Hr as (A & _ & G & Nv & M).
    assert (Mv : moves g m va vb t [va] t s) by (destruct G as (R' & H' & N' & _); split; [exact A|]; auto 6).
    destruct (side_loop_ok va vb fuel Ha Hb 0 t s i1 G (arrives_first g m va vb t t s Mv) I1) as (o & Eo & Ho); [apply H1; auto|]. rewrite Eo.
    eexists; split; [reflexivity|]. destruct o as [i2| |]; auto. destruct Ho as (I2 & l & t' & P & H2). split; auto.
    exists ((t, [va]) :: l), t'. split; [|split].
    - exists t, t, s, (l ++ [(t', [vb])]). split; auto.
    - exists t. now left.
    - intros u. rewrite H2, H1. unfold along. cbn [In]. split.
      + intros [[?|?]|(t3 & s3 & ? & ?)]; auto; right; [exists t, [va]|exists t3, s3]; auto.
      + intros [?|(t3 & s3 & [E3|?] & ?)]; auto; [inversion E3; subst; auto|]. right. exists t3, s3. auto.
  Qed.

  Lemma sides_ok a b c i fuel : NoDup [a; b; c] -> a < n_points m -> b < n_points m -> c < n_points m -> info_ok m i ->
    exists o, constraint_sides_intersections g m (a, b, c) i fuel = Some (m, o) /\
      match o with
      | Done i' => info_ok m i' /\ exists l1 l2 l3, whole_path g m a b l1 /\ whole_path g m b c l2 /\ whole_path g m c a l3 /\
          (forall u, In u (intersected i') <-> In u (intersected i) \/ along m (l1 ++ l2 ++ l3) u)
      | Lost => exists va vb, In (va, vb) (sides (a, b, c)) /\ lost g m va vb
      | Out => exists va vb, In (va, vb) (sides (a, b, c)) /\ longer g m va vb fuel
      end.
  Proof using L C GL HC PL FG.
    intros ND Ha Hb Hc I. unfold constraint_sides_intersections. cbn [pairs corner_list tl firstn app combine sides_from].
    assert (N : a <> b /\ b <> c /\ c <> a)
      by (repeat match goal with H : NoDup (_ :: _) |- _ => inversion H; clear H; subst end; cbn [In] in *; intuition congruence).
    destruct N as (N1 & N2 & N3).
    destruct (one_side_ok a b i fuel N1 Ha Hb I) as (o1 & E1 & H1). rewrite E1. destruct o1 as [i1| |]; [|eexists; split; [reflexivity|exists a, b; split; [cbn; auto|exact H1]]..].
    destruct H1 as (I1 & l1 & t1 & P1 & (s1 & S1) & H1).
    destruct (one_side_ok b c i1 fuel N2 Hb Hc I1) as (o2 & E2 & H2). rewrite E2. destruct o2 as [i2| |]; [|eexists; split; [reflexivity|exists b, c; split; [cbn; auto|exact H2]]..].
    destruct H2 as (I2 & l2 & t2 & P2 & (s2 & S2) & H2).
    destruct (one_side_ok c a i2 fuel N3 Hc Ha I2) as (o3 & E3 & H3). rewrite E3. destruct o3 as [i3| |]; [|eexists; split; [reflexivity|exists c, a; split; [cbn; auto|exact H3]]..].
    destruct H3 as (I3 & l3 & t3 & P3 & (s3 & S3) & H3).
    eexists; split; [reflexivity|]. split; auto. exists (l1 ++ [(t1, [b])]), (l2 ++ [(t2, [c])]), (l3 ++ [(t3, [a])]). split; auto. split; auto. split; auto.
    intros u. rewrite H3, H2, H1. unfold along. split.
    - intros [[[?|(t & s & Hin & ?)]|(t & s & Hin & ?)]|(t & s & Hin & ?)]; auto; right; exists t, s; rewrite !in_app_iff; auto 6.
    - intros [?|(t & s & Hin & A)]; auto. rewrite !in_app_iff in Hin. cbn [In] in Hin.
      destruct Hin as [[Hin|[Hin|[]]]|[[Hin|[Hin|[]]]|[Hin|[Hin|[]]]]].
      + left; left; right. eauto.
      + inversion Hin; subst. left. right. exists s2, [b]. auto.
      + left. right. eauto.
      + inversion Hin; subst. right. exists s3, [c]. auto.
      + right. eauto.
      + inversion Hin; subst. left; left; right. exists s1, [a]. auto.
  Qed.
End Walk.
