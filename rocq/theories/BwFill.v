(** Insertion of a point: the new tetrahedra on the border of the cavity. *)
From Coq Require Import List Arith Bool NArith ZArith Lia.
From Verif Require Import Lib Tet TetSpec TetProofs BwSpec BwBase BwGrow.
Import ListNotations.

(** Two glued versions. *)
Record matched (m : tetmesh) (t v u w a b c d e : nat) : Prop := Matched {
  mt_v : v < 12; mt_w : w < 12;
  mt_f : fsym m (TF (Some t) v) = Some (TF (Some u) w); mt_b : fsym m (TF (Some u) w) = Some (TF (Some t) v);
  mt_c : corners m (TF (Some t) v) a b c d; mt_k : corners m (TF (Some u) w) b a c e }.
Lemma matched_sym m t v u w a b c d e : matched m t v u w a b c d e -> matched m u w t v b a c e d.
Proof. intros []. constructor; auto. Qed.
Lemma enext_ver t v : v < 12 -> enext (TF t v) = Some (TF t ((v + 4) mod 12)).
Proof. intros V. versions v; reflexivity. Qed.
Lemma eprev_ver t v : v < 12 -> eprev (TF t v) = Some (TF t ((v + 8) mod 12)).
Proof. intros V. versions v; reflexivity. Qed.
Lemma mod12 n : n mod 12 < 12.
Proof. apply Nat.mod_upper_bound. lia. Qed.
Lemma matched_next m t v u w a b c d e : matched m t v u w a b c d e ->
  matched m t ((v + 4) mod 12) u ((w + 8) mod 12) b c a d e /\ matched m t ((v + 8) mod 12) u ((w + 4) mod 12) c a b d e.
Proof.
  intros [V W F B C K]. destruct (fsym_turn _ _ _ _ _ F V W) as (F1 & F2). destruct (fsym_turn _ _ _ _ _ B W V) as (B1 & B2).
  destruct (corners_moves _ _ _ _ _ _ C) as ((g1 & N1 & _ & C1) & (g2 & N2 & _ & C2) & _).
  destruct (corners_moves _ _ _ _ _ _ K) as ((h1 & M1 & _ & K1) & (h2 & M2 & _ & K2) & _).
  rewrite enext_ver in N1, M1 by auto. rewrite eprev_ver in N2, M2 by auto.
  inversion N1; inversion N2; inversion M1; inversion M2; subst.
  split; constructor; auto using mod12.
Qed.
Lemma same_face v v' : v < 12 -> v' < 12 -> Nat.land v' 3 = Nat.land v 3 -> v' = v \/ v' = (v + 4) mod 12 \/ v' = (v + 8) mod 12.
Proof.
  intros V V' H. assert (T : forallb (fun v => forallb (fun v' => negb (Nat.land v' 3 =? Nat.land v 3) ||
    ((v' =? v) || ((v' =? (v + 4) mod 12) || (v' =? (v + 8) mod 12)))) (seq 0 12)) (seq 0 12) = true) by (vm_compute; reflexivity).
  rewrite forallb_forall in T. specialize (T v ltac:(apply in_seq; lia)). rewrite forallb_forall in T. specialize (T v' ltac:(apply in_seq; lia)).
  apply Nat.eqb_eq in H. rewrite H in T. cbn [negb orb] in T. rewrite !orb_true_iff, !Nat.eqb_eq in T. exact T.
Qed.
Lemma matched_turn m t v u w a b c d e v' : matched m t v u w a b c d e -> v' < 12 -> Nat.land v' 3 = Nat.land v 3 ->
  exists w' a' b' c', matched m t v' u w' a' b' c' d e /\ Nat.land w' 3 = Nat.land w 3 /\
    ((a' = a /\ b' = b /\ c' = c) \/ (a' = b /\ b' = c /\ c' = a) \/ (a' = c /\ b' = a /\ c' = b)).
Proof.
  intros M V' E. pose proof (mt_w _ _ _ _ _ _ _ _ _ _ M) as W.
  assert (Lw : Nat.land ((w + 4) mod 12) 3 = Nat.land w 3 /\ Nat.land ((w + 8) mod 12) 3 = Nat.land w 3)
    by (clear -W; versions w; split; reflexivity).
  destruct (same_face v v' (mt_v _ _ _ _ _ _ _ _ _ _ M) V' E) as [->|[->| ->]].
  - exists w, a, b, c. split; [exact M|]. split; [reflexivity|]. left. auto.
  - destruct (matched_next _ _ _ _ _ _ _ _ _ _ M) as (H & _). do 4 eexists. split; [exact H|]. tauto.
  - destruct (matched_next _ _ _ _ _ _ _ _ _ _ M) as (_ & H). do 4 eexists. split; [exact H|]. tauto.
Qed.
(** The stored entry at the other side of a glued face. *)
Lemma matched_nei m t v u w a b c d e : matched m t v u w a b c d e ->
  exists g, nei_at m (Some t) (Nat.land v 3) = Some g /\ tet g = Some u /\ ver g < 12 /\ Nat.land (ver g) 3 = Nat.land w 3.
Proof.
  intros M. pose proof (mt_f _ _ _ _ _ _ _ _ _ _ M) as F. pose proof (mt_v _ _ _ _ _ _ _ _ _ _ M) as V. unfold fsym in F. cbn [tet ver] in F.
  destruct (nei_at m (Some t) (Nat.land v 3)) as [[gt gv]|]; [|discriminate]. cbn [tet ver] in *.
  destruct (look2 FSYM_TBL v gv) eqn:E; [|discriminate]. inversion F; subst. eexists. split; [reflexivity|]. split; [reflexivity|]. cbn [ver].
  assert (Vg : gv < 12).
  { unfold look2 in E. destruct (nth_error FSYM_TBL v) eqn:E3; [|discriminate].
    assert (Fl : forall l, In l FSYM_TBL -> length l = 12) by (apply Forall_forall; vm_compute; repeat constructor).
    rewrite <- (Fl l) by (eapply nth_error_In; eauto). apply nth_error_Some. unfold look in E. congruence. }
  split; [exact Vg|].
  assert (T : forallb (fun v => forallb (fun g => match look2 FSYM_TBL v g with Some w => Nat.land g 3 =? Nat.land w 3 | None => false end)
    (seq 0 12)) (seq 0 12) = true) by (vm_compute; reflexivity).
  rewrite forallb_forall in T. specialize (T v ltac:(apply in_seq; lia)). rewrite forallb_forall in T. specialize (T gv ltac:(apply in_seq; lia)).
  rewrite E in T. now apply Nat.eqb_eq.
Qed.
Lemma fsym_low k g : k < 4 -> ver g < 12 -> look2 FSYM_TBL k (ver g) = Some (ver g).
Proof. intros K V. destruct g as [gt v]. cbn [ver] in *. do 4 (destruct k as [|k]; [versions v; reflexivity|]). lia. Qed.

(** * Adding a tetrahedron *)
Record added (m m' : tetmesh) (l : list nat) : Prop := Added {
  ad_n : n_points m' = n_points m; ad_p : p2t m' = p2t m; ad_l : length (tets m') = S (length (tets m));
  ad_d : forall t, t < length (tets m) -> dat m' t = dat m t; ad_m : forall t, t < length (tets m) -> msk m' t = msk m t;
  ad_ln : forall t, t < length (tets m) -> nln m' t = nln m t;
  ad_nei : forall t k, t < length (tets m) -> nei_at m' (Some t) k = nei_at m (Some t) k;
  ad_dn : dat m' (length (tets m)) = Some l; ad_mn : msk m' (length (tets m)) = Some 0%N; ad_lnn : nln m' (length (tets m)) = Some 4;
  ad_nn : forall k, k < 4 -> nei_at m' (Some (length (tets m))) k = Some tf0 }.
Lemma make_tet_view m a b c d m' f : make_tet m a b c d = (m', f) ->
  f = TF (Some (length (tets m))) 11 /\ added m m' [a; b; c; d].
Proof.
  unfold make_tet. intros H. inversion H; subst. split; [reflexivity|].
  assert (O : forall t, t < length (tets m) -> nth_error (tets m ++ [new_tetra a b c d]) t = nth_error (tets m) t) by (intros; now apply nth_error_app1).
  assert (N : nth_error (tets m ++ [new_tetra a b c d]) (length (tets m)) = Some (new_tetra a b c d)) by (rewrite nth_error_app2, Nat.sub_diag by lia; reflexivity).
  constructor; cbn [n_points p2t tets set_tets]; auto; unfold dat, msk, nln, nei_at, tet_at; cbn [tets set_tets].
  - rewrite app_length. cbn. lia.
  - intros t Ht. now rewrite O.
  - intros t Ht. now rewrite O.
  - intros t Ht. now rewrite O.
  - intros t k Ht. now rewrite O.
  - now rewrite N.
  - now rewrite N.
  - now rewrite N.
  - intros k K. rewrite N. do 4 (destruct k as [|k]; [reflexivity|]). lia.
Qed.

Section Update.
  Variables (pid nt : nat).
  Definition with_p2t (m m' : tetmesh) : Prop := n_points m' = n_points m /\ tets m' = tets m /\ length (p2t m') = length (p2t m).
  Lemma update_ok vs : forall m, (forall v, In v vs -> exists t l, nth_error (p2t m) v = Some (Some t) /\ dat m t = Some l /\ length l = 4) ->
    (exists l, dat m nt = Some l /\ length l = 4 /\ nth_error l 2 = Some pid) ->
    exists m', update_p2t m pid nt vs = Some m' /\ with_p2t m m' /\
      (forall p, nth_error (p2t m') p = nth_error (p2t m) p \/ (In p vs /\ nth_error (p2t m') p = Some (Some nt))) /\
      (forall p, In p vs -> exists t l, nth_error (p2t m') p = Some (Some t) /\ dat m t = Some l /\ nth_error l 2 = Some pid) /\
      (forall p t l, nth_error (p2t m) p = Some (Some t) -> dat m t = Some l -> nth_error l 2 = Some pid -> nth_error (p2t m') p = Some (Some t)).
  Proof.
    induction vs as [|v vs IH]; intros m K N.
    - exists m. cbn. split; [reflexivity|]. split; [split; auto|]. split; [auto|]. split; [intros p []|auto].
    - destruct (K v (or_introl eq_refl)) as (t & l & Ep & Ed & L4). cbn [update_p2t]. rewrite Ep.
      apply dat_inv in Ed. destruct Ed as (x & Ex & El). unfold tet_at. rewrite Ex.
      destruct (nth_error_ex (data x) 2) as (d & Ed2); [rewrite El; lia|]. rewrite Ed2.
      assert (Lv : v < length (p2t m)) by (apply nth_error_Some; congruence).
      destruct (Nat.eqb_spec d pid) as [Eq|Ne].
      + subst d. destruct (IH m) as (m' & E' & W & A & B & C); auto.
        { intros p Hp. apply K. right. auto. }
        exists m'. split; [exact E'|]. split; [exact W|]. split; [|split].
        * intros p. destruct (A p) as [X|(X & Y)]; [auto|right; split; [right|]; auto].
        * intros p [<-|Hp]; [|auto]. exists t, (data x). split; [|split; [apply dat_some; auto|auto]]. eapply C; eauto. apply dat_some; auto.
        * exact C.
      + rewrite (set_ok _ _ _ Lv). set (m1 := set_p2t m (upd (p2t m) v (Some nt))).
        assert (P1 : forall p, nth_error (p2t m1) p = if v =? p then Some (Some nt) else nth_error (p2t m) p).
        { intros p. unfold m1. cbn. rewrite nth_error_upd. apply Nat.ltb_lt in Lv. rewrite Lv, andb_true_r. reflexivity. }
        assert (D1 : forall s, dat m1 s = dat m s) by reflexivity.
        destruct (IH m1) as (m' & E' & (W1 & W2 & W3) & A & B & C).
        { intros p Hp. rewrite P1. destruct (Nat.eqb_spec v p).
          - destruct N as (l' & N1 & N2 & _). exists nt, l'. rewrite D1. auto.
          - destruct (K p (or_intror Hp)) as (t' & l' & X). exists t', l'. rewrite D1. auto. }
        { exact N. }
        exists m'. split; [exact E'|]. split; [split; [|split]; auto; unfold m1 in W3; cbn in W3; rewrite upd_length in W3; auto|]. split; [|split].
        * intros p. destruct (A p) as [X|(X & Y)]; [|right; split; [right|]; auto]. rewrite P1 in X. destruct (Nat.eqb_spec v p); [|auto].
          subst. right. split; [left; auto|auto].
        * intros p [<-|Hp]; [|apply B, Hp]. destruct N as (l' & N1 & N2 & N3). exists nt, l'. split; auto.
          apply (C v nt l'); auto. rewrite P1, Nat.eqb_refl. reflexivity.
        * intros p t' l' X Y Z. apply (C p t' l'); auto. rewrite P1. destruct (Nat.eqb_spec v p); [|auto]. subst p.
          exfalso. assert (t' = t) by congruence. subst t'. apply dat_inv in Y. destruct Y as (x' & Ex' & El'). rewrite Ex in Ex'. inversion Ex'; subst x'.
          congruence.
  Qed.
End Update.

(** * The faces of the border *)
Record face : Type := Face { fc : nat; fk : nat; fx : nat; fu : nat; fw : nat; fr : nat; f0 : nat; f1 : nat; f2 : nat; fd : nat; fe : nat }.
Definition bf (x : face) : triface := TF (Some (fc x)) (fk x).

Section Fill.
  Variables (m : tetmesh) (o3 : sign3) (isp : sign4) (pid : nat) (start : nat -> Prop).
  Variables (m0 : tetmesh) (cave : list nat) (bdry : list triface).
  Hypothesis G : good m.
  Hypothesis Cv : cavity m o3 isp pid start m0 cave bdry.
  Hypothesis Pid : pid < n_points m.
  Hypothesis Fresh : nth_error (p2t m) pid = Some None.
  Notation L := (length (tets m)).

  Lemma pid_fresh t l : dat m t = Some l -> ~ In pid l.
  Proof.
    intros D H. apply dat_inv in D. destruct D as (x & E & <-). destruct (g_known m G t x pid E H) as (t' & E'). congruence.
  Qed.

  (** [fc x, fx x]: the face seen from the cavity, on [f0 x, f1 x, f2 x]; [fu x, fw x]: seen from outside. *)
  Record face_ok (x : face) : Prop := FaceOk {
    fo_c : In (fc x) cave; fo_k : fk x < 4; fo_xk : Nat.land (fx x) 3 = fk x; fo_u : live m (fu x); fo_nu : ~ In (fu x) cave;
    fo_r : nei_at m (Some (fc x)) (fk x) = Some (TF (Some (fu x)) (fr x));
    fo_w : exists h, is_hull_tet m (Some (fc x)) = Some h /\ (if h then look EPIVOT (fr x) else Some (fr x)) = Some (fw x);
    fo_m : matched m (fc x) (fx x) (fu x) (fw x) (f0 x) (f1 x) (f2 x) (fd x) (fe x);
    fo_nd : NoDup [f0 x; f1 x; f2 x];
    fo_g : f0 x <> n_points m /\ f1 x <> n_points m }.

  Lemma vert_lt t l i p : dat m t = Some l -> nth_error l i = Some p -> p <= n_points m /\ (p = n_points m -> i = 3).
  Proof. intros D N. apply dat_inv in D. destruct D as (x & E & <-). eapply g_verts; eauto. Qed.

  Lemma face_ex c k : In (TF (Some c) k) bdry -> exists x, face_ok x /\ bf x = TF (Some c) k.
  Proof.
    intros H. apply (cv_b _ _ _ _ _ _ _ _ Cv) in H. destruct H as (Hc & K & u' & B & Nu). pose proof (cv_live _ _ _ _ _ _ _ _ Cv c Hc) as Lc.
    destruct (g_glued m G c k Lc ltac:(lia)) as (a & b & cc & d & u & w & e & C & ND & F & Lu & W & Fb & Ku).
    destruct B as (g & En & Eg). destruct (nei_ver_lt m G c k g Lc En) as (_ & Vg & _).
    assert (g = TF (Some u) w).
    { unfold fsym in F. cbn [tet ver] in F. rewrite (land4 k K), En, (fsym_low k g K Vg) in F. inversion F. destruct g. cbn in *. congruence. }
    subst g. cbn in Eg, Vg. inversion Eg; subst u'. clear Eg.
    assert (M : matched m c k u w a b cc d e) by (constructor; auto; lia).
    destruct (dat_ex m c (live_lt m c Lc)) as (l & El). pose proof (good_dat m G _ _ El) as L4.
    assert (Hh : is_hull_tet m (Some c) = Some (nth 3 l 0 =? n_points m)).
    { apply dat_inv in El. destruct El as (x & E & El). unfold is_hull_tet, tet_at. rewrite E. rewrite El.
      destruct l as [|? [|? [|? [|? [|]]]]]; try discriminate L4. reflexivity. }
    destruct (Nat.eqb_spec (nth 3 l 0) (n_points m)) as [Hu|Nh].
    - (* a tetrahedron of the hull: the ghost becomes the apex *)
      set (w' := nth w EPIVOT 0).
      assert (Ew : look EPIVOT w = Some w' /\ w' < 12 /\ Nat.land w' 3 = Nat.land w 3 /\ nth w' ORG_PIVOT 0 <> 3 /\ nth w' DEST_PIVOT 0 <> 3).
      { unfold w'. clear -W.
        assert (T : forallb (fun w => let w' := nth w EPIVOT 0 in (match look EPIVOT w with Some z => z =? w' | None => false end) && ((w' <? 12) &&
          ((Nat.land w' 3 =? Nat.land w 3) && (negb (nth w' ORG_PIVOT 0 =? 3) && negb (nth w' DEST_PIVOT 0 =? 3))))) (seq 0 12) = true)
          by (vm_compute; reflexivity).
        rewrite forallb_forall in T. specialize (T w ltac:(apply in_seq; lia)). cbv zeta in T.
        rewrite !andb_true_iff, !negb_true_iff, Nat.ltb_lt, !Nat.eqb_neq, Nat.eqb_eq in T. destruct T as (T1 & T).
        split; [|exact T]. destruct (look EPIVOT w); [|discriminate]. apply Nat.eqb_eq in T1. now subst. }
      destruct Ew as (Ew & W' & Fw & No & Nd).
      destruct (matched_turn _ _ _ _ _ _ _ _ _ _ w' (matched_sym _ _ _ _ _ _ _ _ _ _ M) W' Fw) as (x & b' & a' & c' & M' & Fx & Perm).
      exists (Face c k x u w' w a' b' c' d e). split; [|reflexivity].
      constructor; cbn [fc fk fx fu fw fr f0 f1 f2 fd fe]; auto.
      + rewrite Fx. apply land4, K.
      + eauto.
      + apply matched_sym. exact M'.
      + clear -ND Perm. rewrite !NoDup_cons_iff in *. cbn in *. intuition (subst; auto).
      + destruct (mt_c _ _ _ _ _ _ _ _ _ _ M') as (O & D & _ & _). unfold org, dest in O, D. rewrite !pivot_dat in O, D.
        destruct (dat_ex m u (live_lt m u Lu)) as (lu & Elu). rewrite Elu in O, D.
        assert (Lo : look ORG_PIVOT w' = Some (nth w' ORG_PIVOT 0) /\ look DEST_PIVOT w' = Some (nth w' DEST_PIVOT 0)) by (clear -W'; versions w'; split; reflexivity).
        destruct Lo as (Lo & Ld). rewrite Lo in O. rewrite Ld in D.
        split; intros X; [apply Nd; eapply (vert_lt u lu); eauto|apply No; eapply (vert_lt u lu); eauto].
    - exists (Face c k k u w w a b cc d e). split; [|reflexivity].
      constructor; cbn [fc fk fx fu fw fr f0 f1 f2 fd fe]; auto.
      + apply land4, K.
      + eauto.
      + clear -ND. rewrite !NoDup_cons_iff in *. cbn in *. intuition.
      + assert (Q : forall p i, nth_error l i = Some p -> p <> n_points m).
        { intros p i Hp X. destruct (vert_lt c l i p El Hp) as (_ & Y). specialize (Y X). subst i p. apply Nh.
          erewrite nth_error_nth; eauto. }
        destruct C as (O & D & _). unfold org, dest in O, D. rewrite !pivot_dat, El in O, D.
        destruct (look ORG_PIVOT k) as [i|]; [|discriminate]. destruct (look DEST_PIVOT k) as [j|]; [|discriminate]. eauto.
  Qed.
  Lemma faces_ex : exists F, map bf F = bdry /\ Forall face_ok F.
  Proof.
    assert (H : forall l, (forall f, In f l -> In f bdry) -> exists F, map bf F = l /\ Forall face_ok F).
    { induction l as [|f l IH]; intros H; [exists []; auto|]. destruct IH as (F & E & A); [intros; apply H; right; auto|].
      destruct (cv_some _ _ _ _ _ _ _ _ Cv f (H f (or_introl eq_refl))) as (c & k & ->).
      destruct (face_ex c k (H _ (or_introl eq_refl))) as (x & Hx & Ex). exists (x :: F). cbn. rewrite Ex, E. auto. }
    apply H. auto.
  Qed.
  Lemma face_inj x y : face_ok x -> face_ok y -> fu x = fu y -> Nat.land (fw x) 3 = Nat.land (fw y) 3 -> bf x = bf y.
  Proof.
    intros Hx Hy Eu Ew. destruct (matched_nei _ _ _ _ _ _ _ _ _ _ (matched_sym _ _ _ _ _ _ _ _ _ _ (fo_m _ Hx))) as (g & N & T & _ & V).
    destruct (matched_nei _ _ _ _ _ _ _ _ _ _ (matched_sym _ _ _ _ _ _ _ _ _ _ (fo_m _ Hy))) as (g' & N' & T' & _ & V').
    rewrite Eu, Ew in N. rewrite N in N'. inversion N'; subst g'. unfold bf.
    rewrite (fo_xk _ Hx) in V. rewrite (fo_xk _ Hy) in V'. congruence.
  Qed.

  Definition slot_of (x : face) : nat * nat := (fu x, Nat.land (fw x) 3).
  Record finv (P rest : list face) (m' : tetmesh) : Prop := Finv {
    fi_n : n_points m' = n_points m; fi_l : length (tets m') = L + length P;
    fi_old : forall t, t < L -> dat m' t = dat m t;
    fi_new : forall j x, nth_error P j = Some x -> dat m' (L + j) = Some [f1 x; f0 x; pid; f2 x];
    fi_nln : forall t, t < L + length P -> nln m' t = Some 4;
    fi_in : forall t, In t cave -> msk m' t = Some 1%N \/ msk m' t = Some 3%N;
    fi_out : forall t, live m t -> ~ In t cave -> msk m' t = Some 0%N \/ (msk m' t = Some 2%N /\ exists x, In x rest /\ fu x = t);
    fi_dead : forall t, t < L -> ~ live m t -> msk m' t = msk m t;
    fi_newm : forall j, j < length P -> msk m' (L + j) = Some 0%N;
    fi_outer : forall j x, nth_error P j = Some x -> exists c, look COL_V02_TBL (fw x) = Some c /\
      nei_at m' (Some (fu x)) (Nat.land (fw x) 3) = Some (TF (Some (L + j)) c);
    fi_same : forall t k, t < L -> (forall x, In x P -> (t, k) <> slot_of x) -> nei_at m' (Some t) k = nei_at m (Some t) k;
    fi_back : forall j x, nth_error P j = Some x -> nei_at m' (Some (L + j)) 2 = Some (TF (Some (fu x)) (fw x));
    fi_free : forall j k, j < length P -> k < 4 -> k <> 2 -> nei_at m' (Some (L + j)) k = Some tf0;
    fi_pl : length (p2t m') = length (p2t m);
    fi_p : forall p, nth_error (p2t m') p = nth_error (p2t m) p \/
      exists j x, nth_error P j = Some x /\ In p [f0 x; f1 x; f2 x] /\ nth_error (p2t m') p = Some (Some (L + j));
    fi_pn : forall x p, In x P -> In p [f0 x; f1 x; f2 x] -> exists j, j < length P /\ nth_error (p2t m') p = Some (Some (L + j)) }.

  Lemma finv_start F : map bf F = bdry -> Forall face_ok F -> finv [] F m0.
  Proof.
    intros EF AF. pose proof (cv_skin _ _ _ _ _ _ _ _ Cv) as S.
    constructor; try (intros j x H; destruct j; discriminate H); try (intros; cbn in *; lia); cbn [length].
    - apply (sk_n _ _ S).
    - rewrite Nat.add_0_r. apply (sk_l _ _ S).
    - intros. apply (sk_d _ _ S).
    - intros t Ht. rewrite (sk_ln _ _ S). apply good_nln; auto. lia.
    - apply (cv_in _ _ _ _ _ _ _ _ Cv).
    - intros t Lt Nt. destruct (cv_out _ _ _ _ _ _ _ _ Cv t Lt Nt) as [H|(H & c & k & Hb & Bh)]; [auto|]. right. split; auto.
      rewrite <- EF in Hb. apply in_map_iff in Hb. destruct Hb as (x & Ex & Hx). exists x. split; auto.
      rewrite Forall_forall in AF. pose proof (fo_r _ (AF x Hx)) as R. unfold bf in Ex. inversion Ex as [[Ec Ek]]. rewrite Ec, Ek in R.
      destruct Bh as (g & Eg & Tg). rewrite R in Eg. inversion Eg; subst g. cbn in Tg. congruence.
    - intros t _ H. apply (cv_dead _ _ _ _ _ _ _ _ Cv t H).
    - intros. apply (sk_nei _ _ S).
    - now rewrite (sk_p _ _ S).
    - intros p. left. now rewrite (sk_p _ _ S).
  Qed.

  Definition entries (j : nat) (x : face) : face_map :=
    [((f2 x, f0 x), TF (Some j) 8); ((f1 x, f2 x), TF (Some j) 1); ((f0 x, f1 x), TF (Some j) 11)].
  Fixpoint table_of (j : nat) (F : list face) (fm : face_map) : face_map :=
    match F with [] => fm | x :: F' => table_of (S j) F' (entries j x ++ fm) end.
  Definition news (n : nat) (k : nat) : list triface := map (fun j => TF (Some (L + j)) 11) (seq n k).

  Lemma is_hull_same m' c : dat m' c = dat m c -> n_points m' = n_points m -> is_hull_tet m' (Some c) = is_hull_tet m (Some c).
  Proof.
    unfold dat, is_hull_tet, tet_at. intros D ->. destruct (nth_error (tets m') c), (nth_error (tets m) c); try discriminate; auto.
    cbn in D. inversion D as [E]. now rewrite E.
  Qed.
  Lemma nth_snoc {A} (P : list A) x j y : nth_error (P ++ [x]) j = Some y -> (nth_error P j = Some y /\ j < length P) \/ (j = length P /\ y = x).
  Proof.
    intros H. destruct (Nat.lt_ge_cases j (length P)) as [Hl|Hg].
    - rewrite nth_error_app1 in H by auto. auto.
    - rewrite nth_error_app2 in H by auto. destruct (j - length P) as [|n] eqn:E; cbn in H; [inversion H; right; split; auto; lia|]. destruct n; discriminate.
  Qed.

  Lemma fill_ok : forall rest P m' fm, finv P rest m' -> Forall face_ok (P ++ rest) -> NoDup (map bf (P ++ rest)) ->
    exists m'', fill m' pid (map bf rest) fm = Some (m'', news (length P) (length rest), table_of (L + length P) rest fm) /\
      finv (P ++ rest) [] m''.
  Proof.
    induction rest as [|x rest IH]; intros P m' fm H AF ND.
    - rewrite app_nil_r. exists m'. cbn. auto.
    - cbn [map fill].
      assert (Hx : face_ok x) by (rewrite Forall_forall in AF; apply AF, in_or_app; right; left; auto).
      pose proof (live_lt m _ (fo_u _ Hx)) as Lu. pose proof (live_lt m _ (cv_live _ _ _ _ _ _ _ _ Cv _ (fo_c _ Hx))) as Lc.
      pose proof (mt_w _ _ _ _ _ _ _ _ _ _ (fo_m _ Hx)) as Ww. pose proof (face_lt _ Ww) as Fw4.
      (* the neighbour *)
      assert (En : nei_at m' (tet (bf x)) (ver (bf x)) = Some (TF (Some (fu x)) (fr x))).
      { unfold bf. cbn [tet ver]. rewrite (fi_same _ _ _ H); [apply (fo_r _ Hx)|auto|]. intros y Hy E. unfold slot_of in E. inversion E as [[E1 E2]].
        rewrite Forall_forall in AF. assert (Hy' : face_ok y) by (apply AF, in_or_app; auto). apply (fo_nu _ Hy'). rewrite <- E1. apply (fo_c _ Hx). }
      rewrite En. cbn [tet ver].
      (* its mark *)
      assert (Mu : exists k, msk m' (fu x) = Some k /\ (k = 0%N \/ k = 2%N)).
      { destruct (fi_out _ _ _ H _ (fo_u _ Hx) (fo_nu _ Hx)) as [E|(E & _)]; eauto. }
      destruct Mu as (k & Mu & Kk).
      destruct (set_mask_view (fun k => N.land k (N.lxor ones 2)) m' (fu x) k Mu) as (m1 & E1 & V1). unfold unmark_test. rewrite E1.
      assert (Z : N.land k (N.lxor ones 2) = 0%N) by (destruct Kk as [-> | ->]; reflexivity). rewrite Z in V1.
      assert (D1 : forall t, t < L -> dat m1 t = dat m t) by (intros t Ht; rewrite (om_d _ _ _ _ V1); apply (fi_old _ _ _ H); auto).
      cbn [bf tet ver].
      rewrite (is_hull_same m1 (fc x)); [|auto|rewrite (om_n _ _ _ _ V1); apply (fi_n _ _ _ H)].
      destruct (fo_w _ Hx) as (h & Eh & Ew). rewrite Eh, Ew.
      destruct (corners_same m m1 _ _ _ _ _ _ (D1 _ Lu) (mt_k _ _ _ _ _ _ _ _ _ _ (fo_m _ Hx))) as (Q1 & Q0 & Q2 & _).
      rewrite Q0, Q1, Q2.
      destruct (make_tet m1 (f1 x) (f0 x) pid (f2 x)) as [m2 nt] eqn:E2. apply make_tet_view in E2. destruct E2 as (-> & V2). cbn [tet].
      assert (L1 : length (tets m1) = L + length P) by (rewrite (om_l _ _ _ _ V1); apply (fi_l _ _ _ H)).
      rewrite L1 in *. set (N := L + length P) in *.
      destruct (set_nei_view m2 N 2 (TF (Some (fu x)) (fw x))) as (m3 & E3 & V3); [rewrite <- L1; apply (ad_lnn _ _ _ V2)|lia|]. rewrite E3.
      assert (Lc2 : exists c, look COL_V02_TBL (fw x) = Some c) by (clear -Ww; destruct x; cbn in *; versions fw0; cbn; eauto).
      destruct Lc2 as (c2 & Ec2). rewrite Ec2.
      assert (Nu : fu x <> N) by (unfold N; lia). assert (LuN : fu x < N) by (unfold N; lia).
      destruct (set_nei_view m3 (fu x) (Nat.land (fw x) 3) (TF (Some N) c2)) as (m4 & E4 & V4).
      { rewrite (on_ln _ _ _ _ _ V3), (ad_ln _ _ _ V2), (om_ln _ _ _ _ V1) by (rewrite L1; auto). apply (fi_nln _ _ _ H). exact LuN. }
      { exact Fw4. }
      rewrite E4.
      (* views of m4 in terms of m' *)
      assert (d4o : forall t, t < N -> dat m4 t = dat m' t).
      { intros t Ht. rewrite (on_d _ _ _ _ _ V4), (on_d _ _ _ _ _ V3), (ad_d _ _ _ V2), (om_d _ _ _ _ V1) by (rewrite L1; auto). reflexivity. }
      assert (d4n : dat m4 N = Some [f1 x; f0 x; pid; f2 x]).
      { rewrite (on_d _ _ _ _ _ V4), (on_d _ _ _ _ _ V3), <- L1. apply (ad_dn _ _ _ V2). }
      assert (ln4 : forall t, t < S N -> nln m4 t = Some 4).
      { intros t Ht. rewrite (on_ln _ _ _ _ _ V4), (on_ln _ _ _ _ _ V3). destruct (Nat.eq_dec t N) as [->|]; [rewrite <- L1; apply (ad_lnn _ _ _ V2)|].
        rewrite (ad_ln _ _ _ V2), (om_ln _ _ _ _ V1) by (rewrite L1; lia). apply (fi_nln _ _ _ H). fold N. lia. }
      assert (mk4u : msk m4 (fu x) = Some 0%N).
      { rewrite (on_m _ _ _ _ _ V4), (on_m _ _ _ _ _ V3), (ad_m _ _ _ V2) by (rewrite L1; auto). apply (om_eq _ _ _ _ V1). }
      assert (mk4o : forall t, t < N -> t <> fu x -> msk m4 t = msk m' t).
      { intros t Ht Ne. rewrite (on_m _ _ _ _ _ V4), (on_m _ _ _ _ _ V3), (ad_m _ _ _ V2) by (rewrite L1; auto). apply (om_neq _ _ _ _ V1), Ne. }
      assert (mk4n : msk m4 N = Some 0%N).
      { rewrite (on_m _ _ _ _ _ V4), (on_m _ _ _ _ _ V3), <- L1. apply (ad_mn _ _ _ V2). }
      assert (ne4o : forall t k, t < N -> (t, k) <> slot_of x -> nei_at m4 (Some t) k = nei_at m' (Some t) k).
      { intros t k' Ht Ne. rewrite (on_neq _ _ _ _ _ V4) by exact Ne. rewrite (on_neq _ _ _ _ _ V3) by (intros X; inversion X; lia).
        rewrite (ad_nei _ _ _ V2) by (rewrite L1; auto). apply (om_nei _ _ _ _ V1). }
      assert (ne4u : nei_at m4 (Some (fu x)) (Nat.land (fw x) 3) = Some (TF (Some N) c2)) by apply (on_eq _ _ _ _ _ V4).
      assert (ne4n : nei_at m4 (Some N) 2 = Some (TF (Some (fu x)) (fw x))).
      { rewrite (on_neq _ _ _ _ _ V4) by (intros X; inversion X; lia). apply (on_eq _ _ _ _ _ V3). }
      assert (ne4f : forall k, k < 4 -> k <> 2 -> nei_at m4 (Some N) k = Some tf0).
      { intros k' K4 K2. rewrite (on_neq _ _ _ _ _ V4) by (intros X; inversion X; lia). rewrite (on_neq _ _ _ _ _ V3) by (intros X; inversion X; lia).
        rewrite <- L1. apply (ad_nn _ _ _ V2), K4. }
      assert (p4 : p2t m4 = p2t m').
      { rewrite (on_p _ _ _ _ _ V4), (on_p _ _ _ _ _ V3), (ad_p _ _ _ V2). apply (om_p _ _ _ _ V1). }
      assert (n4 : n_points m4 = n_points m).
      { rewrite (on_n _ _ _ _ _ V4), (on_n _ _ _ _ _ V3), (ad_n _ _ _ V2), (om_n _ _ _ _ V1). apply (fi_n _ _ _ H). }
      assert (l4 : length (tets m4) = S N).
      { rewrite (on_l _ _ _ _ _ V4), (on_l _ _ _ _ _ V3), (ad_l _ _ _ V2). now rewrite L1. }
      clear V1 V2 V3 V4 E1 E3 E4.
      (* the points *)
      destruct (update_ok pid N [f0 x; f1 x; f2 x] m4) as (m5 & E5 & (W1 & W2 & W3) & A5 & B5 & C5).
      { intros p Hp. rewrite p4. assert (Kp : exists t, nth_error (p2t m') p = Some (Some t) /\ t < N).
        { destruct (fi_p _ _ _ H p) as [E|(j & y & Ej & Hy & E)].
          - assert (Kn : exists t, nth_error (p2t m) p = Some (Some t)).
            { destruct (dat_ex m (fu x) Lu) as (lu & Elu). pose proof Elu as Elu'. apply dat_inv in Elu'. destruct Elu' as (xx & Exx & <-).
              apply (g_known m G (fu x) xx p Exx). pose proof (mt_k _ _ _ _ _ _ _ _ _ _ (fo_m _ Hx)) as Kx. apply corners_dat in Kx.
              destruct Kx as (l' & El' & _ & P0 & P1 & P2 & _). rewrite Elu in El'. inversion El'; subst l'.
              destruct Hp as [<-|[<-|[<-|[]]]]; eapply nth_error_In; eauto. }
            destruct Kn as (t & Et). exists t. split; [congruence|]. destruct (g_stored m G p t Et) as (Lt & _). apply (live_lt m) in Lt. unfold N. lia.
          - exists (L + j). split; auto. assert (j < length P) by (apply nth_error_Some; congruence). unfold N. lia. }
        destruct Kp as (t & Et & Lt). exists t. destruct (Nat.lt_ge_cases t L) as [Ho|Hn].
        - destruct (dat_ex m t Ho) as (l & El). exists l. split; auto. split; [rewrite d4o, (fi_old _ _ _ H); auto|]. eapply good_dat; eauto.
        - destruct (nth_error_ex P (t - L)) as (y & Ey); [unfold N in Lt; lia|]. eexists. split; [exact Et|]. split.
          + rewrite d4o by auto. replace t with (L + (t - L)) by lia. apply (fi_new _ _ _ H _ _ Ey).
          + reflexivity. }
      { eexists. split; [exact d4n|]. auto. }
      rewrite E5.
      assert (v5 : (forall t, dat m5 t = dat m4 t) /\ (forall t, msk m5 t = msk m4 t) /\ (forall t, nln m5 t = nln m4 t) /\ forall t k, nei_at m5 (Some t) k = nei_at m4 (Some t) k).
      { unfold dat, msk, nln, nei_at, tet_at. rewrite W2. auto. }
      destruct v5 as (vd & vm & vl & vn).
      assert (LP : length (P ++ [x]) = S (length P)) by (rewrite app_length; cbn; lia).
      assert (LN : L + length (P ++ [x]) = S N) by (rewrite LP; unfold N; lia).
      assert (Uniq : forall y, In y P -> slot_of y <> slot_of x).
      { intros y Hy E. unfold slot_of in E. inversion E as [[E1 E2]]. rewrite Forall_forall in AF.
        assert (Hy' : face_ok y) by (apply AF, in_or_app; auto). pose proof (face_inj y x Hy' Hx E1 E2) as Eb.
        rewrite map_app in ND. cbn in ND. apply NoDup_remove_2 in ND. apply ND, in_or_app. left. rewrite <- Eb. apply in_map, Hy. }
      destruct (IH (P ++ [x]) m5 (entries N x ++ fm)) as (m6 & E6 & H6).
      + constructor.
        * congruence.
        * rewrite W2, l4, LN. reflexivity.
        * intros t Ht. rewrite vd, d4o by (unfold N; lia). apply (fi_old _ _ _ H), Ht.
        * intros j y Hj. rewrite vd. apply nth_snoc in Hj. destruct Hj as [(Hj & Lj)|(-> & ->)]; [|exact d4n].
          rewrite d4o by (unfold N; lia). apply (fi_new _ _ _ H _ _ Hj).
        * rewrite LN. intros t Ht. rewrite vl. apply ln4, Ht.
        * intros t Ht. rewrite vm, mk4o; [apply (fi_in _ _ _ H), Ht| |intros ->; apply (fo_nu _ Hx), Ht].
          pose proof (live_lt m _ (cv_live _ _ _ _ _ _ _ _ Cv _ Ht)). unfold N. lia.
        * intros t Lt Nt. rewrite vm. destruct (Nat.eq_dec t (fu x)) as [->|Ne]; [auto|].
          rewrite mk4o by (auto; apply (live_lt m) in Lt; unfold N; lia).
          destruct (fi_out _ _ _ H t Lt Nt) as [X|(X & y & [<-|Hy] & Ey)]; auto; [congruence|]. right. split; auto. exists y. auto.
        * intros t Ht Nt. rewrite vm, mk4o; [apply (fi_dead _ _ _ H); auto|unfold N; lia|intros ->; apply Nt, (fo_u _ Hx)].
        * intros j Hj. rewrite LP in Hj. rewrite vm. destruct (Nat.eq_dec j (length P)) as [->|]; [exact mk4n|].
          rewrite mk4o by (unfold N; lia). apply (fi_newm _ _ _ H). lia.
        * intros j y Hj. rewrite vn. apply nth_snoc in Hj. destruct Hj as [(Hj & Lj)|(-> & ->)]; [|exists c2; auto].
          destruct (fi_outer _ _ _ H _ _ Hj) as (cy & Ey & Ny). exists cy. split; auto. rewrite ne4o; auto.
          -- assert (Hy : face_ok y) by (rewrite Forall_forall in AF; apply AF, in_or_app; left; eapply nth_error_In; eauto).
             pose proof (live_lt m _ (fo_u _ Hy)). unfold N. lia.
          -- apply Uniq. eapply nth_error_In; eauto.
        * intros t k' Ht Hy. rewrite vn, ne4o; [|unfold N; lia|apply Hy, in_or_app; right; left; auto]. apply (fi_same _ _ _ H); auto.
          intros y Hyy. apply Hy, in_or_app. auto.
        * intros j y Hj. rewrite vn. apply nth_snoc in Hj. destruct Hj as [(Hj & Lj)|(-> & ->)]; [|exact ne4n].
          rewrite ne4o; [apply (fi_back _ _ _ H _ _ Hj)|unfold N; lia|unfold slot_of; intros X; inversion X; lia].
        * intros j k' Hj K4 K2. rewrite LP in Hj. rewrite vn. destruct (Nat.eq_dec j (length P)) as [->|]; [apply ne4f; auto|].
          rewrite ne4o; [apply (fi_free _ _ _ H); auto; lia|unfold N; lia|unfold slot_of; intros X; inversion X; lia].
        * rewrite W3, p4. apply (fi_pl _ _ _ H).
        * intros p. destruct (A5 p) as [E|(Hp & E)].
          -- rewrite p4 in E. destruct (fi_p _ _ _ H p) as [E'|(j & y & Ej & Hy & E')]; [left; congruence|]. right. exists j, y.
             split; [|split; [auto|congruence]]. rewrite nth_error_app1; auto. apply nth_error_Some. congruence.
          -- right. exists (length P), x. split; [rewrite nth_error_app2, Nat.sub_diag by lia; reflexivity|auto].
        * intros y p Hy Hp. rewrite LP.
          assert (Q : exists t l, nth_error (p2t m5) p = Some (Some t) /\ dat m4 t = Some l /\ nth_error l 2 = Some pid).
          { apply in_app_or in Hy. destruct Hy as [Hy|[<-|[]]]; [|apply B5, Hp].
            destruct (fi_pn _ _ _ H y p Hy Hp) as (j & Lj & Ej). destruct (nth_error_ex P j Lj) as (z & Ez). pose proof (fi_new _ _ _ H _ _ Ez) as Dz.
            exists (L + j). eexists. split; [|split; [rewrite d4o by (unfold N; lia); exact Dz|reflexivity]].
            eapply C5; [rewrite p4; exact Ej|rewrite d4o by (unfold N; lia); exact Dz|reflexivity]. }
          destruct Q as (t & l & Et & El & Ep). pose proof (dat_lt _ _ _ El) as Lt. rewrite l4 in Lt.
          destruct (Nat.lt_ge_cases t L) as [Ho|Hn].
          -- exfalso. rewrite d4o, (fi_old _ _ _ H) in El by (auto; unfold N; lia). apply (pid_fresh _ _ El). eapply nth_error_In; eauto.
          -- exists (t - L). split; [unfold N in Lt; lia|]. rewrite Et. do 2 f_equal. lia.
      + rewrite <- app_assoc. exact AF.
      + rewrite <- app_assoc. exact ND.
      + rewrite LN, LP in E6. change (((f2 x, f0 x), TF (Some N) 8) :: ((f1 x, f2 x), TF (Some N) 1) :: ((f0 x, f1 x), TF (Some N) 11) :: fm) with (entries N x ++ fm).
        rewrite E6. rewrite <- app_assoc in H6. cbn [app] in H6. exists m6. split; [|exact H6]. reflexivity.
  Qed.
End Fill.
