(** Insertion of a point: views of a mesh, and turning around an edge in a mesh
    of live tetrahedra. *)
From Coq Require Import List Arith Bool NArith ZArith Lia.
From Verif Require Import Lib Tet TetSpec TetProofs BwSpec.
Import ListNotations.

(** * Views *)
Definition dat (m : tetmesh) (t : nat) : option (list nat) := option_map data (nth_error (tets m) t).
Definition msk (m : tetmesh) (t : nat) : option N := option_map mask (nth_error (tets m) t).
Definition nln (m : tetmesh) (t : nat) : option nat := option_map (fun x => length (nei x)) (nth_error (tets m) t).

Lemma dat_some m t x : nth_error (tets m) t = Some x -> dat m t = Some (data x).
Proof. unfold dat. now intros ->. Qed.
Lemma dat_inv m t l : dat m t = Some l -> exists x, nth_error (tets m) t = Some x /\ data x = l.
Proof. unfold dat. destruct (nth_error (tets m) t) as [x|]; [|discriminate]. intros H; inversion H; eauto. Qed.
Lemma live_msk m t : live m t <-> msk m t = Some 0%N.
Proof.
  unfold live, msk. split; [intros (x & -> & E); cbn; congruence|].
  destruct (nth_error (tets m) t) as [x|]; [|discriminate]. cbn. intros H. inversion H. eauto.
Qed.
Lemma msk_lt m t k : msk m t = Some k -> t < length (tets m).
Proof. unfold msk. intros H. apply nth_error_Some. intros E. rewrite E in H. discriminate. Qed.
Lemma dat_lt m t k : dat m t = Some k -> t < length (tets m).
Proof. unfold dat. intros H. apply nth_error_Some. intros E. rewrite E in H. discriminate. Qed.
Lemma dat_ex m t : t < length (tets m) -> exists l, dat m t = Some l.
Proof. intros H. apply nth_error_ex in H. destruct H as (x & E). exists (data x). now apply dat_some. Qed.

Lemma pivot_dat tbl m t v : pivot tbl m (TF (Some t) v) =
  match dat m t with Some l => match look tbl v with Some p => nth_error l p | None => None end | None => None end.
Proof. unfold pivot, tet_at, dat. cbn [tet ver]. destruct (nth_error (tets m) t); reflexivity. Qed.

Lemma corners_dat m t v a b c d : corners m (TF (Some t) v) a b c d <->
  exists l, dat m t = Some l /\ v < 12 /\ nth_error l (nth v ORG_PIVOT 0) = Some a /\ nth_error l (nth v DEST_PIVOT 0) = Some b /\
  nth_error l (nth v APEX_PIVOT 0) = Some c /\ nth_error l (nth v OPPO_PIVOT 0) = Some d.
Proof.
  unfold dat. destruct (nth_error (tets m) t) as [x|] eqn:E; cbn.
  - rewrite (corners_data m t v x) by exact E. split; [intros H; exists (data x); auto|intros (l & H & K); inversion H; subst; auto].
  - split; [|intros (l & H & _); discriminate]. intros (A & _). unfold org, pivot, tet_at in A. cbn in A. rewrite E in A. discriminate.
Qed.
Lemma corners_same m m' t v a b c d : dat m' t = dat m t -> corners m (TF (Some t) v) a b c d -> corners m' (TF (Some t) v) a b c d.
Proof. intros E. rewrite !corners_dat, E. auto. Qed.
Lemma corners_fun m f a b c d a' b' c' d' : corners m f a b c d -> corners m f a' b' c' d' -> a' = a /\ b' = b /\ c' = c /\ d' = d.
Proof. unfold corners. intros (-> & -> & -> & ->) (A & B & C & D). repeat split; congruence. Qed.
Lemma fsym_same m m' t v : nei_at m' (Some t) (Nat.land v 3) = nei_at m (Some t) (Nat.land v 3) ->
  fsym m' (TF (Some t) v) = fsym m (TF (Some t) v).
Proof. intros E. unfold fsym. cbn [tet ver]. now rewrite E. Qed.

Lemma land4 k : k < 4 -> Nat.land k 3 = k.
Proof. intros. do 4 (destruct k as [|k]; [reflexivity|]). lia. Qed.

(** The effect of writing one entry of the neighbour table. *)
Record only_nei (m m' : tetmesh) (t k : nat) (g : triface) : Prop := OnlyNei {
  on_n : n_points m' = n_points m; on_p : p2t m' = p2t m; on_l : length (tets m') = length (tets m);
  on_d : forall s, dat m' s = dat m s; on_m : forall s, msk m' s = msk m s; on_ln : forall s, nln m' s = nln m s;
  on_eq : nei_at m' (Some t) k = Some g;
  on_neq : forall s j, (s, j) <> (t, k) -> nei_at m' (Some s) j = nei_at m (Some s) j }.
Lemma set_nei_view m t k g : nln m t = Some 4 -> k < 4 -> exists m', set_nei m (Some t) k g = Some m' /\ only_nei m m' t k g.
Proof.
  unfold nln. destruct (nth_error (tets m) t) as [x|] eqn:E; [|discriminate]. cbn. intros H K. inversion H as [Ln].
  eexists. split; [apply set_nei_spec; [exact E|lia]|].
  assert (Lt : t < length (tets m)) by (apply nth_error_Some; congruence).
  assert (V : forall s, nth_error (upd (tets m) t (Tetra (data x) (upd (nei x) k g) (mask x))) s =
      if t =? s then Some (Tetra (data x) (upd (nei x) k g) (mask x)) else nth_error (tets m) s).
  { intros s. rewrite nth_error_upd. apply Nat.ltb_lt in Lt. rewrite Lt, andb_true_r. reflexivity. }
  constructor; cbn; auto.
  - apply upd_length.
  - intros s. unfold dat. cbn. rewrite V. destruct (Nat.eqb_spec t s); [subst; rewrite E|]; reflexivity.
  - intros s. unfold msk. cbn. rewrite V. destruct (Nat.eqb_spec t s); [subst; rewrite E|]; reflexivity.
  - intros s. unfold nln. cbn. rewrite V. destruct (Nat.eqb_spec t s); [subst; rewrite E; cbn; rewrite upd_length|]; reflexivity.
  - unfold nei_at, tet_at. cbn. rewrite V, Nat.eqb_refl. cbn. apply nth_error_upd_eq. lia.
  - intros s j N. unfold nei_at, tet_at. cbn. rewrite V. destruct (Nat.eqb_spec t s); [|reflexivity]. subst. cbn. rewrite E.
    apply nth_error_upd_neq. congruence.
Qed.

(** The effect of changing one mask. *)
Record only_mask (m m' : tetmesh) (t : nat) (k : N) : Prop := OnlyMask {
  om_n : n_points m' = n_points m; om_p : p2t m' = p2t m; om_l : length (tets m') = length (tets m);
  om_d : forall s, dat m' s = dat m s; om_ln : forall s, nln m' s = nln m s;
  om_nei : forall s j, nei_at m' (Some s) j = nei_at m (Some s) j;
  om_eq : msk m' t = Some k; om_neq : forall s, s <> t -> msk m' s = msk m s }.
Lemma set_mask_view f m t k : msk m t = Some k -> exists m', set_mask f m (Some t) = Some m' /\ only_mask m m' t (f k).
Proof.
  unfold msk. destruct (nth_error (tets m) t) as [x|] eqn:E; [|discriminate]. cbn. intros H. inversion H as [Em]. clear H.
  assert (Lt : t < length (tets m)) by (apply nth_error_Some; congruence).
  unfold set_mask, on_tet. rewrite E. unfold set. pose proof Lt as Lt'. apply Nat.ltb_lt in Lt'. rewrite Lt'.
  eexists. split; [reflexivity|].
  assert (V : forall s, nth_error (upd (tets m) t (Tetra (data x) (nei x) (f (mask x)))) s =
      if t =? s then Some (Tetra (data x) (nei x) (f (mask x))) else nth_error (tets m) s).
  { intros s. rewrite nth_error_upd. rewrite Lt', andb_true_r. reflexivity. }
  subst k.
  constructor; cbn; auto.
  - apply upd_length.
  - intros s. unfold dat. cbn. rewrite V. destruct (Nat.eqb_spec t s); [subst; rewrite E|]; reflexivity.
  - intros s. unfold nln. cbn. rewrite V. destruct (Nat.eqb_spec t s); [subst; rewrite E; cbn|]; reflexivity.
  - intros s j. unfold nei_at, tet_at. cbn. rewrite V. destruct (Nat.eqb_spec t s); [subst; rewrite E|]; reflexivity.
  - unfold msk. cbn. rewrite V, Nat.eqb_refl. reflexivity.
  - intros s N. unfold msk. cbn. rewrite V. destruct (Nat.eqb_spec t s); [congruence|reflexivity].
Qed.

(** Same tetrahedra and neighbours, possibly other masks. *)
Record skin (m m' : tetmesh) : Prop := Skin {
  sk_n : n_points m' = n_points m; sk_p : p2t m' = p2t m; sk_l : length (tets m') = length (tets m);
  sk_d : forall s, dat m' s = dat m s; sk_ln : forall s, nln m' s = nln m s;
  sk_nei : forall s j, nei_at m' (Some s) j = nei_at m (Some s) j }.
Lemma skin_refl m : skin m m. Proof. constructor; auto. Qed.
Lemma skin_trans m1 m2 m3 : skin m1 m2 -> skin m2 m3 -> skin m1 m3.
Proof. intros [A B C D E F] [A' B' C' D' E' F']. constructor; intros; congruence. Qed.
Lemma only_mask_skin m m' t k : only_mask m m' t k -> skin m m'.
Proof. intros []. constructor; auto. Qed.

Lemma skin_corners m m' f a b c d : skin m m' -> corners m f a b c d -> corners m' f a b c d.
Proof.
  intros S H. destruct (corners_tet _ _ _ _ _ _ H) as (t & x & E & _). destruct f as [ft v]. cbn in E. subst.
  exact (corners_same m m' t v a b c d (sk_d _ _ S t) H).
Qed.
Lemma skin_fsym m m' f : skin m m' -> fsym m' f = fsym m f.
Proof.
  intros S. destruct f as [[t|] v]; [apply fsym_same, (sk_nei _ _ S)|]. reflexivity.
Qed.
Lemma skin_fnext m m' f : skin m m' -> fnext m' f = fnext m f.
Proof.
  intros S. unfold fnext. destruct (tet f) as [t|]; [|reflexivity]. destruct (look FACE_PIVOT1 (ver f)); [|reflexivity].
  now rewrite (sk_nei _ _ S).
Qed.
Lemma skin_sym m m' : skin m m' -> skin m' m.
Proof. intros []. constructor; auto. Qed.

(** * A good mesh *)
Section Good.
  Variable m : tetmesh.
  Hypothesis G : good m.

  Lemma live_lt t : live m t -> t < length (tets m).
  Proof. intros (x & E & _). apply nth_error_Some. congruence. Qed.
  Lemma good_dat t l : dat m t = Some l -> length l = 4.
  Proof. intros H. apply dat_inv in H. destruct H as (x & E & <-). apply (g_size m G t x E). Qed.
  Lemma good_nln t : t < length (tets m) -> nln m t = Some 4.
  Proof.
    intros H. apply nth_error_ex in H. destruct H as (x & E). unfold nln. rewrite E. cbn. f_equal. apply (g_size m G t x E).
  Qed.

  Lemma nei_ver_lt t k g : live m t -> nei_at m (Some t) k = Some g -> k < 4 /\ ver g < 12 /\
    exists u, tet g = Some u /\ live m u.
  Proof.
    intros Lt H. assert (K : k < 4).
    { destruct Lt as (x & E & _). rewrite (nei_at_some m t k x E) in H. destruct (g_size m G t x E) as (_ & <-).
      apply nth_error_Some. congruence. }
    split; auto. destruct (g_glued m G t k Lt ltac:(lia)) as (a & b & c & d & u & w & e & _ & _ & F & Lu & W & _).
    unfold fsym in F. cbn [tet ver] in F. rewrite (land4 k K), H in F.
    destruct (look2 FSYM_TBL k (ver g)) eqn:E2; [|discriminate]. inversion F; subst.
    unfold look2 in E2. destruct (nth_error FSYM_TBL k) eqn:E3; [|discriminate]. split; [|eauto].
    assert (Fl : forall l, In l FSYM_TBL -> length l = 12) by (apply Forall_forall; vm_compute; repeat constructor).
    rewrite <- (Fl l) by (eapply nth_error_In; eauto). apply nth_error_Some. congruence.
  Qed.

  Definition lv (f : triface) : Prop := exists t, tet f = Some t /\ live m t /\ ver f < 12.
  Lemma lv_intro t v : live m t -> v < 12 -> lv (TF (Some t) v).
  Proof. intros. exists t. auto. Qed.
  Lemma lv_face f : lv f -> exists a b c d g e, corners m f a b c d /\ NoDup [a; b; c; d] /\
    fsym m f = Some g /\ lv g /\ fsym m g = Some f /\ corners m g b a c e.
  Proof.
    intros (t & E & Lt & V). destruct f as [ft v]. cbn in *. subst.
    destruct (g_glued m G t v Lt V) as (a & b & c & d & u & w & e & A & B & C & D & E & F & H).
    exists a, b, c, d, (TF (Some u) w), e. repeat split; try tauto; try apply A; try apply H. exists u; auto.
  Qed.
  Lemma esym_esym f g : esym f = Some g -> ver f < 12 -> esym g = Some f.
  Proof.
    intros H V. destruct f as [t v]. unfold esym, by_table in *. cbn [tet ver] in *.
    versions v; cbn in H; inversion H; reflexivity.
  Qed.
  Lemma esym_ex f : lv f -> exists g, esym f = Some g /\ lv g /\ tet g = tet f.
  Proof.
    intros (t & E & Lt & V). destruct f as [ft v]. cbn in E, V. subst ft. unfold esym, by_table. cbn [tet ver].
    versions v; cbn; (eexists; split; [reflexivity|split; [exists t; cbn; repeat split; auto; lia|reflexivity]]).
  Qed.
  Lemma fnext_lv f : lv f -> exists f' g, esym f = Some f' /\ fsym m f' = Some g /\ fnext m f = Some g /\ lv g.
  Proof.
    intros H. destruct (esym_ex f H) as (f' & E & L' & _). destruct (lv_face f' L') as (a & b & c & d & g & e & _ & _ & F & Lg & _).
    exists f', g. repeat split; auto. rewrite fnext_is_fsym_esym; [rewrite E; exact F|].
    intros k y Hy. destruct H as (t & Et & Lt & _). rewrite Et in Hy. eapply nei_ver_lt; eauto.
  Qed.
  Lemma fnext_corners f g a b c d : lv f -> corners m f a b c d -> fnext m f = Some g -> exists e, corners m g a b d e.
  Proof.
    intros Lf K H. destruct (fnext_lv f Lf) as (f' & g' & E & F & N & _). rewrite H in N. inversion N; subst g'.
    destruct (corners_moves m f a b c d K) as (_ & _ & (f1 & E1 & _ & K1) & _). rewrite E in E1. inversion E1; subst f1.
    assert (Lf' : lv f') by (destruct (esym_ex f Lf) as (x & Ex & Lx & _); congruence).
    destruct (lv_face f' Lf') as (a1 & b1 & c1 & d1 & g1 & e & K' & _ & F1 & _ & _ & K2).
    rewrite F in F1. inversion F1; subst g1. destruct (corners_fun _ _ _ _ _ _ _ _ _ _ K1 K') as (-> & -> & -> & ->). eauto.
  Qed.
  Lemma fnext_inj f g h : lv f -> lv g -> fnext m f = Some h -> fnext m g = Some h -> f = g.
  Proof.
    intros Lf Lg Hf Hg. destruct (fnext_lv f Lf) as (f' & x & E & F & N & _). destruct (fnext_lv g Lg) as (g' & y & E' & F' & N' & _).
    rewrite Hf in N. rewrite Hg in N'. inversion N; inversion N'; subst x y.
    assert (Lf' : lv f') by (destruct (esym_ex f Lf) as (x & Ex & Lx & _); congruence).
    assert (Lg' : lv g') by (destruct (esym_ex g Lg) as (x & Ex & Lx & _); congruence).
    destruct (lv_face f' Lf') as (? & ? & ? & ? & z & ? & _ & _ & Fz & _ & Bz & _).
    destruct (lv_face g' Lg') as (? & ? & ? & ? & z' & ? & _ & _ & Fz' & _ & Bz' & _).
    assert (f' = g') by congruence. subst g'.
    assert (Vf : ver f < 12) by (destruct Lf as (? & _ & _ & ?); auto).
    assert (Vg : ver g < 12) by (destruct Lg as (? & _ & _ & ?); auto).
    pose proof (esym_esym _ _ E Vf). pose proof (esym_esym _ _ E' Vg). congruence.
  Qed.
  (** Two versions of a tetrahedron at the same directed edge are the same. *)
  Lemma version_unique t v v' a b c d c' d' : live m t -> corners m (TF (Some t) v) a b c d ->
    corners m (TF (Some t) v') a b c' d' -> v' = v.
  Proof.
    intros Lt K K'. pose proof (corners_ver _ _ _ _ _ _ K) as V. pose proof (corners_ver _ _ _ _ _ _ K') as V'. cbn in V, V'.
    destruct (g_glued m G t 0 Lt ltac:(lia)) as (p & q & r & s & _ & _ & _ & K0 & ND & _).
    apply corners_dat in K0. destruct K0 as (l & El & _ & P0 & P1 & P2 & P3). cbn in P0, P1, P2, P3.
    apply corners_dat in K. destruct K as (l1 & E1 & _ & A1 & A2 & _). rewrite El in E1. inversion E1; subst l1.
    apply corners_dat in K'. destruct K' as (l2 & E2 & _ & B1 & B2 & _). rewrite El in E2. inversion E2; subst l2.
    pose proof (good_dat _ _ El) as Ll. destruct l as [|x0 [|x1 [|x2 [|x3 [|]]]]]; try discriminate Ll. cbn in P0, P1, P2, P3.
    inversion P0; inversion P1; inversion P2; inversion P3; subst.
    assert (N : p <> q /\ p <> r /\ p <> s /\ q <> r /\ q <> s /\ r <> s).
    { clear -ND. rewrite !NoDup_cons_iff in ND. cbn in ND. intuition. }
    clear -V V' A1 A2 B1 B2 N. versions v; cbn in A1, A2; inversion A1; inversion A2; subst; versions v'; cbn in B1, B2; inversion B1; inversion B2; subst; try reflexivity; exfalso; intuition.
  Qed.
End Good.

Lemma dup_ex (l : list nat) : NoDup l \/ exists i j, i < j /\ j < length l /\ nth i l 0 = nth j l 0.
Proof.
  induction l as [|a l [ND|(i & j & L & Lj & E)]]; [left; constructor| |].
  - destruct (in_dec Nat.eq_dec a l) as [H|H]; [|left; constructor; auto].
    right. apply (In_nth l a 0) in H. destruct H as (j & Lj & E). exists 0, (S j). cbn. split; [lia|split; [lia|congruence]].
  - right. exists (S i), (S j). cbn. split; [lia|split; [lia|auto]].
Qed.

(** * An injective function on a finite set leaves a part of it that it enters. *)
Section Orbit.
  Context {A : Type}.
  Variables (f : A -> A) (X : A -> Prop) (code : A -> nat) (n : nat).
  Hypothesis fX : forall x, X x -> X (f x).
  Hypothesis finj : forall x y, X x -> X y -> f x = f y -> x = y.
  Hypothesis clt : forall x, X x -> code x < n.
  Hypothesis cinj : forall x y, X x -> X y -> code x = code y -> x = y.

  Fixpoint it (k : nat) (x : A) : A := match k with 0 => x | S k => f (it k x) end.
  Lemma first_bad (P : A -> Prop) (Pd : forall x, {P x} + {~ P x}) x k :
    (forall i, i < k -> P (it i x)) \/ exists i, i < k /\ (forall j, j < i -> P (it j x)) /\ ~ P (it i x).
  Proof.
    induction k as [|k [H|(i & L & H)]]; [left; intros; lia| |right; exists i; split; auto; lia].
    destruct (Pd (it k x)); [left; intros i Hi; destruct (Nat.eq_dec i k); [subst; auto|apply H; lia]|right; exists k; auto].
  Qed.
  Lemma it_X k x : X x -> X (it k x).
  Proof. intros H. induction k; cbn; auto. Qed.
  Lemma it_back i j x : X x -> i <= j -> it i x = it j x -> it (j - i) x = x.
  Proof.
    revert j. induction i as [|i IH]; intros j H L E; [rewrite Nat.sub_0_r; auto|].
    destruct j as [|j]; [lia|]. cbn [Nat.sub]. apply IH; auto; [lia|]. apply finj; auto using it_X.
  Qed.
  Lemma orbit_returns x : X x -> exists k, 0 < k /\ k <= n /\ it k x = x.
  Proof.
    intros H. set (l := map (fun i => code (it i x)) (seq 0 (S n))).
    assert (Ln : length l = S n) by (unfold l; rewrite map_length, seq_length; reflexivity).
    assert (Hn : forall i, i <= n -> nth i l 0 = code (it i x)).
    { intros i Hi. unfold l. rewrite (nth_indep _ 0 (code (it 0 x))) by (rewrite map_length, seq_length; lia).
      rewrite (map_nth (fun i => code (it i x)) (seq 0 (S n)) 0 i). rewrite seq_nth by lia. reflexivity. }
    destruct (dup_ex l) as [ND|(i & j & L & Lj & E)].
    - exfalso. assert (I : incl l (seq 0 n)).
      { intros c Hc. apply in_map_iff in Hc. destruct Hc as (i & <- & _). apply in_seq. pose proof (clt _ (it_X i x H)). lia. }
      pose proof (NoDup_incl_length ND I) as C. rewrite Ln, seq_length in C. lia.
    - rewrite !Hn in E by lia. apply cinj in E; auto using it_X.
      exists (j - i). split; [lia|split; [lia|]]. apply it_back; auto. lia.
  Qed.
  (** Entering [P] at [x] from [y], it is left again. *)
  Lemma orbit_leaves (P : A -> Prop) (Pd : forall x, {P x} + {~ P x}) x y : X x -> X y -> f y = x -> P x -> ~ P y ->
    exists k, k < n /\ (forall i, i <= k -> P (it i x)) /\ ~ P (it (S k) x).
  Proof.
    intros Hx Hy E Px Py. destruct (orbit_returns x Hx) as (k & K0 & Kn & Ek). destruct k as [|k]; [lia|].
    cbn in Ek.
    assert (it k x = y) by (apply finj; auto using it_X; congruence). 
    assert (Np : ~ P (it k x)) by congruence.
    destruct (first_bad P Pd x (S k)) as [B|(i & L & B & N)]; [exfalso; apply Np, B; lia|].
    destruct i as [|i]; [contradiction|]. exists i. split; [lia|]. split; auto. intros j Hj. apply B. lia.
  Qed.
End Orbit.
