(** Facts about the tetrahedral mesh: versions, bonding, incident. *)
From Coq Require Import List Arith Bool ZArith NArith Lia.
From Verif Require Import Lib Geo Tet TetSpec.
Import ListNotations.

Tactic Notation "versions" ident(v) :=
  destruct v as [|v];
  [|destruct v as [|v];
  [|destruct v as [|v];
  [|destruct v as [|v];
  [|destruct v as [|v];
  [|destruct v as [|v];
  [|destruct v as [|v];
  [|destruct v as [|v];
  [|destruct v as [|v];
  [|destruct v as [|v];
  [|destruct v as [|v];
  [|destruct v as [|v]; [|exfalso; lia]]]]]]]]]]]].

(** * Versions *)
Lemma look_lt (t : list nat) i x : look t i = Some x -> i < length t.
Proof. unfold look. intros H. apply nth_error_Some. congruence. Qed.

Lemma tet_at_some m t x : tet_at m t = Some x -> exists i, t = Some i /\ nth_error (tets m) i = Some x.
Proof. unfold tet_at. destruct t; [eauto|discriminate]. Qed.

Lemma pivot_some tbl m t v x : nth_error (tets m) t = Some x ->
  pivot tbl m (TF (Some t) v) = match look tbl v with Some p => nth_error (data x) p | None => None end.
Proof. intros H. unfold pivot, tet_at. cbn [tet ver]. rewrite H. reflexivity. Qed.

Lemma corners_ver m f a b c d : corners m f a b c d -> ver f < 12.
Proof.
  intros (H & _). unfold org, pivot in H. destruct (tet_at m (tet f)); [|discriminate].
  destruct (look ORG_PIVOT (ver f)) eqn:E; [|discriminate]. apply look_lt in E. exact E.
Qed.

Lemma corners_tet m f a b c d : corners m f a b c d ->
  exists t x, tet f = Some t /\ nth_error (tets m) t = Some x.
Proof.
  intros (H & _). unfold org, pivot in H. destruct (tet_at m (tet f)) as [x|] eqn:E; [|discriminate].
  apply tet_at_some in E. destruct E as (t & A & B). eauto.
Qed.

Lemma corners_data m t v x a b c d : nth_error (tets m) t = Some x ->
  corners m (TF (Some t) v) a b c d <->
  v < 12 /\ nth_error (data x) (nth v ORG_PIVOT 0) = Some a /\ nth_error (data x) (nth v DEST_PIVOT 0) = Some b /\
  nth_error (data x) (nth v APEX_PIVOT 0) = Some c /\ nth_error (data x) (nth v OPPO_PIVOT 0) = Some d.
Proof.
  intros H. unfold corners, org, dest, apex, oppo. rewrite !(pivot_some _ m t v x H).
  destruct (lt_dec v 12) as [L|L].
  - versions v; cbn; tauto.
  - split; [|intros (? & _); lia]. intros (A & _). destruct (look ORG_PIVOT v) eqn:E; [|discriminate].
    apply look_lt in E. cbn in E. lia.
Qed.

Lemma corners_moves m f a b c d : corners m f a b c d ->
  (exists g, enext f = Some g /\ tet g = tet f /\ corners m g b c a d) /\
  (exists g, eprev f = Some g /\ tet g = tet f /\ corners m g c a b d) /\
  (exists g, esym f = Some g /\ tet g = tet f /\ corners m g b a d c) /\
  (exists g, enext_esym f = Some g /\ tet g = tet f /\ corners m g c b d a) /\
  (exists g, eprev_esym f = Some g /\ tet g = tet f /\ corners m g a c d b).
Proof.
  intros H. pose proof (corners_ver _ _ _ _ _ _ H) as L.
  destruct (corners_tet _ _ _ _ _ _ H) as (t & x & E & Ex). destruct f as [ft v]. cbn [tet ver] in *. subst ft.
  rewrite (corners_data m t v x) in H by exact Ex. destruct H as (_ & A & B & C & D).
  versions v; cbn in A, B, C, D; (split; [|split; [|split; [|split]]]);
    (eexists; split; [reflexivity|split; [reflexivity|]]; rewrite (corners_data m t _ x) by exact Ex;
     split; [cbn; lia|]; cbn; auto).
Qed.

(** * Bonding *)
Lemma nei_at_some m t k x : nth_error (tets m) t = Some x -> nei_at m (Some t) k = nth_error (nei x) k.
Proof. intros H. unfold nei_at, tet_at. rewrite H. reflexivity. Qed.

Lemma set_nei_spec m t k g x : nth_error (tets m) t = Some x -> k < length (nei x) ->
  set_nei m (Some t) k g = Some (set_tets m (upd (tets m) t (Tetra (data x) (upd (nei x) k g) (mask x)))).
Proof.
  intros H L. unfold set_nei, on_tet. rewrite H. unfold set at 1.
  replace (k <? length (nei x)) with true by (symmetry; now apply Nat.ltb_lt).
  unfold set. replace (t <? length (tets m)) with true; [reflexivity|].
  symmetry. apply Nat.ltb_lt, nth_error_Some. congruence.
Qed.

Lemma face_lt v : v < 12 -> Nat.land v 3 < 4.
Proof. intros. versions v; cbn; lia. Qed.

Lemma bond_tables v w : v < 12 -> w < 12 ->
  exists x, look2 BOND_TBL v w = Some x /\ x < 12 /\ Nat.land x 3 = Nat.land w 3 /\ look2 FSYM_TBL v x = Some w.
Proof.
  intros A B.
  assert (H : forallb (fun v => forallb (fun w => match look2 BOND_TBL v w with
     | Some x => (x <? 12) && (Nat.land x 3 =? Nat.land w 3) && match look2 FSYM_TBL v x with Some y => y =? w | None => false end
     | None => false end) (seq 0 12)) (seq 0 12) = true) by (vm_compute; reflexivity).
  rewrite forallb_forall in H. specialize (H v). rewrite forallb_forall in H.
  specialize (H (proj2 (in_seq 12 0 v) (conj (Nat.le_0_l v) A)) w (proj2 (in_seq 12 0 w) (conj (Nat.le_0_l w) B))).
  cbv beta in H. destruct (look2 BOND_TBL v w) as [x|]; [|discriminate]. exists x.
  destruct (look2 FSYM_TBL v x) as [y|]; [|rewrite andb_false_r in H; discriminate].
  apply andb_prop in H. destruct H as [H H3]. apply andb_prop in H. destruct H as [H1 H2].
  apply Nat.ltb_lt in H1. apply Nat.eqb_eq in H2, H3. subst. auto.
Qed.

Lemma fsym_tables v w k : v < 12 -> w < 12 -> look2 FSYM_TBL v k = Some w ->
  look2 FSYM_TBL ((v + 4) mod 12) k = Some ((w + 8) mod 12) /\ look2 FSYM_TBL ((v + 8) mod 12) k = Some ((w + 4) mod 12).
Proof.
  intros A B H. assert (K : k < 12).
  { unfold look2 in H. destruct (nth_error FSYM_TBL v) eqn:E; [|discriminate].
    assert (length l = 12).
    { assert (F : forall l, In l FSYM_TBL -> length l = 12) by (apply Forall_forall; vm_compute; repeat constructor).
      apply F. eapply nth_error_In; eauto. }
    rewrite <- H0. apply nth_error_Some. congruence. }
  assert (E : forallb (fun v => forallb (fun k => match look2 FSYM_TBL v k with
     | Some w => match look2 FSYM_TBL ((v + 4) mod 12) k, look2 FSYM_TBL ((v + 8) mod 12) k with
                 | Some x, Some y => (x =? (w + 8) mod 12) && (y =? (w + 4) mod 12) | _, _ => false end
     | None => false end) (seq 0 12)) (seq 0 12) = true) by (vm_compute; reflexivity).
  rewrite forallb_forall in E. specialize (E v). rewrite forallb_forall in E.
  specialize (E (proj2 (in_seq 12 0 v) (conj (Nat.le_0_l v) A)) k (proj2 (in_seq 12 0 k) (conj (Nat.le_0_l k) K))).
  cbv beta in E. rewrite H in E.
  destruct (look2 FSYM_TBL ((v + 4) mod 12) k) as [x|]; [|discriminate].
  destruct (look2 FSYM_TBL ((v + 8) mod 12) k) as [y|]; [|discriminate].
  apply andb_prop in E. destruct E as [E1 E2]. apply Nat.eqb_eq in E1, E2. subst. auto.
Qed.

(** What a mesh with the same tetrahedra but other neighbours shares. *)
Definition same_data (m m' : tetmesh) : Prop :=
  n_points m' = n_points m /\ p2t m' = p2t m /\ length (tets m') = length (tets m) /\
  forall t x, nth_error (tets m) t = Some x ->
    exists y, nth_error (tets m') t = Some y /\ data y = data x /\ mask y = mask x /\ length (nei y) = length (nei x).

Lemma same_data_corners m m' f a b c d : same_data m m' -> corners m f a b c d -> corners m' f a b c d.
Proof.
  intros (_ & _ & _ & S) H. destruct (corners_tet _ _ _ _ _ _ H) as (t & x & E & Ex).
  destruct f as [ft v]. cbn in E. subst. destruct (S _ _ Ex) as (y & Ey & Dy & _).
  rewrite (corners_data m' t v y) by exact Ey. rewrite (corners_data m t v x) in H by exact Ex. rewrite Dy. exact H.
Qed.

Lemma bond_spec m t1 v1 t2 v2 x1 x2 :
  nth_error (tets m) t1 = Some x1 -> nth_error (tets m) t2 = Some x2 ->
  length (nei x1) = 4 -> length (nei x2) = 4 -> v1 < 12 -> v2 < 12 ->
  (t1, Nat.land v1 3) <> (t2, Nat.land v2 3) ->
  exists m', bond m (TF (Some t1) v1) (TF (Some t2) v2) = Some m' /\ same_data m m' /\
    fsym m' (TF (Some t1) v1) = Some (TF (Some t2) v2) /\ fsym m' (TF (Some t2) v2) = Some (TF (Some t1) v1) /\
    forall t k, (t, k) <> (t1, Nat.land v1 3) -> (t, k) <> (t2, Nat.land v2 3) -> nei_at m' (Some t) k = nei_at m (Some t) k.
Proof.
  intros E1 E2 L1 L2 V1 V2 NE.
  destruct (bond_tables v1 v2 V1 V2) as (b1 & B1 & _ & _ & F1).
  destruct (bond_tables v2 v1 V2 V1) as (b2 & B2 & _ & _ & F2).
  pose proof (face_lt v1 V1) as K1. pose proof (face_lt v2 V2) as K2.
  set (k1 := Nat.land v1 3) in *. set (k2 := Nat.land v2 3) in *.
  assert (Lt1 : t1 < length (tets m)) by (apply nth_error_Some; congruence).
  assert (Lt2 : t2 < length (tets m)) by (apply nth_error_Some; congruence).
  unfold bond. cbn [tet ver]. rewrite B1. fold k1 k2.
  rewrite (set_nei_spec m t1 k1 _ x1 E1) by lia. rewrite B2.
  set (y1 := Tetra (data x1) (upd (nei x1) k1 (TF (Some t2) b1)) (mask x1)).
  set (m1 := set_tets m (upd (tets m) t1 y1)).
  set (z2 := if t1 =? t2 then y1 else x2).
  assert (Ez : nth_error (tets m1) t2 = Some z2).
  { unfold m1, z2. cbn [tets set_tets]. rewrite nth_error_upd.
    destruct (Nat.eqb_spec t1 t2) as [_|_]; cbn [andb]; [|exact E2].
    replace (t1 <? length (tets m)) with true by (symmetry; now apply Nat.ltb_lt). reflexivity. }
  assert (Lz : length (nei z2) = 4) by (unfold z2, y1; destruct (t1 =? t2); cbn; rewrite ?upd_length; lia).
  rewrite (set_nei_spec m1 t2 k2 _ z2 Ez) by lia.
  eexists. split; [reflexivity|].
  set (y2 := Tetra (data z2) (upd (nei z2) k2 (TF (Some t1) b2)) (mask z2)).
  assert (At : forall t, nth_error (tets (set_tets m1 (upd (tets m1) t2 y2))) t =
     if t2 =? t then Some y2 else if t1 =? t then Some y1 else nth_error (tets m) t).
  { intros t. unfold m1. cbn [tets set_tets]. rewrite nth_error_upd, upd_length.
    replace (t2 <? length (tets m)) with true by (symmetry; now apply Nat.ltb_lt). rewrite andb_true_r.
    destruct (t2 =? t); auto. rewrite nth_error_upd.
    replace (t1 <? length (tets m)) with true by (symmetry; now apply Nat.ltb_lt). rewrite andb_true_r. reflexivity. }
  assert (Dz : data z2 = data x2 /\ mask z2 = mask x2).
  { unfold z2. destruct (Nat.eqb_spec t1 t2) as [->|]; cbn; [|auto]. split; congruence. }
  assert (N1 : nei_at (set_tets m1 (upd (tets m1) t2 y2)) (Some t1) k1 = Some (TF (Some t2) b1)).
  { unfold nei_at, tet_at. rewrite At. destruct (Nat.eqb_spec t2 t1) as [->|N].
    - unfold y2, z2. rewrite Nat.eqb_refl. cbn [nei]. rewrite nth_error_upd_neq by (intros ->; apply NE; reflexivity).
      unfold y1. cbn [nei]. apply nth_error_upd_eq. lia.
    - rewrite Nat.eqb_refl. unfold y1. cbn [nei]. apply nth_error_upd_eq. lia. }
  assert (N2 : nei_at (set_tets m1 (upd (tets m1) t2 y2)) (Some t2) k2 = Some (TF (Some t1) b2)).
  { unfold nei_at, tet_at. rewrite At, Nat.eqb_refl. unfold y2. cbn [nei]. apply nth_error_upd_eq. lia. }
  split; [|split; [|split]].
  - repeat split; auto.
    + unfold m1; cbn; rewrite !upd_length; reflexivity.
    + intros t x Hx. rewrite At. destruct (Nat.eqb_spec t2 t) as [->|].
      * eexists; split; [reflexivity|]. unfold y2; cbn. rewrite upd_length. destruct Dz as [-> ->].
        rewrite E2 in Hx. inversion Hx; subst. repeat split; congruence.
      * destruct (Nat.eqb_spec t1 t) as [->|]; [|eauto].
        eexists; split; [reflexivity|]. unfold y1; cbn. rewrite upd_length. rewrite E1 in Hx. inversion Hx; subst. auto.
  - unfold fsym. cbn [tet ver]. fold k1. rewrite N1. cbn [tet ver]. rewrite F1. reflexivity.
  - unfold fsym. cbn [tet ver]. fold k2. rewrite N2. cbn [tet ver]. rewrite F2. reflexivity.
  - intros t k D1 D2. unfold nei_at, tet_at. rewrite At.
    destruct (Nat.eqb_spec t2 t) as [<-|].
    + rewrite E2. unfold y2. cbn [nei]. rewrite nth_error_upd_neq by (intros <-; apply D2; reflexivity).
      unfold z2. destruct (Nat.eqb_spec t1 t2) as [<-|]; auto.
      unfold y1. cbn [nei]. rewrite nth_error_upd_neq by (intros <-; apply D1; reflexivity). congruence.
    + destruct (Nat.eqb_spec t1 t) as [<-|]; auto. rewrite E1. unfold y1. cbn [nei].
      apply nth_error_upd_neq. intros <-; apply D1; reflexivity.
Qed.

(** fsym at the two other edges of a glued face. *)
Lemma fsym_turn m t v u w : fsym m (TF (Some t) v) = Some (TF (Some u) w) -> v < 12 -> w < 12 ->
  fsym m (TF (Some t) ((v + 4) mod 12)) = Some (TF (Some u) ((w + 8) mod 12)) /\
  fsym m (TF (Some t) ((v + 8) mod 12)) = Some (TF (Some u) ((w + 4) mod 12)).
Proof.
  intros H V W. unfold fsym in *. cbn [tet ver] in *.
  assert (K : forall j, j = 4 \/ j = 8 -> Nat.land ((v + j) mod 12) 3 = Nat.land v 3).
  { intros j [->| ->]; clear -V; versions v; reflexivity. }
  rewrite !K by auto. destruct (nei_at m (Some t) (Nat.land v 3)) as [g|]; [|discriminate].
  destruct (look2 FSYM_TBL v (ver g)) eqn:E; [|discriminate]. inversion H; subst.
  destruct (fsym_tables _ _ _ V W E) as [-> ->]. auto.
Qed.

Lemma fnext_is_fsym_esym m f : (forall k g, nei_at m (tet f) k = Some g -> ver g < 12) ->
  fnext m f = match esym f with Some g => fsym m g | None => None end.
Proof.
  intros H. unfold fnext, esym, by_table, fsym. destruct f as [t v]. cbn [tet ver] in *.
  destruct (lt_dec v 12) as [V|V].
  - assert (E : forallb (fun v => match look FACE_PIVOT1 v, look ESYM_TBL v with
        | Some k, Some e => (k =? Nat.land e 3) && forallb (fun w =>
             match look2 FACE_PIVOT2 v w, look2 FSYM_TBL e w with Some a, Some b => a =? b | _, _ => false end) (seq 0 12)
        | _, _ => false end) (seq 0 12) = true) by (vm_compute; reflexivity).
    rewrite forallb_forall in E. specialize (E v (proj2 (in_seq 12 0 v) (conj (Nat.le_0_l v) V))). cbv beta in E.
    destruct (look FACE_PIVOT1 v) as [k|]; [|discriminate]. destruct (look ESYM_TBL v) as [e|]; [|discriminate].
    cbn [tet ver]. apply andb_prop in E. destruct E as [E1 E2]. apply Nat.eqb_eq in E1. subst k.
    destruct (nei_at m t (Nat.land e 3)) as [[u w]|] eqn:En; [|reflexivity]. apply H in En. cbn [tet ver] in *.
    rewrite forallb_forall in E2. specialize (E2 w (proj2 (in_seq 12 0 w) (conj (Nat.le_0_l w) En))). cbv beta in E2.
    destruct (look2 FACE_PIVOT2 v w) as [x|]; [|discriminate]. destruct (look2 FSYM_TBL e w) as [y|]; [|discriminate].
    apply Nat.eqb_eq in E2. now subst.
  - destruct (look FACE_PIVOT1 v) eqn:E; [apply look_lt in E; cbn in E; lia|].
    destruct (look ESYM_TBL v) eqn:E2; [apply look_lt in E2; cbn in E2; lia|]. reflexivity.
Qed.

(** * The first tetrahedron *)
Lemma set_ok {A} (l : list A) i x : i < length l -> set l i x = Some (upd l i x).
Proof. intros H. unfold set. replace (i <? length l) with true; auto. symmetry. now apply Nat.ltb_lt. Qed.

Definition initial_nei : list (list triface) :=
  Eval vm_compute in
  match initial_tets (TetMesh 4 [] []) 0 1 2 3 with Some (m, _, _) => map nei (tets m) | None => [] end.
Definition initial_data (n pa pb pc pd : nat) : list (list nat) :=
  [[pa; pb; pc; pd]; [pb; pc; pd; n]; [pc; pa; pd; n]; [pa; pb; pd; n]; [pb; pa; pc; n]].
Definition initial_list (n pa pb pc pd : nat) : list tetra :=
  map (fun p => Tetra (fst p) (snd p) 0) (combine (initial_data n pa pb pc pd) initial_nei).

Lemma initial_tets_ok n P pa pb pc pd :
  initial_tets (TetMesh n [] P) pa pb pc pd = Some (TetMesh n (initial_list n pa pb pc pd) P, TF (Some 0) 11, TF (Some 1) 11).
Proof. vm_compute. reflexivity. Qed.

Lemma initial_delaunay_ok n pa pb pc pd : pa < n -> pb < n -> pc < n -> pd < n ->
  initial_delaunay (empty_mesh n) pa pb pc pd =
  Some (TetMesh n (initial_list n pa pb pc pd)
    (upd (upd (upd (upd (upd (repeat None (n + 1)) pa (Some 0)) pb (Some 0)) pc (Some 0)) pd (Some 0)) n (Some 1)), TF (Some 0) 11).
Proof.
  intros. unfold initial_delaunay, empty_mesh. rewrite initial_tets_ok. cbn [p2t n_points tet].
  rewrite !set_ok by (rewrite ?upd_length, repeat_length; lia). reflexivity.
Qed.

Lemma initial_consistent n pa pb pc pd P : consistent (TetMesh n (initial_list n pa pb pc pd) P).
Proof.
  intros t v a b c d Lt V H. cbn in Lt.
  destruct t as [|[|[|[|[|t]]]]]; [..|lia]; versions v; cbn in H; destruct H as (A & B & C & D);
    cbn in A, B, C, D; inversion A; inversion B; inversion C; inversion D; subst;
    (eexists; eexists; eexists; split; [vm_compute; reflexivity|split; [cbn; lia|split; [lia|split; [vm_compute; reflexivity|]]]]);
    repeat split; vm_compute; reflexivity.
Qed.

(** * incident *)
Definition mem (t : nat) (l : list nat) : bool := existsb (Nat.eqb t) l.
Lemma mem_true t l : mem t l = true <-> In t l.
Proof. unfold mem. rewrite existsb_exists. split; [intros (x & Hi & E)|intros H; exists t; split; auto; apply Nat.eqb_refl].
  apply Nat.eqb_eq in E. subst; auto. Qed.
Lemma mem_app t l l' : mem t (l ++ l') = mem t l || mem t l'.
Proof. apply existsb_app. Qed.
Lemma mem_false t l : ~ In t l -> mem t l = false.
Proof. intros H. destruct (mem t l) eqn:E; auto. apply mem_true in E. contradiction. Qed.

(** The mesh with test marks on the given tetrahedra. *)
Definition marked (m m' : tetmesh) (r : list nat) : Prop :=
  n_points m' = n_points m /\ p2t m' = p2t m /\ length (tets m') = length (tets m) /\
  forall t x, nth_error (tets m) t = Some x ->
    nth_error (tets m') t = Some (Tetra (data x) (nei x) (if mem t r then N.lor (mask x) 2 else mask x)).

Lemma marked_nil m : marked m m [].
Proof. repeat split; auto. intros t [d n k] H. exact H. Qed.

Lemma nth_error_ext {A} (l l' : list A) : length l = length l' ->
  (forall i x, nth_error l i = Some x -> nth_error l' i = Some x) -> l' = l.
Proof.
  revert l'. induction l as [|a l IH]; intros [|b l'] L H; cbn in L; try discriminate; auto.
  f_equal; [specialize (H 0 a eq_refl); cbn in H; congruence|]. apply IH; auto. intros i x Hi. apply (H (S i)); auto.
Qed.

Lemma marked_nil_eq m m' : marked m m' [] -> m' = m.
Proof.
  intros (A & B & C & D). destruct m as [n ts p], m' as [n' ts' p']. cbn in *. subst. f_equal.
  apply nth_error_ext; auto. intros i [d nn k] H. rewrite (D _ _ H). reflexivity.
Qed.

Lemma testbit_lor2 k : N.land (N.lor k 2) 2 <> 0%N.
Proof.
  intros H. assert (E : N.testbit (N.land (N.lor k 2) 2) 1 = false) by (rewrite H; reflexivity).
  rewrite N.land_spec, N.lor_spec in E. cbn in E. rewrite orb_true_r in E. discriminate.
Qed.
Lemma testbit_clear k : N.testbit k 1 = false -> N.land k 2 = 0%N.
Proof.
  intros H. apply N.bits_inj. intros i. rewrite N.land_spec, N.bits_0.
  destruct (N.eq_dec i 1) as [->|N1]; [rewrite H; reflexivity|].
  change 2%N with (2 ^ 1)%N. rewrite N.pow2_bits_false by auto. apply andb_false_r.
Qed.
Lemma unmark_lor k : (k <= ones)%N -> N.testbit k 1 = false -> N.land (N.lor k 2) (N.lxor ones 2) = k.
Proof.
  intros L H. change ones with (N.ones 64) in *. apply N.bits_inj. intros i.
  rewrite N.land_spec, N.lor_spec, N.lxor_spec. change 2%N with (2 ^ 1)%N.
  destruct (N.lt_ge_cases i 64) as [Hi|Hi].
  - rewrite N.ones_spec_low by auto. destruct (N.eq_dec i 1) as [->|N1].
    + rewrite N.pow2_bits_true, H. reflexivity.
    + rewrite N.pow2_bits_false by auto. rewrite orb_false_r, andb_true_r. reflexivity.
  - rewrite N.ones_spec_high by auto. rewrite N.pow2_bits_false by lia. rewrite andb_false_r.
    symmetry. destruct (N.eq_dec k 0) as [->|Nk]; [apply N.bits_0|]. apply N.bits_above_log2.
    rewrite N.ones_equiv in L. assert (k < 2 ^ 64)%N by (change (2 ^ 64)%N with (N.succ (N.pred (2 ^ 64))); lia).
    apply N.lt_le_trans with 64%N; auto. apply N.log2_lt_pow2; auto. lia.
Qed.

Lemma NoDup_app_iff_snoc (l : list nat) x : NoDup l -> ~ In x l -> NoDup (l ++ [x]).
Proof.
  induction l as [|a l IH]; cbn; intros H N; [constructor; auto; constructor|].
  inversion H; subst. constructor; [|apply IH; auto; tauto]. rewrite in_app_iff. cbn. intuition congruence.
Qed.

Section Incident.
  Variables (m : tetmesh) (vid : nat).
  Hypothesis L : linked m.

  Lemma marked_mark m' r n x : marked m m' r -> nth_error (tets m) n = Some x -> ~ In n r ->
    exists m'', mark_test m' (Some n) = Some m'' /\ marked m m'' (r ++ [n]).
  Proof.
    intros (A & B & C & D) Hx Hn. pose proof (D _ _ Hx) as E. rewrite (mem_false _ _ Hn) in E.
    unfold mark_test, set_mask, on_tet. rewrite E.
    rewrite set_ok by (rewrite C; apply nth_error_Some; congruence). cbn [data nei mask].
    eexists. split; [reflexivity|]. repeat split; cbn; auto; [rewrite upd_length; auto|].
    intros t y Hy. rewrite nth_error_upd.
    replace (n <? length (tets m')) with true by (symmetry; apply Nat.ltb_lt; rewrite C; apply nth_error_Some; congruence).
    rewrite andb_true_r. rewrite mem_app. destruct (Nat.eqb_spec n t) as [<-|N].
    - replace (mem n [n]) with true by (cbn; rewrite Nat.eqb_refl; reflexivity). rewrite orb_true_r. congruence.
    - replace (mem t [n]) with false by (cbn; destruct (Nat.eqb_spec t n); auto; congruence). rewrite orb_false_r. auto.
  Qed.

  Lemma marked_tested m' r n x : marked m m' r -> nth_error (tets m) n = Some x -> mark_tested m' (Some n) = Some (mem n r).
  Proof.
    intros (A & B & C & D) Hx. unfold mark_tested, tet_at. rewrite (D _ _ Hx). cbn [mask]. f_equal.
    destruct (mem n r).
    - pose proof (testbit_lor2 (mask x)). destruct (N.eqb_spec (N.land (N.lor (mask x) 2) 2) 0); auto; contradiction.
    - destruct (L _ _ Hx) as (_ & _ & _ & _ & T & _). rewrite (testbit_clear _ T). reflexivity.
  Qed.

  Lemma marked_hull m' r n x d : marked m m' r -> nth_error (tets m) n = Some x -> nth_error (data x) 3 = Some d ->
    is_hull_tet m' (Some n) = Some (d =? n_points m).
  Proof. intros (A & B & C & D) Hx Hd. unfold is_hull_tet, tet_at. rewrite (D _ _ Hx). cbn [data]. rewrite Hd, A. reflexivity. Qed.

  Lemma linked_nei t x i : nth_error (tets m) t = Some x -> i < 4 ->
    exists u k y d, nth_error (nei x) i = Some (TF (Some u) k) /\ nth_error (tets m) u = Some y /\ nth_error (data y) 3 = Some d /\
      forall j v, nth_error (data x) j = Some v -> j <> i -> In v (data y).
  Proof.
    intros Hx Hi. destruct (L _ _ Hx) as (_ & Ln & _ & _ & _ & N).
    destruct (nth_error (nei x) i) as [[u k]|] eqn:E; [|apply nth_error_None in E; lia].
    destruct (N _ _ E) as (u' & y & Eu & Ey & S). cbn in Eu. subst.
    destruct (L _ _ Ey) as (Ld & _).
    destruct (nth_error (data y) 3) as [d|] eqn:E3; [|apply nth_error_None in E3; lia].
    exists u', k, y, d. auto.
  Qed.

  Lemma incident_nei_ok t x pos : nth_error (tets m) t = Some x ->
    forall is m' r, (forall i, In i is -> i < 4) -> marked m m' r -> NoDup r ->
    exists m'' e, incident_nei m' t pos is r = Some (m'', r ++ e) /\ marked m m'' (r ++ e) /\ NoDup (r ++ e) /\
      (forall u, In u e -> exists i k y, i <> pos /\ nth_error (nei x) i = Some (TF (Some u) k) /\
          nth_error (tets m) u = Some y /\ nth_error (data y) 3 <> Some (n_points m)) /\
      (forall i u k y, In i is -> i <> pos -> nth_error (nei x) i = Some (TF (Some u) k) -> nth_error (tets m) u = Some y ->
          nth_error (data y) 3 <> Some (n_points m) -> In u (r ++ e)).
  Proof.
    intros Hx. induction is as [|i is IH]; intros m' r Hi M ND.
    - exists m', []. rewrite app_nil_r. cbn. repeat (split; auto). intros ? []. intros ? ? ? ? [].
    - cbn [incident_nei]. destruct (Nat.eqb_spec i pos) as [->|Np].
      + destruct (IH m' r) as (m'' & e & E & M' & N' & S & C); auto; [intros; apply Hi; now right|].
        exists m'', e. repeat (split; auto). intros j u k y [<-|Hj]; [congruence|eauto].
      + destruct (linked_nei t x i Hx) as (u & k & y & d & En & Ey & Ed & _); [apply Hi; now left|].
        assert (Nf : nei_at m' (Some t) i = Some (TF (Some u) k)).
        { unfold nei_at, tet_at. destruct M as (_ & _ & _ & D). rewrite (D _ _ Hx). exact En. }
        rewrite Nf. cbn [tet]. rewrite (marked_tested m' r u y M Ey).
        destruct (mem u r) eqn:Em.
        * destruct (IH m' r) as (m'' & e & E & M' & N' & S & C); auto; [intros; apply Hi; now right|].
          exists m'', e. repeat (split; auto). intros j u' k' y' [<-|Hj]; [|eauto].
          intros _ En' _ _. rewrite En in En'. inversion En'; subst. apply in_or_app; left. now apply mem_true.
        * rewrite (marked_hull m' r u y d M Ey Ed).
          destruct (Nat.eqb_spec d (n_points m)) as [Eh|Nh].
          -- destruct (IH m' r) as (m'' & e & E & M' & N' & S & C); auto; [intros; apply Hi; now right|].
             exists m'', e. repeat (split; auto). intros j u' k' y' [<-|Hj]; [|eauto].
             intros _ En' Ey' Nd. rewrite En in En'. inversion En'; subst. rewrite Ey in Ey'. inversion Ey'; subst.
             congruence.
          -- assert (Nu : ~ In u r) by (intros Hu; apply mem_true in Hu; congruence).
             destruct (marked_mark m' r u y M Ey Nu) as (m1 & E1 & M1). rewrite E1.
             destruct (IH m1 (r ++ [u])) as (m'' & e & E & M' & N' & S & C); auto.
             { intros; apply Hi; now right. }
             { apply NoDup_app_iff_snoc; auto. }
             exists m'', (u :: e). rewrite <- app_assoc in *. cbn [app] in *. repeat (split; auto).
             ++ intros u' [<-|Hu']; [|auto]. exists i, k, y. repeat (split; auto). congruence.
             ++ intros j u' k' y' [<-|Hj]; [|eauto].
                intros _ En' _ _. rewrite En in En'. inversion En'; subst. apply in_or_app; right; now left.
  Qed.
End Incident.

Section Incident2.
  Variables (m : tetmesh) (vid : nat).
  Hypothesis L : linked m.

  Lemma index_of_some l : In vid l -> exists p, index_of vid l = Some p /\ nth_error l p = Some vid.
  Proof.
    induction l as [|a l IH]; [intros []|]. cbn. intros H. destruct (Nat.eqb_spec a vid) as [->|N]; [exists 0; auto|].
    destruct H as [H|H]; [contradiction|]. destruct (IH H) as (p & -> & E). exists (S p). auto.
  Qed.

  Lemma nth_error_NoDup (l : list nat) i j x : NoDup l -> nth_error l i = Some x -> nth_error l j = Some x -> i = j.
  Proof.
    intros H A B. eapply NoDup_nth_error; eauto; [apply nth_error_Some; congruence|congruence].
  Qed.

  Variable t0 : nat.
  Definition good (r : list nat) : Prop :=
    NoDup r /\ (forall t, In t r -> star m vid t0 t /\ exists x, nth_error (tets m) t = Some x /\ In vid (data x)).
  Definition closed_upto (idx : nat) (r : list nat) : Prop :=
    forall j t u, j < idx -> nth_error r j = Some t -> across m vid t u -> In u r.

  Lemma good_length r : good r -> length r <= length (tets m).
  Proof.
    intros (ND & G). rewrite <- (seq_length (length (tets m)) 0). apply NoDup_incl_length; auto.
    intros t Ht. destruct (G _ Ht) as (_ & x & Hx & _). apply in_seq. split; [lia|]. cbn. apply nth_error_Some. congruence.
  Qed.

  Lemma incident_loop_ok fuel : forall m' idx r, marked m m' r -> good r -> closed_upto idx r -> idx <= length r ->
    S (length (tets m)) <= fuel + idx ->
    exists m'' r', incident_loop m' vid idx r fuel = Some (m'', r') /\ marked m m'' r' /\ good r' /\
      closed_upto (length r') r' /\ exists e, r' = r ++ e.
  Proof.
    induction fuel as [|fuel IH]; intros m' idx r M G C Li F.
    - pose proof (good_length r G). lia.
    - cbn [incident_loop]. destruct (nth_error r idx) as [t|] eqn:Et.
      + pose proof (nth_error_In _ _ Et) as Ht. destruct G as (ND & G). destruct (G _ Ht) as (St & x & Hx & Vx).
        assert (Hx' : exists k, tet_at m' (Some t) = Some (Tetra (data x) (nei x) k))
          by (destruct M as (_ & _ & _ & D); unfold tet_at; rewrite (D _ _ Hx); eauto).
        destruct Hx' as (k0 & Hx'). rewrite Hx'. cbn [data].
        destruct (index_of_some _ Vx) as (pos & Ep & Np). rewrite Ep.
        destruct (incident_nei_ok m L t x pos Hx (seq 0 4) m' r) as (m1 & e & E1 & M1 & N1 & S1 & C1); auto.
        { intros i Hi. apply in_seq in Hi. lia. }
        rewrite E1. destruct (L _ _ Hx) as (Ld & Ln & NDx & _ & _ & Nx).
        assert (G1 : good (r ++ e)).
        { split; auto. intros u Hu. apply in_app_or in Hu. destruct Hu as [Hu|Hu]; [auto|].
          destruct (S1 _ Hu) as (i & k & y & Ni & En & Ey & Hh). split.
          - eapply star_next; [exact St|]. exists x, y, i, k. repeat (split; auto).
            intros Ev. apply Ni. eapply nth_error_NoDup; eauto.
          - exists y. split; auto. destruct (Nx _ _ En) as (u' & y' & Eu & Ey' & Sh). cbn in Eu. inversion Eu; subst.
            rewrite Ey in Ey'. inversion Ey'; subst. eapply Sh; eauto. }
        destruct (IH m1 (S idx) (r ++ e)) as (m'' & r' & E2 & M2 & G2 & C2 & e' & ->); auto.
        * intros j t' u Hj Ej Ac. apply Nat.lt_succ_r in Hj. 
          assert (Lidx : idx < length r) by (apply nth_error_Some; congruence).
          destruct (Nat.eq_dec j idx) as [->|Nj].
          -- rewrite nth_error_app1 in Ej by auto. rewrite Et in Ej. inversion Ej; subst t'.
             destruct Ac as (x' & y & i & k & Ex' & En & Nv & Ey & Hh). rewrite Hx in Ex'. inversion Ex'; subst x'.
             apply (C1 i u k y); auto.
             ++ apply in_seq. assert (i < length (nei x)) by (apply nth_error_Some; congruence). lia.
             ++ intros ->. contradiction.
          -- rewrite nth_error_app1 in Ej by lia. apply in_or_app; left. eapply (C j); eauto. lia.
        * rewrite app_length. assert (idx < length r) by (apply nth_error_Some; congruence). lia.
        * lia.
        * exists m'', ((r ++ e) ++ e'). repeat (split; auto). exists (e ++ e'). symmetry; apply app_assoc.
      + exists m', r. apply nth_error_None in Et. repeat (split; auto).
        * intros j t u Hj. apply C. lia.
        * exists []. now rewrite app_nil_r.
  Qed.

  Lemma unmark_all_ok l : forall m', marked m m' l -> NoDup l -> (forall t, In t l -> t < length (tets m)) ->
    unmark_all m' l = Some m.
  Proof.
    induction l as [|t l IH]; intros m' M ND H.
    - cbn. f_equal. now apply marked_nil_eq.
    - cbn [unmark_all]. assert (Ht : t < length (tets m)) by (apply H; now left).
      destruct (nth_error (tets m) t) as [x|] eqn:Hx; [|apply nth_error_None in Hx; lia].
      destruct M as (A & B & C & D). pose proof (D _ _ Hx) as E.
      replace (mem t (t :: l)) with true in E by (cbn; now rewrite Nat.eqb_refl).
      inversion ND as [|? ? Nt NDl]; subst.
      destruct (L _ _ Hx) as (_ & _ & _ & Lo & Tb & _).
      unfold unmark_test, set_mask, on_tet. rewrite E, set_ok by (rewrite C; auto). cbn [data nei mask].
      rewrite unmark_lor by auto. apply IH; auto; [|intros; apply H; now right].
      repeat split; cbn; auto; [rewrite upd_length; auto|].
      intros u y Hy. rewrite nth_error_upd.
      replace (t <? length (tets m')) with true by (symmetry; apply Nat.ltb_lt; lia). rewrite andb_true_r.
      destruct (Nat.eqb_spec t u) as [<-|N].
      + rewrite (mem_false t l Nt). rewrite Hx in Hy. inversion Hy; subst. reflexivity.
      + rewrite (D _ _ Hy). cbn [mem existsb]. destruct (Nat.eqb_spec u t); [congruence|]. reflexivity.
  Qed.

  Lemma incident_ok x : nth_error (p2t m) vid = Some (Some t0) -> nth_error (tets m) t0 = Some x -> In vid (data x) ->
    exists e, incident m vid = Some (m, t0 :: e) /\ NoDup (t0 :: e) /\
      (forall t, In t (t0 :: e) <-> star m vid t0 t) /\
      forall t, In t (t0 :: e) -> exists y, nth_error (tets m) t = Some y /\ In vid (data y).
  Proof.
    intros Hp Hx Hv. unfold incident. rewrite Hp.
    destruct (marked_mark m m [] t0 x (marked_nil m) Hx (fun h => h)) as (m1 & E1 & M1). rewrite E1. cbn [app] in M1.
    destruct (incident_loop_ok (S (length (tets m))) m1 0 [t0]) as (m2 & r & E2 & M2 & (ND & G) & C2 & e & ->); auto.
    - split; [repeat constructor; intros []|]. intros t [<-|[]]. split; [constructor|eauto].
    - intros j t u Hj. lia.
    - cbn; lia.
    - lia.
    - rewrite E2. cbn [app] in *. rewrite unmark_all_ok; auto.
      + exists e. repeat (split; auto).
        * intros Ht. now apply G.
        * intros Hs. induction Hs as [|t u Hs IH Ac]; [now left|].
          apply In_nth_error in IH. destruct IH as (j & Ej). eapply (C2 j); eauto. apply nth_error_Some. congruence.
        * intros t Ht. now apply G.
      + intros t Ht. destruct (G _ Ht) as (_ & y & Hy & _). apply nth_error_Some. congruence.
  Qed.
End Incident2.

(** * Points without a tetrahedron stay so until they are inserted *)
Definition untouched (m m' : tetmesh) (pid : nat) : Prop :=
  n_points m' = n_points m /\ forall i, i <> pid -> nth_error (p2t m) i = Some None -> nth_error (p2t m') i = Some None.
Lemma untouched_refl m pid : untouched m m pid. Proof. split; auto. Qed.
Lemma untouched_trans m1 m2 m3 pid : untouched m1 m2 pid -> untouched m2 m3 pid -> untouched m1 m3 pid.
Proof. intros (A & B) (C & D). split; [congruence|auto]. Qed.

Ltac oinv H := repeat match type of H with
  | match ?e with _ => _ end = Some _ => let E := fresh "E" in destruct e eqn:E; try discriminate H
  end.

Lemma on_tet_p2t m t f m' : on_tet m t f = Some m' -> p2t m' = p2t m /\ n_points m' = n_points m.
Proof. unfold on_tet. intros H. oinv H. inversion H; subst. auto. Qed.
Lemma set_nei_p2t m t k g m' : set_nei m t k g = Some m' -> p2t m' = p2t m /\ n_points m' = n_points m.
Proof. apply on_tet_p2t. Qed.
Lemma set_mask_p2t f m t m' : set_mask f m t = Some m' -> p2t m' = p2t m /\ n_points m' = n_points m.
Proof. apply on_tet_p2t. Qed.
Lemma same_untouched m m' pid : p2t m' = p2t m /\ n_points m' = n_points m -> untouched m m' pid.
Proof. intros (A & B). split; auto. now rewrite A. Qed.

Lemma bond_p2t m f g m' : bond m f g = Some m' -> p2t m' = p2t m /\ n_points m' = n_points m.
Proof.
  unfold bond. intros H. oinv H. apply set_nei_p2t in H, E0. intuition congruence.
Qed.
Lemma spin_p2t fuel : forall m s0 s cave m' cave', spin m s0 s cave fuel = Some (m', cave') -> p2t m' = p2t m /\ n_points m' = n_points m.
Proof.
  induction fuel as [|fuel IH]; cbn [spin]; intros m s0 s cave m' cave' H; [discriminate|].
  destruct (infect m (tet s)) as [m1|] eqn:E1; [|discriminate]. apply set_mask_p2t in E1.
  oinv H; [inversion H; subst; auto|]. apply IH in H. intuition congruence.
Qed.
Lemma seed_p2t m l s m' cave : seed_cavity m l s = Some (m', cave) -> p2t m' = p2t m /\ n_points m' = n_points m.
Proof.
  unfold seed_cavity. intros H. destruct l.
  - oinv H. apply set_mask_p2t in E. inversion H; subst; auto.
  - discriminate.
  - eapply spin_p2t; eauto.
  - oinv H. apply set_mask_p2t in E, E2. inversion H; subst; intuition congruence.
  - oinv H. apply set_mask_p2t in E. inversion H; subst; auto.
Qed.
Lemma grow_faces_p2t o3 isp pid c vs : forall m cave bdry m' cave' bdry',
  grow_faces o3 isp m pid c vs cave bdry = Some (m', cave', bdry') -> p2t m' = p2t m /\ n_points m' = n_points m.
Proof.
  induction vs as [|v vs IH]; cbn [grow_faces]; intros m cave bdry m' cave' bdry' H; [inversion H; auto|].
  destruct (nei_at m (Some c) v) as [nf|]; [|discriminate]. destruct (infected m (tet nf)) as [[|]|]; [eapply IH; eauto| |discriminate].
  destruct (mark_tested m (tet nf)) as [t|]; [|discriminate].
  assert (G : forall m1 e, (if t then Some (m, false) else match enqueue o3 isp m pid (tet nf) with
      | Some e => match mark_test m (tet nf) with Some m' => Some (m', e) | None => None end | None => None end) = Some (m1, e) ->
      p2t m1 = p2t m /\ n_points m1 = n_points m).
  { intros m1 e E. destruct t; [inversion E; auto|]. oinv E. apply set_mask_p2t in E1. inversion E; subst; auto. }
  match type of H with match ?x with _ => _ end = _ => destruct x as [[m1 e]|] eqn:E; [|discriminate] end.
  specialize (G m1 e eq_refl). destruct e.
  - oinv H. apply IH in H. apply set_mask_p2t in E0. intuition congruence.
  - apply IH in H. intuition congruence.
Qed.
Lemma grow_p2t o3 isp pid fuel : forall m idx cave bdry m' cave' bdry',
  grow o3 isp m pid idx cave bdry fuel = Some (m', cave', bdry') -> p2t m' = p2t m /\ n_points m' = n_points m.
Proof.
  induction fuel as [|fuel IH]; cbn [grow]; intros m idx cave bdry m' cave' bdry' H; [discriminate|].
  destruct (nth_error cave idx); [|inversion H; auto].
  destruct (grow_faces o3 isp m pid n (seq 0 4) cave bdry) as [[[m1 c1] b1]|] eqn:E; [|discriminate].
  apply grow_faces_p2t in E. apply IH in H. intuition congruence.
Qed.
Lemma update_p2t_untouched pid nt q vs : forall m m', update_p2t m pid nt vs = Some m' -> untouched m m' q.
Proof.
  induction vs as [|v vs IH]; cbn [update_p2t]; intros m m' H; [inversion H; apply untouched_refl|].
  destruct (nth_error (p2t m) v) as [t|] eqn:Et; [|discriminate].
  destruct (tet_at m t) as [x|] eqn:Ex; [|discriminate]. destruct (nth_error (data x) 2) as [d|]; [|discriminate].
  destruct (d =? pid); [apply IH; auto|].
  destruct (set (p2t m) v (Some nt)) as [p|] eqn:Es; [|discriminate].
  eapply untouched_trans; [|apply IH; exact H]. split; auto. intros i _ Hi. cbn [p2t set_p2t].
  unfold set in Es. destruct (v <? length (p2t m)); [|discriminate]. inversion Es; subst.
  rewrite nth_error_upd_neq; auto. intros <-. rewrite Et in Hi. inversion Hi; subst. discriminate.
Qed.
Lemma fill_untouched pid q bdry : forall m fm m' r fm', fill m pid bdry fm = Some (m', r, fm') -> untouched m m' q.
Proof.
  induction bdry as [|old bdry IH]; cbn [fill]; intros m fm m' r fm' H; [inversion H; apply untouched_refl|].
  destruct (nei_at m (tet old) (ver old)) as [nt|]; [|discriminate].
  destruct (unmark_test m (tet nt)) as [m1|] eqn:E1; [|discriminate].
  destruct (is_hull_tet m1 (tet old)) as [h|]; [|discriminate].
  match type of H with match ?x with _ => _ end = _ => destruct x as [nv|]; [|discriminate] end. cbv zeta in H.
  destruct (dest m1 _) as [v0|]; [|discriminate]. destruct (org m1 _) as [v1|]; [|discriminate]. destruct (apex m1 _) as [v2|]; [|discriminate].
  unfold make_tet in H. cbv beta iota zeta in H. cbn [tet ver] in H.
  match type of H with match ?x with _ => _ end = _ => destruct x as [m2|] eqn:E2; [|discriminate] end.
  destruct (look COL_V02_TBL nv) as [cc|]; [|discriminate].
  match type of H with match ?x with _ => _ end = _ => destruct x as [m3|] eqn:E3; [|discriminate] end.
  match type of H with match ?x with _ => _ end = _ => destruct x as [m4|] eqn:E4; [|discriminate] end.
  match type of H with match ?x with _ => _ end = _ => destruct x as [[[m5 r5] fm5]|] eqn:E5; [|discriminate] end.
  inversion H; subst.
  apply IH in E5. apply update_p2t_untouched with (q := q) in E4. apply set_nei_p2t in E2, E3. apply set_mask_p2t in E1.
  eapply untouched_trans; [|exact E5]. eapply untouched_trans; [|exact E4]. apply same_untouched.
  cbn [p2t n_points set_tets] in *. intuition congruence.
Qed.
Lemma connect_p2t m fm t v row col m' : connect m fm t v row col = Some m' -> p2t m' = p2t m /\ n_points m' = n_points m.
Proof.
  unfold connect. intros H. destruct (nei_at m t (Nat.land v 3)) as [nf|]; [|discriminate].
  destruct (tet nf); [inversion H; auto|]. oinv H. apply set_nei_p2t in H, E4. intuition congruence.
Qed.
Lemma connect_all_p2t fm l : forall m m', connect_all m fm l = Some m' -> p2t m' = p2t m /\ n_points m' = n_points m.
Proof.
  induction l as [|f l IH]; cbn [connect_all]; intros m m' H; [inversion H; auto|].
  destruct (connect m fm (tet f) 11 ROW_V11_TBL COL_V11_TBL) as [m1|] eqn:E1; [|discriminate].
  destruct (connect m1 fm (tet f) 1 ID_TBL COL_V01_TBL) as [m2|] eqn:E2; [|discriminate].
  destruct (connect m2 fm (tet f) 8 ROW_V08_TBL COL_V08_TBL) as [m3|] eqn:E3; [|discriminate].
  apply connect_p2t in E1, E2, E3. apply IH in H. intuition congruence.
Qed.
Lemma kill_all_p2t l : forall m m', kill_all m l = Some m' -> p2t m' = p2t m /\ n_points m' = n_points m.
Proof.
  induction l as [|t l IH]; cbn [kill_all]; intros m m' H; [inversion H; auto|].
  destruct (set_mask (fun _ => ones) m (Some t)) as [m1|] eqn:E; [|discriminate]. apply set_mask_p2t in E. apply IH in H. intuition congruence.
Qed.
Lemma fill_large_untouched pid q bdry : forall m m', fill_large m pid bdry = Some m' -> untouched m m' q.
Proof.
  induction bdry as [|old bdry IH]; cbn [fill_large]; intros m m' H; [inversion H; apply untouched_refl|].
  destruct (nei_at m (tet old) (ver old)) as [nt|]; [|discriminate].
  destruct (unmark_test m (tet nt)) as [m1|] eqn:E1; [|discriminate].
  destruct (is_hull_tet m1 (tet old)) as [h|]; [|discriminate].
  match type of H with match ?x with _ => _ end = _ => destruct x as [nv|]; [|discriminate] end. cbv zeta in H.
  destruct (dest m1 _) as [v0|]; [|discriminate]. destruct (org m1 _) as [v1|]; [|discriminate]. destruct (apex m1 _) as [v2|]; [|discriminate].
  unfold make_tet in H. cbv beta iota zeta in H. cbn [tet ver] in H.
  match type of H with match ?x with _ => _ end = _ => destruct x as [m2|] eqn:E2; [|discriminate] end.
  destruct (look COL_V02_TBL nv) as [cc|]; [|discriminate].
  match type of H with match ?x with _ => _ end = _ => destruct x as [m3|] eqn:E3; [|discriminate] end.
  match type of H with match ?x with _ => _ end = _ => destruct x as [m4|] eqn:E4; [|discriminate] end.
  apply IH in H. apply update_p2t_untouched with (q := q) in E4. apply set_nei_p2t in E2, E3. apply set_mask_p2t in E1.
  eapply untouched_trans; [|exact H]. eapply untouched_trans; [|exact E4]. apply same_untouched.
  cbn [p2t n_points set_tets] in *. intuition congruence.
Qed.
Lemma connect_large_p2t k : forall m nw ol m', connect_large m nw ol k = Some m' -> p2t m' = p2t m /\ n_points m' = n_points m.
Proof.
  induction k as [|k IH]; cbn [connect_large]; intros m nw ol m' H; [inversion H; auto|].
  destruct (esym nw) as [nt|]; [|discriminate]. destruct (nei_at m (tet nt) (Nat.land (ver nt) 3)) as [nf|]; [|discriminate].
  match type of H with match ?x with _ => _ end = _ => destruct x as [m1|] eqn:E; [|discriminate] end.
  assert (G : p2t m1 = p2t m /\ n_points m1 = n_points m).
  { destruct (tet nf); [inversion E; auto|]. oinv E. eapply bond_p2t; eauto. }
  oinv H. apply IH in H. intuition congruence.
Qed.
Lemma connect_all_large_p2t l : forall m m', connect_all_large m l = Some m' -> p2t m' = p2t m /\ n_points m' = n_points m.
Proof.
  induction l as [|f l IH]; cbn [connect_all_large]; intros m m' H; [inversion H; auto|].
  oinv H. apply connect_large_p2t in E1. apply IH in H. intuition congruence.
Qed.

Lemma insert_untouched limit o3 isp m pid s fuel m' s' b :
  insert_vertex limit o3 isp m pid s fuel = Some (m', s', b) -> untouched m m' pid /\ (b = false -> m' = m).
Proof.
  unfold insert_vertex. destruct (locate_dt o3 m pid s fuel) as [[loc s1]|]; [|discriminate].
  destruct loc; try (intros H; inversion H; subst; split; [apply untouched_refl|auto]; fail);
  (match goal with |- context [seed_cavity m ?l s1] => destruct (seed_cavity m l s1) as [[m1 cave]|] eqn:E1; [|discriminate] end;
   destruct (grow o3 isp m1 pid 0 cave [] (S (length (tets m1)))) as [[[m2 cave2] bdry]|] eqn:E2; [|discriminate];
   cbv zeta; apply seed_p2t in E1; apply grow_p2t in E2;
   destruct ((length bdry + 4) / 2 <? limit); intros H;
   [ destruct (fill m2 pid bdry []) as [[[m3 news] fm]|] eqn:E3; [|discriminate];
     destruct (nth_error news (length bdry / 2)) as [s2|]; [|discriminate];
     destruct (set (p2t m3) pid (tet s2)) as [p|] eqn:Es; [|discriminate];
     destruct (connect_all (set_p2t m3 p) fm news) as [m4|] eqn:E4; [|discriminate];
     destruct (kill_all m4 cave2) as [m5|] eqn:E5; [|discriminate]; inversion H; subst;
     apply fill_untouched with (q := pid) in E3; apply connect_all_p2t in E4
   | destruct (fill_large m2 pid bdry) as [m3|] eqn:E3; [|discriminate];
     destruct (nth_error bdry (length bdry / 2)) as [s2|]; [|discriminate];
     destruct (set (p2t m3) pid (tet s2)) as [p|] eqn:Es; [|discriminate];
     destruct (connect_all_large (set_p2t m3 p) bdry) as [m4|] eqn:E4; [|discriminate];
     destruct (kill_all m4 cave2) as [m5|] eqn:E5; [|discriminate]; inversion H; subst;
     apply fill_large_untouched with (q := pid) in E3; apply connect_all_large_p2t in E4 ];
   apply kill_all_p2t in E5; cbn [p2t n_points set_p2t] in *;
   (split; [|discriminate]);
   (unfold set in Es; destruct (pid <? length (p2t m3)); [|discriminate]; inversion Es; subst p);
   destruct E3 as (E31 & E32);
   (split; [intuition congruence|]);
   (intros i Ni Hi; destruct E5 as (-> & _), E4 as (-> & _); rewrite nth_error_upd_neq by auto;
    apply E32; auto; destruct E2 as (-> & _), E1 as (-> & _); exact Hi)).
Qed.

Lemma insert_all_untouched o3 isp fuel i l : forall m s m', insert_all o3 isp m s l fuel = Some m' ->
  ~ In i l -> nth_error (p2t m) i = Some None -> n_points m' = n_points m /\ nth_error (p2t m') i = Some None.
Proof.
  induction l as [|pid l IH]; cbn [insert_all]; intros m s m' H Ni Hi; [inversion H; subst; auto|].
  destruct (insert_vertex_bw o3 isp m pid s fuel) as [[[m1 s1] b]|] eqn:E; [|discriminate].
  apply insert_untouched in E. destruct E as ((A & B) & D). cbn in Ni. destruct b.
  - apply IH in H; [|tauto|apply B; auto]. intuition congruence.
  - inversion H; subst. rewrite (D eq_refl). auto.
Qed.

Lemma omap_none {A B} (f : A -> option B) l x : In x l -> f x = None -> omap f l = None.
Proof.
  induction l as [|a l IH]; [intros []|]. cbn. intros [->|Hi] Hf; [now rewrite Hf|].
  rewrite IH by auto. destruct (f a); auto.
Qed.
Lemma compact_none m i : i < n_points m -> nth_error (p2t m) i = Some None -> compact m = None.
Proof.
  intros Hi Hp. unfold compact. match goal with |- match ?e with _ => _ end = _ => destruct e; auto end. cbv zeta.
  erewrite (omap_none _ _ i); [reflexivity|apply in_seq; lia|]. rewrite Hp. reflexivity.
Qed.
