(** C41 (versions and bonding), C43 (incident), C45 (duplicate points),
    C50 (triangle_at_tet), C55 (the first tetrahedron). *)
From Coq Require Import List Arith Bool ZArith NArith Reals Lia Lra.
From Verif Require Import Lib Geo Tet TetSpec TetProofs TetFace TetFaceProofs.
Import ListNotations.

(** * C41 *)

(** Moving between the versions of one tetrahedron: with (origin, destination,
    apex, opposite) = (a, b, c, d), the face stays and turns, or the edge stays
    and the other face at it is taken, and the combinations of both. *)
Theorem C41_moves m f a b c d : corners m f a b c d ->
  (exists g, enext f = Some g /\ tet g = tet f /\ corners m g b c a d) /\
  (exists g, eprev f = Some g /\ tet g = tet f /\ corners m g c a b d) /\
  (exists g, esym f = Some g /\ tet g = tet f /\ corners m g b a d c) /\
  (exists g, enext_esym f = Some g /\ tet g = tet f /\ corners m g c b d a) /\
  (exists g, eprev_esym f = Some g /\ tet g = tet f /\ corners m g a c d b).
Proof. apply corners_moves. Qed.

(** The twelve versions are the twelve even arrangements of the corners, each
    once. *)
Lemma versions_even : forall v, v < 12 ->
  even_arrangement [nth v ORG_PIVOT 0; nth v DEST_PIVOT 0; nth v APEX_PIVOT 0; nth v OPPO_PIVOT 0].
Proof.
  intros v V. split; [|versions v; split; reflexivity].
  intros i. versions v; cbn; lia.
Qed.
Theorem C41_versions m t x v : nth_error (tets m) t = Some x -> length (data x) = 4 -> v < 12 ->
  exists i j k l, even_arrangement [i; j; k; l] /\
    corners m (TF (Some t) v) (nth i (data x) 0) (nth j (data x) 0) (nth k (data x) 0) (nth l (data x) 0).
Proof.
  intros Hx Ld V. pose proof (versions_even v V) as E.
  exists (nth v ORG_PIVOT 0), (nth v DEST_PIVOT 0), (nth v APEX_PIVOT 0), (nth v OPPO_PIVOT 0). split; auto.
  destruct E as (E & _). rewrite (corners_data m t v x) by exact Hx.
  split; auto. repeat split; apply nth_error_nth'; rewrite Ld; apply E; cbn; auto.
Qed.
Theorem C41_all_versions m t x i j k l : nth_error (tets m) t = Some x -> length (data x) = 4 ->
  even_arrangement [i; j; k; l] ->
  exists! v, v < 12 /\ forall D, length D = 4 ->
    corners (TetMesh (n_points m) (upd (tets m) t (Tetra D (nei x) (mask x))) (p2t m)) (TF (Some t) v)
      (nth i D 0) (nth j D 0) (nth k D 0) (nth l D 0).
Proof.
  intros Hx Ld (E & _ & Ev).
  assert (Ht : t < length (tets m)) by (apply nth_error_Some; congruence).
  assert (At : forall D, nth_error (upd (tets m) t (Tetra D (nei x) (mask x))) t = Some (Tetra D (nei x) (mask x)))
    by (intros; apply nth_error_upd_eq; auto).
  assert (B : i < 4 /\ j < 4 /\ k < 4 /\ l < 4) by (repeat split; apply E; cbn; auto).
  destruct B as (Bi & Bj & Bk & Bl).
  assert (Dist : i <> j /\ i <> k /\ i <> l /\ j <> k /\ j <> l /\ k <> l).
  { pose proof (proj2 (E 0) ltac:(lia)). pose proof (proj2 (E 1) ltac:(lia)). pose proof (proj2 (E 2) ltac:(lia)).
    pose proof (proj2 (E 3) ltac:(lia)). cbn in *. lia. }
  assert (F : exists v, v < 12 /\ nth v ORG_PIVOT 0 = i /\ nth v DEST_PIVOT 0 = j /\ nth v APEX_PIVOT 0 = k /\ nth v OPPO_PIVOT 0 = l).
  { clear -Bi Bj Bk Bl Dist Ev.
    assert (G : existsb (fun v => (nth v ORG_PIVOT 0 =? i) && (nth v DEST_PIVOT 0 =? j) && (nth v APEX_PIVOT 0 =? k) && (nth v OPPO_PIVOT 0 =? l)) (seq 0 12) = true).
    { do 4 (destruct i as [|i]; [do 4 (destruct j as [|j]; [do 4 (destruct k as [|k]; [do 4 (destruct l as [|l];
        [first [reflexivity | exfalso; lia | discriminate Ev]|]); lia|]); lia|]); lia|]); lia. }
    apply existsb_exists in G. destruct G as (v & Hv & G). apply in_seq in Hv.
    apply andb_prop in G. destruct G as (G & G4). apply andb_prop in G. destruct G as (G & G3). apply andb_prop in G. destruct G as (G1 & G2).
    apply Nat.eqb_eq in G1, G2, G3, G4. exists v. repeat split; auto. lia. }
  destruct F as (v & V & F1 & F2 & F3 & F4). exists v. split.
  - split; auto. intros D LD. rewrite (corners_data _ t v (Tetra D (nei x) (mask x))) by apply At.
    rewrite F1, F2, F3, F4. split; auto. repeat split; apply nth_error_nth'; cbn [data]; lia.
  - intros w (W & Hw). specialize (Hw [0; 1; 2; 3] eq_refl).
    rewrite (corners_data _ t w (Tetra [0; 1; 2; 3] (nei x) (mask x))) in Hw by apply At.
    destruct Hw as (_ & W1 & W2 & _). cbn [data] in W1, W2.
    assert (Id : forall q, q < 4 -> nth q [0; 1; 2; 3] 0 = q) by (intros q Hq; do 4 (destruct q as [|q]; [reflexivity|]); lia).
    assert (Id' : forall q y, nth_error [0; 1; 2; 3] q = Some y -> y = q)
      by (intros q y H; do 4 (destruct q as [|q]; [inversion H; reflexivity|]); destruct q; discriminate).
    rewrite Id in W1, W2 by auto. apply Id' in W1, W2.
    clear -V W F1 F2 W1 W2. 
    assert (G : forallb (fun v => forallb (fun w => implb ((nth v ORG_PIVOT 0 =? nth w ORG_PIVOT 0) && (nth v DEST_PIVOT 0 =? nth w DEST_PIVOT 0)) (v =? w))
       (seq 0 12)) (seq 0 12) = true) by (vm_compute; reflexivity).
    rewrite forallb_forall in G. specialize (G v (proj2 (in_seq 12 0 v) (conj (Nat.le_0_l v) V))).
    rewrite forallb_forall in G. specialize (G w (proj2 (in_seq 12 0 w) (conj (Nat.le_0_l w) W))).
    rewrite <- W1, <- W2, F1, F2, !Nat.eqb_refl in G. now apply Nat.eqb_eq.
Qed.
(** So all versions of a tetrahedron have the same orientation in space. *)
Theorem C41_orientation (P : nat -> vec3) m f g a b c d a' b' c' d' : tet g = tet f ->
  (forall x, tet_at m (tet f) = Some x -> length (data x) = 4) ->
  corners m f a b c d -> corners m g a' b' c' d' ->
  orient3 (P a) (P b) (P c) (P d) = orient3 (P a') (P b') (P c') (P d').
Proof.
  intros T Ld Hf Hg. destruct (corners_tet _ _ _ _ _ _ Hf) as (t & x & E & Ex).
  destruct f as [ft v], g as [gt w]. cbn in E, T. subst ft gt.
  rewrite (corners_data m t v x) in Hf by exact Ex. rewrite (corners_data m t w x) in Hg by exact Ex.
  assert (L4 : length (data x) = 4) by (apply Ld; unfold tet_at; cbn; exact Ex).
  assert (G : forall v a b c d, v < 12 -> nth_error (data x) (nth v ORG_PIVOT 0) = Some a ->
    nth_error (data x) (nth v DEST_PIVOT 0) = Some b -> nth_error (data x) (nth v APEX_PIVOT 0) = Some c ->
    nth_error (data x) (nth v OPPO_PIVOT 0) = Some d ->
    orient3 (P a) (P b) (P c) (P d) =
    orient3 (P (nth 0 (data x) 0)) (P (nth 1 (data x) 0)) (P (nth 2 (data x) 0)) (P (nth 3 (data x) 0))).
  { clear. destruct (data x) as [|p0 [|p1 [|p2 [|p3 r]]]]; intros v a b c d V A B C D;
      try (exfalso; versions v; cbn in A, B, C, D; congruence).
    versions v; cbn in A, B, C, D; inversion A; inversion B; inversion C; inversion D; subst;
      cbn [nth]; unfold orient3, det3, dot, cross, vsub; cbn [vx vy vz]; ring. }
  destruct Hf as (V & A & B & C & D), Hg as (W & A' & B' & C' & D').
  rewrite (G v a b c d), (G w a' b' c' d'); auto.
Qed.

(** Bonding two faces at chosen edges and crossing the face from either side
    gives the other one at its edge; at the next edge of one side one is at the
    previous edge of the other; no other face is changed. *)
Theorem C41_bond m t1 v1 t2 v2 x1 x2 :
  nth_error (tets m) t1 = Some x1 -> nth_error (tets m) t2 = Some x2 ->
  length (nei x1) = 4 -> length (nei x2) = 4 -> v1 < 12 -> v2 < 12 ->
  (t1, Nat.land v1 3) <> (t2, Nat.land v2 3) ->
  exists m', bond m (TF (Some t1) v1) (TF (Some t2) v2) = Some m' /\
    (forall f a b c d, corners m f a b c d -> corners m' f a b c d) /\
    fsym m' (TF (Some t1) v1) = Some (TF (Some t2) v2) /\ fsym m' (TF (Some t2) v2) = Some (TF (Some t1) v1) /\
    (forall n1 p2, enext (TF (Some t1) v1) = Some n1 -> eprev (TF (Some t2) v2) = Some p2 ->
       fsym m' n1 = Some p2 /\ fsym m' p2 = Some n1) /\
    (forall p1 n2, eprev (TF (Some t1) v1) = Some p1 -> enext (TF (Some t2) v2) = Some n2 ->
       fsym m' p1 = Some n2 /\ fsym m' n2 = Some p1) /\
    (forall t k, (t, k) <> (t1, Nat.land v1 3) -> (t, k) <> (t2, Nat.land v2 3) -> nei_at m' (Some t) k = nei_at m (Some t) k) /\
    p2t m' = p2t m /\ n_points m' = n_points m /\
    (forall t x, nth_error (tets m) t = Some x -> exists y, nth_error (tets m') t = Some y /\ data y = data x /\ mask y = mask x).
Proof.
  intros E1 E2 L1 L2 V1 V2 NE. destruct (bond_spec m t1 v1 t2 v2 x1 x2 E1 E2 L1 L2 V1 V2 NE) as (m' & B & S & F1 & F2 & O).
  exists m'. split; auto. split; [intros; eapply same_data_corners; eauto|]. split; auto. split; auto.
  assert (En : forall t v g, v < 12 -> enext (TF t v) = Some g -> g = TF t ((v + 4) mod 12)).
  { intros t v g V H. versions v; cbn in H; inversion H; reflexivity. }
  assert (Ep : forall t v g, v < 12 -> eprev (TF t v) = Some g -> g = TF t ((v + 8) mod 12)).
  { intros t v g V H. versions v; cbn in H; inversion H; reflexivity. }
  destruct (fsym_turn m' t1 v1 t2 v2 F1 V1 V2) as (A1 & A2). destruct (fsym_turn m' t2 v2 t1 v1 F2 V2 V1) as (A3 & A4).
  destruct S as (S1 & S2 & S3 & S4).
  split; [|split; [|split; [|split; [|split]]]]; auto.
  - intros n1 p2 H1 H2. apply En in H1; auto. apply Ep in H2; auto. subst. auto.
  - intros p1 n2 H1 H2. apply Ep in H1; auto. apply En in H2; auto. subst. auto.
  - intros t x H. destruct (S4 _ _ H) as (y & A & B' & C & _). eauto.
Qed.
(** fnext is crossing after taking the other face at the edge. *)
Theorem C41_fnext m f : (forall k g, nei_at m (tet f) k = Some g -> ver g < 12) ->
  fnext m f = match esym f with Some g => fsym m g | None => None end.
Proof. apply fnext_is_fsym_esym. Qed.
(** In a consistent mesh it turns around the edge: the opposite vertex becomes
    the apex. *)
Theorem C41_fnext_turns m f a b c d : linked m -> consistent m -> corners m f a b c d ->
  exists g e, fnext m f = Some g /\ corners m g a b d e.
Proof. intros L C. apply fnext_spec; auto. Qed.

Example C41_bond_case :
  exists m', bond (TetMesh 6 [new_tetra 0 1 2 3; new_tetra 5 2 1 0] []) (TF (Some 0) 7) (TF (Some 1) 2) = Some m' /\
    fsym m' (TF (Some 0) 7) = Some (TF (Some 1) 2).
Proof. eexists; split; vm_compute; reflexivity. Qed.

(** * C55: the five first tetrahedra *)
Theorem C55_initial n pa pb pc pd : pa < n -> pb < n -> pc < n -> pd < n -> NoDup [pa; pb; pc; pd] ->
  exists m, initial_delaunay (empty_mesh n) pa pb pc pd = Some (m, TF (Some 0) 11) /\
    map data (tets m) = [[pa; pb; pc; pd]; [pb; pc; pd; n]; [pc; pa; pd; n]; [pa; pb; pd; n]; [pb; pa; pc; n]] /\
    consistent m /\ linked m /\
    (forall i, i <= n -> exists x, nth_error (p2t m) i = Some x /\
       match x with
       | Some t => exists y, nth_error (tets m) t = Some y /\ In i (data y)
       | None => ~ In i [pa; pb; pc; pd] /\ i < n
       end).
Proof.
  intros Ha Hb Hc Hd ND. eexists. split; [apply initial_delaunay_ok; auto|].
  split; [reflexivity|]. split; [apply initial_consistent|]. split.
  - intros t x Hx. cbn [tets] in Hx.
    assert (Ne : pa <> n /\ pb <> n /\ pc <> n /\ pd <> n) by lia.
    assert (Nd : pa <> pb /\ pa <> pc /\ pa <> pd /\ pb <> pc /\ pb <> pd /\ pc <> pd).
    { repeat match goal with H : NoDup (_ :: _) |- _ => inversion H; clear H; subst end. cbn in *. intuition. }
    unfold initial_list, initial_data, initial_nei in Hx. cbn [map combine fst snd] in Hx.
    do 5 (destruct t as [|t]; [cbn in Hx; inversion Hx; subst; clear Hx; cbn [data nei mask length]; 
      split; [reflexivity|split; [reflexivity|split; [repeat constructor; cbn; intuition|split; [vm_compute; discriminate|split; [reflexivity|]]]]];
      intros i g Hg; (do 4 (destruct i as [|i]; [cbn in Hg; inversion Hg; subst; eexists; eexists; split; [reflexivity|split; [reflexivity|]];
        intros j v Hj Nj; (do 4 (destruct j as [|j]; [cbn in Hj; inversion Hj; subst; first [congruence|cbn; tauto]|])); destruct j; discriminate|])); destruct i; discriminate|]).
    destruct t; discriminate.
  - intros i Hi. cbn [p2t tets]. rewrite !nth_error_upd, !upd_length, repeat_length.
    replace (n <? n + 1) with true by (symmetry; apply Nat.ltb_lt; lia).
    replace (pa <? n + 1) with true by (symmetry; apply Nat.ltb_lt; lia).
    replace (pb <? n + 1) with true by (symmetry; apply Nat.ltb_lt; lia).
    replace (pc <? n + 1) with true by (symmetry; apply Nat.ltb_lt; lia).
    replace (pd <? n + 1) with true by (symmetry; apply Nat.ltb_lt; lia). rewrite !andb_true_r.
    destruct (Nat.eqb_spec n i) as [<-|Ni]; [eexists; split; [reflexivity|]; eexists; split; [reflexivity|]; cbn; tauto|].
    destruct (Nat.eqb_spec pd i) as [<-|Nd]; [eexists; split; [reflexivity|]; eexists; split; [reflexivity|]; cbn; tauto|].
    destruct (Nat.eqb_spec pc i) as [<-|Nc]; [eexists; split; [reflexivity|]; eexists; split; [reflexivity|]; cbn; tauto|].
    destruct (Nat.eqb_spec pb i) as [<-|Nb]; [eexists; split; [reflexivity|]; eexists; split; [reflexivity|]; cbn; tauto|].
    destruct (Nat.eqb_spec pa i) as [<-|Na]; [eexists; split; [reflexivity|]; eexists; split; [reflexivity|]; cbn; tauto|].
    exists None. split; [|cbn; intuition lia]. apply nth_error_repeat. lia.
Qed.
Example C55_case : exists m, initial_delaunay (empty_mesh 7) 4 1 6 2 = Some (m, TF (Some 0) 11) /\
  fsym m (TF (Some 0) 11) = Some (TF (Some 4) 11).
Proof. eexists; split; vm_compute; reflexivity. Qed.

(** * C43 *)
Theorem C43_incident m v t0 x : linked m ->
  nth_error (p2t m) v = Some (Some t0) -> nth_error (tets m) t0 = Some x -> In v (data x) ->
  exists r, incident m v = Some (m, r) /\ NoDup r /\ In t0 r /\
    (forall t, In t r <-> star m v t0 t) /\
    (forall t, In t r -> exists y, nth_error (tets m) t = Some y /\ In v (data y)) /\
    (forall t, In t r -> t <> t0 -> forall y, nth_error (tets m) t = Some y -> nth_error (data y) 3 <> Some (n_points m)).
Proof.
  intros L Hp Hx Hv. destruct (incident_ok m v L t0 x Hp Hx Hv) as (e & E & ND & St & Inc).
  exists (t0 :: e). split; auto. split; auto. split; [now left|]. split; auto. split; auto.
  intros t Ht N y Hy. apply St in Ht. destruct Ht as [|t u _ (x' & y' & i & k & _ & _ & _ & Ey & H)]; [congruence|].
  rewrite Hy in Ey. inversion Ey; subst. exact H.
Qed.

(** The mesh of six points built by the model of tetrahedralize. *)
Definition six : list zpoint := [(0, 0, 0); (0, 0, 10); (0, 10, 0); (10, 0, 0); (3, 3, 3); (9, 8, 7)]%Z.
Definition six_mesh : tetmesh := Eval vm_compute in
  match tetrahedralize (z_o3 six) (z_isp six) 6 [1; 0; 2; 3; 4; 5] 100 with Some m => m | None => empty_mesh 0 end.
Example six_built : tetrahedralize (z_o3 six) (z_isp six) 6 [1; 0; 2; 3; 4; 5] 100 = Some six_mesh.
Proof. vm_compute. reflexivity. Qed.
Example six_linked : linked six_mesh.
Proof.
  intros t x Hx. cbn [tets six_mesh] in Hx.
  do 12 (destruct t as [|t]; [cbn in Hx; inversion Hx; subst; clear Hx; cbn [data nei mask length];
      split; [reflexivity|split; [reflexivity|split; [repeat constructor; cbn; intuition discriminate|split; [vm_compute; discriminate|split; [reflexivity|]]]]];
      intros i g Hg; (do 4 (destruct i as [|i]; [cbn in Hg; inversion Hg; subst; eexists; eexists; split; [reflexivity|split; [reflexivity|]];
        intros j v Hj Nj; (do 4 (destruct j as [|j]; [cbn in Hj; inversion Hj; subst; first [congruence|cbn; tauto]|])); destruct j; discriminate|])); destruct i; discriminate|]).
  destruct t; discriminate.
Qed.
Example six_consistent : consistent six_mesh.
Proof.
  intros t v a b c d Lt V H.
  do 12 (destruct t as [|t]; [versions v; destruct H as (A & B & C & D); vm_compute in A, B, C, D;
    injection A as <-; injection B as <-; injection C as <-; injection D as <-;
    (eexists; eexists; eexists; split; [vm_compute; reflexivity|split; [cbn; lia|split; [lia|split; [vm_compute; reflexivity|]]]]);
    repeat split; vm_compute; reflexivity|]).
  cbn in Lt. lia.
Qed.
Example C43_case : exists r, incident six_mesh 1 = Some (six_mesh, r) /\ length r = 4.
Proof. eexists; split; vm_compute; reflexivity. Qed.

(** * C45 *)

(** The insertions up to the first that reports a vertex already there. *)
Fixpoint insert_each (o3 : sign3) (isp : sign4) (m : tetmesh) (s : triface) (l : list nat) (fuel : nat)
    : option (tetmesh * triface) :=
  match l with
  | [] => Some (m, s)
  | p :: l' => match insert_vertex_bw o3 isp m p s fuel with
               | Some (m', s', true) => insert_each o3 isp m' s' l' fuel
               | _ => None
               end
  end.
(** Whatever the points, once an insertion reports an existing vertex the
    construction panics. *)
Theorem C45_duplicate_panics o3 isp n pa pb pc pd l1 p l2 fuel m s m1 s1 m2 s2 :
  NoDup (pa :: pb :: pc :: pd :: l1 ++ p :: l2) -> (forall i, In i (pa :: pb :: pc :: pd :: l1 ++ p :: l2) -> i < n) ->
  initial_delaunay (empty_mesh n) pa pb pc pd = Some (m, s) ->
  insert_each o3 isp m s l1 fuel = Some (m1, s1) ->
  insert_vertex_bw o3 isp m1 p s1 fuel = Some (m2, s2, false) ->
  tetrahedralize o3 isp n (pa :: pb :: pc :: pd :: l1 ++ p :: l2) fuel = None.
Proof.
  intros ND B I E1 E2. cbn [tetrahedralize]. rewrite I.
  assert (Hp : nth_error (p2t m) p = Some None /\ n_points m = n).
  { rewrite initial_delaunay_ok in I by (apply B; cbn; auto 6). inversion I; subst. cbn [p2t n_points]. split; auto.
    assert (Np : p < n) by (apply B; cbn; do 4 right; apply in_or_app; right; now left).
    assert (Hne : pa <> p /\ pb <> p /\ pc <> p /\ pd <> p).
    { repeat match goal with H : NoDup (_ :: _) |- _ => inversion H; clear H; subst end.
      cbn [In] in *. rewrite !in_app_iff in *. cbn [In] in *. intuition. }
    destruct Hne as (N1 & N2 & N3 & N4).
    rewrite !nth_error_upd_neq by (auto; lia). apply nth_error_repeat. lia. }
  assert (Nl : ~ In p l1).
  { do 4 (apply NoDup_cons_iff in ND; destruct ND as (_ & ND)). apply NoDup_remove_2 in ND. rewrite in_app_iff in ND. tauto. }
  assert (G : forall l m s, ~ In p l -> nth_error (p2t m) p = Some None -> insert_each o3 isp m s l fuel = Some (m1, s1) ->
     insert_all o3 isp m s (l ++ p :: l2) fuel = Some m2 /\ nth_error (p2t m2) p = Some None /\ n_points m2 = n_points m).
  { clear -E2. induction l as [|q l IH]; intros m s Nl Hp E.
    - cbn in E. inversion E; subst. cbn [app insert_all]. rewrite E2. split; auto.
      apply insert_untouched in E2. destruct E2 as (_ & E2). rewrite (E2 eq_refl). auto.
    - cbn [insert_each] in E. cbn [app insert_all].
      destruct (insert_vertex_bw o3 isp m q s fuel) as [[[m' s'] []]|] eqn:Eq; try discriminate.
      apply insert_untouched in Eq. destruct Eq as ((A & B) & _).
      destruct (IH m' s') as (I1 & I2 & I3); auto.
      + intros H; apply Nl; now right.
      + apply B; auto. intros ->; apply Nl; now left.
      + split; auto. split; auto. congruence. }
  destruct Hp as (Hp & Hn). destruct (G l1 m s Nl Hp E1) as (G1 & G2 & G3). rewrite G1.
  apply (compact_none m2 p); auto. rewrite G3, Hn. apply B. cbn. do 4 right. apply in_or_app. right. now left.
Qed.

(** Five points, the fifth equal to the second. *)
Definition twice : list zpoint := [(0, 0, 0); (0, 0, 10); (0, 10, 0); (10, 0, 0); (0, 0, 10)]%Z.
Theorem C45_duplicates_refuted : forall fuel, tetrahedralize (z_o3 twice) (z_isp twice) 5 [1; 0; 2; 3; 4] fuel = None.
Proof. intros [|fuel]; vm_compute; reflexivity. Qed.
Definition twice_start := Eval vm_compute in initial_delaunay (empty_mesh 5) 1 0 2 3.
Example C45_case :
  initial_delaunay (empty_mesh 5) 1 0 2 3 = twice_start /\
  match twice_start with
  | Some (m, s) => match insert_vertex_bw (z_o3 twice) (z_isp twice) m 4 s 5 with Some (_, _, r) => r = false | None => False end
  | None => False
  end.
Proof. split; vm_compute; reflexivity. Qed.
(** Without the duplicate the same construction succeeds. *)
Example C45_distinct : exists m, tetrahedralize (z_o3 six) (z_isp six) 6 [1; 0; 2; 3; 4; 5] 100 = Some m.
Proof. eexists. apply six_built. Qed.

(** * C50 *)

(** What is returned is no face or a face on the three vertices; the marks are
    restored. *)
Theorem C50_sound m a b c t0 x : linked m -> consistent m ->
  nth_error (p2t m) a = Some (Some t0) -> nth_error (tets m) t0 = Some x -> In a (data x) ->
  exists f, triangle_at_tet m a b c = Some (m, f) /\ (f = tf0 \/ has_face m f a b c).
Proof.
  intros L C Hp Hx Ha. destruct (triangle_at_tet_ok m a b c t0 x L C Hp Hx Ha) as (f & E & H & _). eauto.
Qed.
(** Missing for the full claim: only if the tetrahedron stored for the first
    vertex already contains one of the two others is an existing face found. *)
Theorem C50_complete_partial m a b c t0 x : linked m -> consistent m ->
  nth_error (p2t m) a = Some (Some t0) -> nth_error (tets m) t0 = Some x -> In a (data x) ->
  a <> b -> a <> c -> In b (data x) \/ In c (data x) ->
  (exists g, has_face m g a b c) ->
  (forall f g v s d s' d', corners m f a v s d -> corners m g a v s' d' -> around m f g) ->
  exists f, triangle_at_tet m a b c = Some (m, f) /\ has_face m f a b c.
Proof.
  intros L C Hp Hx Ha N1 N2 Hin Hg Hr. destruct (triangle_at_tet_ok m a b c t0 x L C Hp Hx Ha) as (f & E & _ & H). eauto.
Qed.
(** In the mesh of six points the face (4, 0, 1) exists and is not found. *)
Theorem C50_complete_refuted :
  tetrahedralize (z_o3 six) (z_isp six) 6 [1; 0; 2; 3; 4; 5] 100 = Some six_mesh /\
  linked six_mesh /\ consistent six_mesh /\
  (exists t0 x, nth_error (p2t six_mesh) 4 = Some (Some t0) /\ nth_error (tets six_mesh) t0 = Some x /\ In 4 (data x)) /\
  (exists f, has_face six_mesh f 4 0 1) /\
  triangle_at_tet six_mesh 4 0 1 = Some (six_mesh, tf0).
Proof.
  split; [apply six_built|]. split; [apply six_linked|]. split; [apply six_consistent|]. split.
  - eexists; eexists. split; [reflexivity|]. split; [reflexivity|]. cbn. auto.
  - split; [|vm_compute; reflexivity].
    exists (TF (Some 5) 4), 2. left. repeat split; vm_compute; reflexivity.
Qed.
Example C50_found : exists f, triangle_at_tet six_mesh 0 1 2 = Some (six_mesh, f) /\ has_face six_mesh f 0 1 2.
Proof.
  destruct (C50_sound six_mesh 0 1 2 _ _ six_linked six_consistent eq_refl eq_refl) as (f & E & H); [cbn; auto|].
  exists f. split; auto. destruct H as [->|H]; auto. vm_compute in E. discriminate.
Qed.
Print Assumptions C41_moves.
Print Assumptions C41_versions.
Print Assumptions C41_all_versions.
Print Assumptions C41_orientation.
Print Assumptions C41_bond.
Print Assumptions C41_fnext.
Print Assumptions C41_fnext_turns.
Print Assumptions C55_initial.
Print Assumptions C43_incident.
Print Assumptions C45_duplicate_panics.
Print Assumptions C45_duplicates_refuted.
Print Assumptions C50_sound.
Print Assumptions C50_complete_partial.
Print Assumptions C50_complete_refuted.
