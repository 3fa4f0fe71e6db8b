(** C58 (insertion of a point: the mesh stays glued), C59 (tetrahedralize returns
    a glued mesh). *)
From Coq Require Import List Arith Bool NArith ZArith Lia.
From Verif Require Import Lib Geo Tet TetSpec TetProofs Prop_Tet BwSpec BwBase BwGrow BwFill BwConnect BwInsert BwFinish BwCheck.
Import ListNotations.

(** * C58 *)

(** A new point located away from the vertices, in any good mesh.  The cavity is
    what is reached from the located place through tetrahedra in conflict.  If
    its border does not touch itself along an edge and no vertex is inside, and
    has less than 2044 faces, the insertion does not fail; it removes exactly the
    cavity, puts one tetrahedron on each face of the border, and the mesh is good
    again.  (1024 is the limit of the code: half of the border plus two.) *)
Theorem C58_insertion_partial o3 isp m p t0 v0 fuel loc s :
  good m -> p < n_points m -> nth_error (p2t m) p = Some None -> live m t0 ->
  locate_dt o3 m p (TF (Some t0) v0) fuel = Some (loc, s) -> loc <> ONVERTEX ->
  simple m (cavity_of o3 isp m p loc s) -> exposed m (cavity_of o3 isp m p loc s) ->
  exists B, NoDup B /\ (forall t k, In (t, k) B <-> k < 4 /\ border m (cavity_of o3 isp m p loc s) t k) /\
    (length B < 2044 -> exists m' s', insert_vertex_bw o3 isp m p (TF (Some t0) v0) fuel = Some (m', s', true) /\
      inserted m (cavity_of o3 isp m p loc s) p B m' s').
Proof.
  intros G P F L Loc NV Si Ex. destruct (insert_ok 1024 o3 isp m p t0 v0 fuel loc s G P F L Loc NV Si Ex) as (B & ND & HB & H).
  exists B. split; auto. split; auto. intros LB. apply H. apply Nat.div_lt_upper_bound; lia.
Qed.
(** Missing above: cavities with 2044 faces or more.  For them the claim is
    false: whatever the insertion returns, the tetrahedron it returns and stores
    for the point is one of the cavity, and deleted.  ([limit] = 1024 is the code.) *)
Theorem C58_large_refuted limit o3 isp m p t0 v0 fuel loc s m' s' : good m -> live m t0 ->
  locate_dt o3 m p (TF (Some t0) v0) fuel = Some (loc, s) ->
  insert_vertex limit o3 isp m p (TF (Some t0) v0) fuel = Some (m', s', true) ->
  exists B, NoDup B /\ (forall t k, In (t, k) B <-> k < 4 /\ border m (cavity_of o3 isp m p loc s) t k) /\
    (limit <= (length B + 4) / 2 ->
     exists t, tet s' = Some t /\ cavity_of o3 isp m p loc s t /\ nth_error (p2t m') p = Some (Some t) /\ ~ live m' t /\ ~ good m').
Proof. apply large_dead. Qed.

(** Five of the six points of [six] (see C43) inserted. *)
Definition five : tetmesh * triface := Eval vm_compute in
  match initial_delaunay (empty_mesh 6) 1 0 2 3 with
  | Some (m, s) => match insert_vertex_bw (z_o3 six) (z_isp six) m 4 s 100 with Some (m', s', _) => (m', s') | None => (m, s) end
  | None => (empty_mesh 0, tf0) end.
Lemma five_regular : exists m s, initial_delaunay (empty_mesh 6) 1 0 2 3 = Some (m, s) /\ good m /\ live m 0 /\ s = TF (Some 0) 11 /\
  regular (z_o3 six) (z_isp six) 100 m s [4; 5] /\ (forall p, In p [4; 5] -> p < n_points m /\ nth_error (p2t m) p = Some None).
Proof.
  destruct (initial_good 6 1 0 2 3) as (m & E & G & L & N & F & _); try lia.
  { repeat (apply NoDup_cons; [cbn; lia|]). apply NoDup_nil. }
  exists m, (TF (Some 0) 11). do 3 (split; [assumption|]). split; [reflexivity|].
  assert (Hp : forall p, In p [4; 5] -> p < n_points m /\ nth_error (p2t m) p = Some None).
  { intros p Hp. rewrite N. cbn in Hp. split; [lia|]. apply F; cbn; lia. }
  split; auto. apply regularb_ok; auto.
  - exists 0. auto.
  - repeat (apply NoDup_cons; [cbn; lia|]). apply NoDup_nil.
  - assert (X : match initial_delaunay (empty_mesh 6) 1 0 2 3 with Some (m, s) => regularb (z_o3 six) (z_isp six) 100 m s [4; 5] | None => false end = true)
      by (vm_compute; reflexivity).
    rewrite E in X. exact X.
Qed.
(** The hypotheses of C58 hold when the fifth and when the sixth point are inserted;
    the cavity of the sixth has two tetrahedra. *)
Example C58_case : let m := fst five in exists t0 v0 loc s,
  good m /\ 5 < n_points m /\ nth_error (p2t m) 5 = Some None /\ live m t0 /\
  locate_dt (z_o3 six) m 5 (TF (Some t0) v0) 100 = Some (loc, s) /\ loc <> ONVERTEX /\
  simple m (cavity_of (z_o3 six) (z_isp six) m 5 loc s) /\ exposed m (cavity_of (z_o3 six) (z_isp six) m 5 loc s).
Proof.
  destruct five_regular as (m & s & E & G & L & -> & R & F).
  inversion R as [|? ? ? ? loc s0 Loc NV Si Ex Bd Nx]; subst.
  destruct (F 4 (or_introl eq_refl)) as (P4 & F4).
  destruct (C58_insertion_partial (z_o3 six) (z_isp six) m 4 0 11 100 loc s0 G P4 F4 L Loc NV Si Ex) as (B & ND & HB & H).
  destruct H as (m' & s' & E' & I). { apply Bd; auto. intros; apply HB; auto. }
  assert (E5 : (m', s') = five).
  { assert (X : match initial_delaunay (empty_mesh 6) 1 0 2 3 with
      | Some (m, s) => match insert_vertex_bw (z_o3 six) (z_isp six) m 4 s 100 with Some (m', s', _) => (m', s') | None => (m, s) end
      | None => (empty_mesh 0, tf0) end = five) by (vm_compute; reflexivity). rewrite E, E' in X. exact X. }
  specialize (Nx m' s' E'). rewrite <- E5. cbn [fst].
  inversion Nx as [|? ? ? ? loc1 s1 Loc1 NV1 Si1 Ex1 _ _]; subst.
  destruct (in_search _ _ _ _ _ _ I) as (t & Ts & Lt). destruct s' as [st sv]. cbn in Ts. subst st. exists t, sv, loc1, s1.
  split; [apply (in_good _ _ _ _ _ _ I)|]. split; [rewrite (in_points _ _ _ _ _ _ I); apply (F 5); cbn; auto|].
  split; [apply (in_others _ _ _ _ _ _ I); [lia|apply (F 5); cbn; auto]|]. split; [apply (in_live _ _ _ _ _ _ I); auto|]. auto.
Qed.
(** The refutation is not empty: with the limit 4 in place of 1024 the second branch is
    taken for the sixth point, and returns. *)
Example C58_large_case : let m := fst five in exists t0 v0 m' s',
  snd five = TF (Some t0) v0 /\ live m t0 /\
  insert_vertex 4 (z_o3 six) (z_isp six) m 5 (TF (Some t0) v0) 100 = Some (m', s', true) /\
  insert_vertex 4 (z_o3 six) (z_isp six) m 5 (TF (Some t0) v0) 100 <> insert_vertex 1024 (z_o3 six) (z_isp six) m 5 (TF (Some t0) v0) 100.
Proof.
  do 4 eexists. split; [reflexivity|]. split; [eexists; split; reflexivity|]. split; [vm_compute; reflexivity|]. vm_compute. discriminate.
Qed.

(** * C59 *)

(** All points inserted one by one: if the run is regular nothing fails, and the
    mesh before the compaction is good and knows every point. *)
Theorem C59_run o3 isp n pa pb pc pd rest fuel m s :
  (forall p, In p (pa :: pb :: pc :: pd :: rest) -> p < n) -> NoDup (pa :: pb :: pc :: pd :: rest) ->
  initial_delaunay (empty_mesh n) pa pb pc pd = Some (m, s) -> regular o3 isp fuel m s rest ->
  exists m', insert_all o3 isp m s rest fuel = Some m' /\ good m' /\ n_points m' = n /\
    forall p, In p (pa :: pb :: pc :: pd :: rest) -> exists t, nth_error (p2t m') p = Some (Some t).
Proof.
  intros Lt ND E R.
  assert (N4 : NoDup [pa; pb; pc; pd] /\ NoDup rest /\ forall p, In p rest -> ~ In p [pa; pb; pc; pd]).
  { rewrite !NoDup_cons_iff in ND. cbn in ND. split; [repeat (apply NoDup_cons; [cbn; tauto|]); apply NoDup_nil|]. split; [tauto|].
    intros p Hp C. cbn in C. intuition (subst; tauto). }
  destruct N4 as (N4 & Nr & Nd).
  destruct (initial_good n pa pb pc pd) as (m0 & E0 & G & L & N & F & K); auto; try (apply Lt; cbn; tauto).
  rewrite E in E0. inversion E0; subst m0 s.
  destruct (insert_all_ok o3 isp fuel rest m (TF (Some 0) 11) G) as (m' & E' & G' & N' & K'); auto.
  { exists 0. auto. }
  { intros p Hp. rewrite N. split; [apply Lt; cbn; tauto|]. apply F; auto. apply Lt; cbn; tauto. }
  exists m'. split; auto. split; auto. split; [congruence|]. intros p Hp. apply K'. cbn in Hp. destruct Hp as [<-|[<-|[<-|[<-|Hp]]]]; auto; right; apply K; cbn; auto.
Qed.
(** The compaction of a good mesh keeps the tetrahedra that are not deleted, in
    order, and gives a glued mesh without marks, in which the tetrahedron stored
    for every point contains it.  The stored one has no ghost vertex, or it lies
    behind a ghost tetrahedron. *)
Theorem C59_compact m : good m -> (forall p, p < n_points m -> exists t, nth_error (p2t m) p = Some (Some t)) ->
  exists mc, compact m = Some mc /\ n_points mc = n_points m /\
    map data (tets mc) = map data (filter (fun x => mask x =? 0)%N (tets m)) /\ linked mc /\ consistent mc /\
    (forall p, p < n_points m -> exists t x, nth_error (p2t mc) p = Some (Some t) /\ nth_error (tets mc) t = Some x /\ In p (data x) /\
      (nth 3 (data x) 0 <> n_points mc \/ backs mc t)).
Proof.
  intros G K. destruct (compact_ok m G K) as (mc & E & N & T & _ & L & C & _ & P). exists mc. do 2 (split; [assumption|]).
  split; [|split; [assumption|split; assumption]]. rewrite T. unfold ts. rewrite map_map. cbn [data slim].
  assert (X : filter kept (tets m) = filter (fun x => mask x =? 0)%N (tets m)).
  { apply filter_ext_in. intros x Hx. apply In_nth_error in Hx. destruct Hx as (t & Hx). unfold kept. destruct (g_mask m G t x Hx) as [-> | ->]; reflexivity. }
  rewrite X. reflexivity.
Qed.
(** Together: a regular run of tetrahedralize returns a mesh that is glued along
    all faces, and in which every point can be reached: the hypotheses of C43
    and C50. *)
Theorem C59_tetrahedralize_partial o3 isp n pa pb pc pd rest fuel m s :
  (forall p, p < n <-> In p (pa :: pb :: pc :: pd :: rest)) -> NoDup (pa :: pb :: pc :: pd :: rest) ->
  initial_delaunay (empty_mesh n) pa pb pc pd = Some (m, s) -> regular o3 isp fuel m s rest ->
  exists mc, tetrahedralize o3 isp n (pa :: pb :: pc :: pd :: rest) fuel = Some mc /\ n_points mc = n /\ linked mc /\ consistent mc /\
    (forall t x i p, nth_error (tets mc) t = Some x -> nth_error (data x) i = Some p -> p <= n /\ (p = n -> i = 3)) /\
    forall p, p < n -> exists t x r, nth_error (p2t mc) p = Some (Some t) /\ nth_error (tets mc) t = Some x /\ In p (data x) /\
      (nth 3 (data x) 0 <> n \/ backs mc t) /\ incident mc p = Some (mc, r) /\ In t r /\ (forall u, In u r <-> star mc p t u).
Proof.
  intros A ND E R. destruct (C59_run o3 isp n pa pb pc pd rest fuel m s (fun p => proj2 (A p)) ND E R) as (m' & E' & G' & N' & K').
  destruct (C59_compact m' G') as (mc & Ec & Nc & Dc & L & C & P). { intros p Hp. apply K', A. lia. }
  exists mc. unfold tetrahedralize. rewrite E, E'. split; auto. split; [congruence|]. do 2 (split; [assumption|]). split.
  { intros t x i p Ex Ep. assert (H : nth_error (map data (tets mc)) t = Some (data x)) by now rewrite nth_error_map, Ex.
    apply nth_error_In in H. rewrite Dc in H. apply in_map_iff in H as (y & Ey & Hy). apply filter_In in Hy as (Hy & _). apply In_nth_error in Hy as (u & Hy).
    rewrite <- Ey in Ep. rewrite <- N'. exact (g_verts m' G' u y i p Hy Ep). }
  intros p Hp. destruct (P p ltac:(lia)) as (t & x & H1 & H2 & H3 & H4). destruct (C43_incident mc p t x L H1 H2 H3) as (r & I & _ & It & St & _).
  assert (Q : n_points mc = n) by congruence. rewrite Q in H4. exists t, x, r. auto 12.
Qed.
(** The stored tetrahedron of the ghost vertex is not renumbered: in the mesh of
    six points it does not contain the ghost vertex. *)
Theorem C59_ghost_refuted : exists mc, tetrahedralize (z_o3 six) (z_isp six) 6 [1; 0; 2; 3; 4; 5] 100 = Some mc /\
  exists t, nth_error (p2t mc) 6 = Some (Some t) /\ forall x, nth_error (tets mc) t = Some x -> ~ In 6 (data x).
Proof.
  exists six_mesh. split; [apply six_built|]. eexists. split; [reflexivity|]. intros x Hx. vm_compute in Hx. inversion Hx. cbn. lia.
Qed.
Example C59_case : exists m s, initial_delaunay (empty_mesh 6) 1 0 2 3 = Some (m, s) /\ regular (z_o3 six) (z_isp six) 100 m s [4; 5].
Proof. destruct five_regular as (m & s & E & _ & _ & _ & R & _). eauto. Qed.

Print Assumptions C58_insertion_partial.
Print Assumptions C58_large_refuted.
Print Assumptions C59_run.
Print Assumptions C59_compact.
Print Assumptions C59_tetrahedralize_partial.
Print Assumptions C59_ghost_refuted.
