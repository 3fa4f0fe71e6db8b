(** From the points to the surface: the tetrahedra of the points, the marks of the
    constraints, the complex and its cuts, one after the other (C75).
    The full claim asks for no conditions beyond points in general position and
    valid constraints.  Missing: that the run of insertions is regular (C59), that
    no two tetrahedra have the same four vertices and the hull is [hull_closed],
    that the walks end, and that every cut is one of a convex cell (C66). *)
From Coq Require Import List Arith Bool Lia ZArith Permutation.
From Verif Require Import Lib Dispatch Tet TetSpec Prop_Tet BwSpec BwInsert Prop_Bw Bsp BspSpec BspCut BspRun Prop_Bsp TetCount Trace TraceSpec Prop_Trace.
Import ListNotations.

(** The mesh of a regular run meets what C72-C74 and C67 ask of a mesh, if no
    two tetrahedra have the same four vertices. *)
Theorem C75_mesh_partial o3 isp n pa pb pc pd rest fuel m s :
  (forall p, p < n <-> In p (pa :: pb :: pc :: pd :: rest)) -> NoDup (pa :: pb :: pc :: pd :: rest) ->
  initial_delaunay (empty_mesh n) pa pb pc pd = Some (m, s) -> BwSpec.regular o3 isp fuel m s rest ->
  exists mc, tetrahedralize o3 isp n (pa :: pb :: pc :: pd :: rest) fuel = Some mc /\ n_points mc = n /\
    linked mc /\ consistent mc /\ ghost_last mc /\
    (all_different mc -> placed mc /\ n_points mc <= length (tets mc)).
Proof.
  intros A ND E R. destruct (C59_tetrahedralize_partial o3 isp n pa pb pc pd rest fuel m s A ND E R) as (mc & Et & N & L & C & V & P).
  exists mc. do 4 (split; [assumption|]). split; [unfold ghost_last; rewrite N; exact V|].
  intros AD. split.
  2: { apply (few_points mc L C AD). intros p Hp. rewrite N in Hp. destruct (P p Hp) as (t & x & r & _ & H2 & H3 & _). eauto. }
  assert (B := different_backed mc L C AD). intros p Hp. rewrite N in Hp. destruct (P p Hp) as (t & x & r & H1 & H2 & H3 & H4 & _). exists t. split; auto.
  assert (NG : nth 3 (data x) 0 <> n_points mc) by (destruct H4 as [H4|H4]; [now rewrite N|exact (B t x H4 H2)]).
  split; [|exists x; split; auto; intros q [<-|[]]; auto].
  exists x. split; auto. intros Q. apply NG. now apply nth_error_nth.
Qed.

(** If the tracing of the constraints [l] comes to its end, the complex is built
    from its marks: the cell of a tetrahedron has to be cut by constraint [j] just
    if [j] is to be written at place 4 (the inside) of the tetrahedron, and a
    face carries [j], one of the first [nr], just if [j] is to be written at the
    place of the face in the tetrahedron of its first cell.  If all cuts are those of
    convex cells, the run over the cells ends without a panic, with nothing left
    to cut, and the surface of any choice of cells is closed. *)
Theorem C75_surface_partial g mc l nr fuel : linked mc -> consistent mc -> ghost_last mc -> placed mc -> hull_closed g mc -> fair g ->
  n_points mc <= length (tets mc) -> (forall c, In c l -> proper mc c) ->
  forall m' mark, insert_constraints g mc l fuel = Some (m', Done mark) ->
  exists Ps cx, Forall2 (places g mc) l Ps /\ bsp_new m' nr mark = Some cx /\ complex cx /\
    (forall c t, nth_error (real_tets mc) c = Some t -> exists d, nth_error (cdata cx) c = Some d /\
      forall j, In j (inner d) <-> exists P, nth_error Ps j = Some P /\ P 4 t) /\
    (forall f y, nth_error (fdata cx) f = Some y -> exists t i c, face_of mc cx f t i /\ nth_error (real_tets mc) c = Some t /\ fst (cells y) = Some c /\
      forall j, In j (ftris y) <-> j < nr /\ exists P, nth_error Ps j = Some P /\ P i t) /\
    forall o tri kept fuel', (forall cx t, o_coplanar o cx t t = true) -> BspSpec.regular o nr tri cx -> enough cx <= fuel' ->
      exists cx', split_run o nr tri cx 0 fuel' = Some cx' /\ complex cx' /\ (forall d, In d (cdata cx') -> inner d = []) /\ balanced (surface kept cx').
Proof.
  intros L C GL PL HC FG Few Pr m' mark E. destruct (C73_marks g mc l fuel L C GL PL HC FG Few Pr) as (o & E' & H).
  rewrite E in E'. injection E' as -> <-. destruct H as (MK & Ps & FP & HM).
  destruct (C67_complex mc nr mark L C GL MK) as (cx & Ex & CX & _ & _ & HC').
  exists Ps, cx. do 3 (split; [assumption|]). split; [|split].
  - intros c t Ec. assert (Ht := nth_error_In _ _ Ec). apply filter_In in Ht as (Ht & Hx). destruct (nth_error (tets mc) t) as [x|] eqn:Et; [|discriminate].
    destruct (HC' c t x Ec Et) as (d & Ed & Ei & _). exists d. split; auto. symmetry in Ei. exact (proj2 (HM 4 t (inner d) Ei)).
  - intros f y Ey. destruct (C67_marks mc nr mark cx f y L C GL MK Ex Ey) as (t & i & c & lm & F & Ec & Fc & _ & Em & _ & Hz).
    exists t, i, c. do 3 (split; [assumption|]). intros j. rewrite Hz, (proj2 (HM i t lm Em) j). tauto.
  - intros o tri kept fuel' R REG F. destruct (C66_complex o nr tri cx fuel' CX R REG F) as (cx' & E1 & C1 & I1).
    exists cx'. do 3 (split; [assumption|]). now apply C68_closed.
Qed.

(** * The mesh of six points *)
Example six_different : all_different six_mesh.
Proof.
  assert (H : forallb (fun t => forallb (fun u => (t =? u) || match nth_error (tets six_mesh) t, nth_error (tets six_mesh) u with
    | Some x, Some y => negb (forallb (fun v => existsb (Nat.eqb v) (data y)) (data x)) | _, _ => true end) (seq 0 12)) (seq 0 12) = true) by (vm_compute; reflexivity).
  rewrite forallb_forall in H. intros t u x y N Ex Ey I.
  assert (Lt := nth_error_lt _ _ _ Ex). assert (Lu := nth_error_lt _ _ _ Ey). change (length (tets six_mesh)) with 12 in Lt, Lu.
  specialize (H t (proj2 (in_seq 12 0 t) (conj (Nat.le_0_l t) Lt))). rewrite forallb_forall in H. specialize (H u (proj2 (in_seq 12 0 u) (conj (Nat.le_0_l u) Lu))).
  rewrite Ex, Ey in H. apply orb_true_iff in H as [H|H]; [apply Nat.eqb_eq in H; contradiction|]. apply negb_true_iff in H.
  assert (Q : forallb (fun v => existsb (Nat.eqb v) (data y)) (data x) = true); [|congruence].
  apply forallb_forall. intros v Hv. apply existsb_exists. exists v. split; [now apply I|apply Nat.eqb_refl].
Qed.
Example C75_case : exists mark cx, insert_constraints (z_geom six) six_mesh [(1, 2, 3); (0, 1, 2)] 10 = Some (six_mesh, Done mark) /\
  bsp_new six_mesh 2 mark = Some cx /\ map inner (cdata cx) = [[]; []; []; [0]; [0]; [0]] /\ exists f y, nth_error (fdata cx) f = Some y /\ ftris y = [1].
Proof.
  eexists. eexists. split; [vm_compute; reflexivity|]. split; [vm_compute; reflexivity|]. split; [vm_compute; reflexivity|].
  exists 8. eexists. split; vm_compute; reflexivity.
Qed.

Print Assumptions C75_mesh_partial.
Print Assumptions C75_surface_partial.
