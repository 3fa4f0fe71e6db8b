(** The polyhedral complex: construction (C67), cutting a cell (C65), the run over
    the cells (C66), the surface of the kept cells (C68). *)
From Coq Require Import List Arith Bool Lia NArith Relations Permutation.
From Verif Require Import Lib Dispatch Tet TetSpec Prop_Tet Bsp BspSpec BspCut BspLoop BspGlue BspSplit BspCell BspRun BspParts BspNew.
Import ListNotations.

(** * C65: one cut *)

(** When the plane of the chosen triangle cuts the cell as it cuts a convex
    polyhedron, split_cell ends without a panic and the complex is right again.
    Either no triangle met the polygon, and only the list of triangles of the
    cell has changed, or there is one cell more, and the old and the new cell
    are the parts on the two sides of the plane, separated by one face in it. *)
Theorem C65_split o n tri cx c d : complex cx -> nth_error (cdata cx) c = Some d -> inner d <> [] ->
  (forall t, o_coplanar o cx t t = true) ->
  cuts_cell (o_side o (without_coplanar o cx c d) (chosen o cx d)) cx c ->
  exists cx', split_cell o n tri cx c = Some cx' /\ complex cx' /\
    (cx' = without_coplanar o cx c d \/ cut_in_two (o_side o (without_coplanar o cx c d) (chosen o cx d)) c cx cx').
Proof.
  intros C Ed NE R CU. destruct (last_error_some _ NE) as (p & Ep). assert (Hp := last_error_in _ _ Ep).
  destruct (last_error_some (filter (o_coplanar o cx p) (inner d))) as (t & Et).
  { intros Q. assert (H : In p (filter (o_coplanar o cx p) (inner d))) by (apply filter_In; auto). now rewrite Q in H. }
  unfold chosen, without_coplanar in *. rewrite (last_error_last _ _ 0 Ep), (last_error_last _ _ 0 Et) in *.
  now apply (split_cell_ok o n tri cx c d p t C Ed Ep Et).
Qed.

(** What becomes of the faces, the triangles and the other cells, whatever the
    geometric tests say. *)
Theorem C65_parts o n tri cx c d cx' : complex cx -> nth_error (cdata cx) c = Some d -> inner d <> [] ->
  (forall t, o_coplanar o cx t t = true) -> split_cell o n tri cx c = Some cx' ->
  let in_plane := o_coplanar o cx (last (inner d) 0) in
  cx' = without_coplanar o cx c d \/
  exists P, parts o n tri (chosen o cx d) c (filter in_plane (inner d)) (filter (fun t => negb (in_plane t)) (inner d)) cx cx' P.
Proof.
  intros C Ed NE R E. cbn zeta. destruct (last_error_some _ NE) as (p & Ep). assert (Hp := last_error_in _ _ Ep).
  destruct (last_error_some (filter (o_coplanar o cx p) (inner d))) as (t & Et).
  { intros Q. assert (H : In p (filter (o_coplanar o cx p) (inner d))) by (apply filter_In; auto). now rewrite Q in H. }
  unfold chosen, without_coplanar in *. rewrite (last_error_last _ _ 0 Ep), (last_error_last _ _ 0 Et) in *.
  now apply (split_cell_parts o n tri cx c d p t cx').
Qed.

(** * C66: the run *)

(** The loop ends within [enough] steps, with no triangle left in any cell, or
    at a panic of some split_cell. *)
Theorem C66_terminates o n tri cx fuel : (forall cx t, o_coplanar o cx t t = true) -> enough cx <= fuel ->
  (exists cx', split_run o n tri cx 0 fuel = Some cx' /\ forall d, In d (cdata cx') -> inner d = []) \/
  (exists cx1 c d, reached o n tri cx cx1 c /\ nth_error (cdata cx1) c = Some d /\ inner d <> [] /\ split_cell o n tri cx1 c = None).
Proof.
  intros R L. destruct (run_ok o n tri cx R fuel cx 0 (reached_start _ _ _ _)) as [(cx' & E & _ & A)|H]; [| |left; eauto|right; exact H].
  - unfold enough in L. unfold todo, inners. rewrite map_map. cbn [skipn]. lia.
  - lia.
Qed.
(** If every cut is one of a convex cell, it ends with a right complex. *)
Theorem C66_complex o n tri cx fuel : complex cx -> (forall cx t, o_coplanar o cx t t = true) -> regular o n tri cx -> enough cx <= fuel ->
  exists cx', split_run o n tri cx 0 fuel = Some cx' /\ complex cx' /\ forall d, In d (cdata cx') -> inner d = [].
Proof.
  intros C R REG L. destruct (run_ok o n tri cx R fuel cx 0 (reached_start _ _ _ _)) as [(cx' & E & RE & A)|(cx1 & c & d & RE & Ed & NE & Es)].
  - unfold enough in L. unfold todo, inners. rewrite map_map. cbn [skipn]. lia.
  - lia.
  - exists cx'. split; auto. split; auto. now apply (split_reached o n tri cx C R REG _ _ RE).
  - exfalso. destruct (split_reached o n tri cx C R REG _ _ RE) as (_ & Q). destruct (Q d Ed NE) as (x & Ex & _). congruence.
Qed.

(** * C67: the complex of a tetrahedral mesh *)
Theorem C67_complex m n mark : linked m -> consistent m -> ghost_last m -> all_marked m mark ->
  exists cx, bsp_new m n mark = Some cx /\ complex cx /\ nverts cx = n_points m /\ length (cdata cx) = length (real_tets m) /\
    (forall c t x, nth_error (real_tets m) c = Some t -> nth_error (tets m) t = Some x ->
      exists d, nth_error (cdata cx) c = Some d /\ Some (inner d) = mark_at mark 4 t /\ length (cfaces d) = 4 /\
        forall i, i < 4 -> exists f, In f (cfaces d) /\ face_of m cx f t i).
Proof.
  intros LK CS GH MK. destruct (bsp_new_ok m LK CS GH n mark MK) as (cx & L & E & CX & NV & LC & LO & _ & _ & LIN & CC).
  exists cx. split; auto. split; auto. split; auto. rewrite (real_tets_filter m LK). split; [exact LC|].
  intros c t x Ec Ex. assert (Ec0 := Ec). apply rank_nth in Ec as (A & B & C). destruct (CC t A B) as (fs & Ed & F). rewrite C in Ed. exists (BCell fs (marks mark 4 t)). split; auto.
  split; [cbn; symmetry; apply (marks_at m mark MK); auto|]. cbn [cfaces]. split; [rewrite <- (forall2_length F); reflexivity|].
  intros i Hi. destruct (Forall2_in_l _ _ _ i F) as (f & Hf & Ef); [apply in_seq; lia|]. exists f. split; auto. split; auto. exists x, c. rewrite (real_tets_filter m LK). split; auto. split; auto.
  split; [unfold cell_faces; now rewrite Ed|]. intros v. destruct (LK t x Ex) as (L4 & _). rewrite <- places_in by auto.
  assert (Cy : cycle_of cx f = cyc m (canon m t i)). { unfold cycle_of. rewrite LO. apply nth_error_nth. now rewrite nth_error_map, Ef. } rewrite Cy.
  unfold canon. destruct (owned m t i) eqn:O; [apply turned_in, turned_sym, (cyc_ok m LK CS); auto|].
  destruct (glue m LK CS t x i Ex Hi) as (u & w & y & En & Ey & _ & _ & T & _). assert (Q : across_of m t i = (u, Nat.land w 3)) by (unfold across_of; now rewrite Ex, En).
  rewrite Q. rewrite <- (turned_in _ _ _ (cyc_ok m LK CS u y (Nat.land w 3) Ey (land3 w))), (turned_in _ _ _ T). symmetry. apply in_rev.
Qed.
(** The triangles of a face are those marked in the tetrahedron of its first cell
    (the one with the smaller number, or the only real one), without the virtual
    ones, each once in increasing order. *)
Theorem C67_marks m n mark cx f y : linked m -> consistent m -> ghost_last m -> all_marked m mark ->
  bsp_new m n mark = Some cx -> nth_error (fdata cx) f = Some y ->
  exists t i c l, face_of m cx f t i /\ nth_error (real_tets m) c = Some t /\ fst (cells y) = Some c /\
    (forall u j, face_of m cx f u j -> t <= u) /\
    mark_at mark i t = Some l /\ increasing (ftris y) /\ forall z, In z (ftris y) <-> In z l /\ z < n.
Proof.
  intros LK CS GH MK E Ey. destruct (bsp_new_ok m LK CS GH n mark MK) as (cx' & L & E' & CX & NV & LC & LO & TR & CE & LIN & CC). assert (cx' = cx) by congruence. subst cx'.
  destruct (nth_error L f) as [(t, i)|] eqn:Ef.
  2:{ exfalso. apply nth_error_None in Ef. apply nth_error_lt in Ey. rewrite <- (cx_len _ CX), LO, map_length in Ey. lia. }
  assert (H := nth_error_In _ _ Ef). apply LIN in H as (A & B & C & D).
  assert (Et : ftris y = trs n mark (t, i)). { assert (Q : nth_error (map ftris (fdata cx)) f = Some (ftris y)) by now rewrite nth_error_map, Ey. rewrite TR, nth_error_map, Ef in Q. cbn [option_map] in Q. congruence. }
  assert (Ec : cells y = cel m (t, i)). { assert (Q : nth_error (map cells (fdata cx)) f = Some (cells y)) by now rewrite nth_error_map, Ey. rewrite CE, nth_error_map, Ef in Q. cbn [option_map] in Q. congruence. }
  destruct (nth_error_ex _ _ A) as (x & Ex). exists t, i, (rank m t), (marks mark i t).
  assert (IC : forall c, In f (cell_faces cx c) <-> c = rank m t \/ real m (fst (across_of m t i)) = true /\ c = rank m (fst (across_of m t i))).
  { intros c. rewrite (cx_inc _ CX). unfold face_cells. rewrite Ey, Ec. unfold cel, order. cbn [fst snd]. destruct (real m (fst (across_of m t i))); cbn; intuition. }
  assert (Er : nth_error (real_tets m) (rank m t) = Some t) by (rewrite (real_tets_filter m LK); apply rank_nth; auto).
  split.
  { split; auto. exists x, (rank m t). split; auto. split; auto. split; [apply IC; auto|]. intros v. destruct (LK t x Ex) as (L4 & _). rewrite <- places_in by auto.
    assert (Cy : cycle_of cx f = cyc m (t, i)). { unfold cycle_of. rewrite LO. apply nth_error_nth. now rewrite nth_error_map, Ef. } rewrite Cy. apply turned_in, turned_sym, (cyc_ok m LK CS); auto. }
  split; auto. split; [now rewrite Ec|]. split.
  { intros u j (_ & x' & c & Ex' & Ec' & Hf & _). rewrite (real_tets_filter m LK) in Ec'. apply rank_nth in Ec' as (A' & B' & C'). apply IC in Hf as [Q|(R & Q)].
    - subst c. apply (rank_inj m) in Q; auto. lia.
    - assert (Q' : u = fst (across_of m t i)) by (apply (rank_inj m); auto; congruence). unfold owned in D. rewrite R in D. rewrite orb_false_r in D. apply Nat.ltb_lt in D. lia. }
  split; [apply (marks_at m mark MK); auto; lia|]. rewrite Et. destruct (insert_all_in n (marks mark i t) [] I) as (Q1 & Q2). split; [exact Q1|].
  intros z. unfold trs. cbn [fst snd]. rewrite Q2. cbn. intuition.
Qed.
(** Marks of the other side are lost: the second insertion (bsp_complex.rs:176)
    takes the marks of the first side again. *)
Definition six_mark (i t : nat) (l : list nat) : list (list (list nat)) :=
  map (fun i' => map (fun t' => if (i' =? i) && (t' =? t) then l else []) (seq 0 12)) (seq 0 5).
Lemma six_ghost : ghost_last six_mesh.
Proof.
  intros t x i p Ex Ep. cbn [tets six_mesh] in Ex.
  do 12 (destruct t as [|t]; [cbn in Ex; injection Ex as <-; cbn [data] in Ep; cbn [n_points six_mesh];
    do 4 (destruct i as [|i]; [cbn in Ep; injection Ep as <-; lia|]); destruct i; discriminate|]). destruct t; discriminate.
Qed.
Lemma six_marked i t l : all_marked six_mesh (six_mark i t l).
Proof.
  intros i' t' Hi Ht. cbn in Ht. unfold mark_at, six_mark. rewrite nth_error_map, (nth_error_nth' _ 0) by (rewrite seq_length; auto). rewrite seq_nth by auto. cbn [option_map].
  rewrite nth_error_map, (nth_error_nth' _ 0) by (rewrite seq_length; auto). rewrite seq_nth by auto. cbn [option_map]. eexists. reflexivity.
Qed.
Theorem C67_other_side_refuted : exists m n mark cx f y t i l, linked m /\ consistent m /\ ghost_last m /\ all_marked m mark /\
  bsp_new m n mark = Some cx /\ nth_error (fdata cx) f = Some y /\ face_of m cx f t i /\ mark_at mark i t = Some l /\ exists z, In z l /\ z < n /\ ~ In z (ftris y).
Proof.
  exists six_mesh, 1, (six_mark 0 4 [0]). destruct (bsp_new six_mesh 1 (six_mark 0 4 [0])) as [cx|] eqn:E; [|vm_compute in E; discriminate].
  assert (EQ := E). vm_compute in E. injection E as <-. eexists. exists 0. eexists. exists 4, 0, [0].
  split; [apply six_linked|]. split; [apply six_consistent|]. split; [apply six_ghost|]. split; [apply six_marked|]. split; [reflexivity|]. split; [reflexivity|].
  split; [|split; [reflexivity|exists 0; cbn; auto]]. split; [lia|]. eexists. exists 1. split; [reflexivity|]. split; [reflexivity|]. split; [cbn; auto|]. intros v. cbn. split.
  - intros [<-|[<-|[<-|[]]]]; [exists 2|exists 3|exists 1]; split; auto; reflexivity.
  - intros (j & N & H). destruct j as [|[|[|[|j]]]]; try congruence; cbn in H; [injection H as <-; tauto..|destruct j; discriminate].
Qed.
Example C67_case : exists cx, bsp_new six_mesh 1 (six_mark 0 4 [0]) = Some cx /\ length (cdata cx) = 6 /\ length (loops cx) = 15.
Proof. eexists. split; [vm_compute; reflexivity|]. split; reflexivity. Qed.

(** * C68: the surface *)

(** Whatever cells are kept, the faces between a kept cell and one that is not
    (or the outside), turned as complex_partition says, form a closed surface:
    every edge is passed as often in one direction as in the other. *)
Theorem C68_closed kept cx : complex cx -> balanced (surface kept cx).
Proof. apply surface_closed. Qed.
(** From the tetrahedral mesh to the surface. *)
Theorem C68_pipeline m n mark o tri kept cx fuel : linked m -> consistent m -> ghost_last m -> all_marked m mark ->
  (forall cx t, o_coplanar o cx t t = true) -> bsp_new m n mark = Some cx -> regular o n tri cx -> enough cx <= fuel ->
  exists cx', split_run o n tri cx 0 fuel = Some cx' /\ balanced (surface kept cx').
Proof.
  intros LK CS GH MK R E REG F. destruct (C67_complex m n mark LK CS GH MK) as (cx0 & E0 & C & _). assert (cx0 = cx) by congruence. subst cx0.
  destruct (C66_complex o n tri cx fuel C R REG F) as (cx' & E' & C' & _). exists cx'. split; auto. now apply C68_closed.
Qed.

(** * A tetrahedron cut through a vertex and two edges *)
Definition m4 : tetmesh := Eval vm_compute in match initial_delaunay (empty_mesh 4) 1 0 2 3 with Some (m, _) => m | None => empty_mesh 0 end.
Definition m4_mark : list (list (list nat)) := repeat (repeat [] 5) 4 ++ [[[0]; []; []; []; []]].
Definition cx4 : bsp := Eval vm_compute in match bsp_new m4 1 m4_mark with Some c => c | None => Bsp 0 [] [] [] end.
Definition s4 (v : nat) : Orientation := match v with 0 => Zero | 3 => Positive | _ => Negative end.
Definition o4 : oracle := Oracle (fun _ a b => a =? b) (fun _ _ => s4) (fun _ _ _ => true) (fun _ _ => (true, true)) (fun _ _ _ => true).
Definition cx5 : bsp := Eval vm_compute in match split_cell o4 1 (fun _ => [0; 1; 2]) cx4 0 with Some c => c | None => Bsp 0 [] [] [] end.
Example cx4_built : bsp_new m4 1 m4_mark = Some cx4 /\ linked m4 /\ consistent m4 /\ ghost_last m4 /\ all_marked m4 m4_mark.
Proof.
  split; [vm_compute; reflexivity|]. destruct (C55_initial 4 1 0 2 3) as (m & E & _ & C & L & _); try lia. { repeat constructor; cbn; lia. }
  assert (m = m4) by (vm_compute in E; injection E as <-; reflexivity). subst m. split; auto. split; auto. split.
  - intros t x i p Ex Ep. cbn [tets m4] in Ex.
    do 5 (destruct t as [|t]; [cbn in Ex; injection Ex as <-; cbn [data] in Ep; cbn [n_points m4];
      do 4 (destruct i as [|i]; [cbn in Ep; injection Ep as <-; lia|]); destruct i; discriminate|]). destruct t; discriminate.
  - intros i t Hi Ht. cbn in Ht. do 5 (destruct i as [|i]; [do 5 (destruct t as [|t]; [eexists; reflexivity|]); lia|]). lia.
Qed.
Lemma cx4_complex : complex cx4.
Proof. destruct cx4_built as (E & L & C & G & M). destruct (C67_complex m4 1 m4_mark L C G M) as (cx & E' & CX & _). congruence. Qed.
Lemma cx4_cut : cuts_cell s4 cx4 0.
Proof.
  split; [exists 0, 3; cbn; auto 8|].
  split; [exists 0, 2; cbn; auto 8|].
  exists [Some [PV 0; PX 2 3]; Some [PX 2 3; PX 1 3]; Some [PX 1 3; PV 0]; None]. split.
  - apply Forall2_cons; [|apply Forall2_cons; [|apply Forall2_cons; [|apply Forall2_cons; [|apply Forall2_nil]]]].
    + apply (cut_two _ _ [0] [3] [] [2]); try discriminate; [exists [2], [0; 3]; auto|now intros v [<-|[]]|now intros v [<-|[]]|left; now exists 0|now right].
    + apply (cut_two _ _ [] [3] [] [1; 2]); try discriminate; [exists [1; 2], [3]; auto|now intros v [<-|[]]|now intros v [<-|[<-|[]]]|now right|now right].
    + apply (cut_two _ _ [] [3] [0] [1]); try discriminate; [exists [1], [3; 0]; auto|now intros v [<-|[]]|now intros v [<-|[]]|now right|left; now exists 0].
    + apply (cut_negative _ _ [0] [2; 1]); try discriminate; [exists [2; 1], [0]; auto|now intros v [<-|[]]|now intros v [<-|[<-|[]]]].
  - cbn [somes]. set (ps := [[PV 0; PX 2 3]; [PX 2 3; PX 1 3]; [PX 1 3; PV 0]]). split; [cbn; repeat constructor; cbn; intuition discriminate|]. split; [cbn; lia|].
    assert (A : clos_refl_trans _ (fun a b => In a ps /\ In b ps /\ last a (PV 0) = hd (PV 0) b) [PV 0; PX 2 3] [PX 2 3; PX 1 3]) by (apply rt_step; cbn; auto 8).
    assert (B : clos_refl_trans _ (fun a b => In a ps /\ In b ps /\ last a (PV 0) = hd (PV 0) b) [PX 2 3; PX 1 3] [PX 1 3; PV 0]) by (apply rt_step; cbn; auto 8).
    assert (C : clos_refl_trans _ (fun a b => In a ps /\ In b ps /\ last a (PV 0) = hd (PV 0) b) [PX 1 3; PV 0] [PV 0; PX 2 3]) by (apply rt_step; cbn; auto).
    intros p q [<-|[<-|[<-|[]]]] [<-|[<-|[<-|[]]]]; try apply rt_refl; try assumption; eapply rt_trans; eassumption.
Qed.
Example C65_case : complex cx4 /\ (exists d, nth_error (cdata cx4) 0 = Some d /\ inner d <> [] /\ cuts_cell (o_side o4 (without_coplanar o4 cx4 0 d) (chosen o4 cx4 d)) cx4 0) /\
  split_cell o4 1 (fun _ => [0; 1; 2]) cx4 0 = Some cx5 /\ length (cdata cx5) = 2 /\ length (loops cx5) = 8 /\ nverts cx5 = 6.
Proof.
  split; [apply cx4_complex|]. split; [eexists; split; [reflexivity|]; split; [discriminate|apply cx4_cut]|]. split; [vm_compute; reflexivity|]. repeat split.
Qed.
Example C66_case : regular o4 1 (fun _ => [0; 1; 2]) cx4 /\ (forall cx t, o_coplanar o4 cx t t = true) /\
  split_run o4 1 (fun _ => [0; 1; 2]) cx4 0 (enough cx4) = Some cx5 /\ surface (Nat.eqb 0) cx5 <> [].
Proof.
  split; [|split; [intros cx t; apply Nat.eqb_refl|split; [vm_compute; reflexivity|vm_compute; discriminate]]].
  assert (R : forall cx c, reached o4 1 (fun _ => [0; 1; 2]) cx4 cx c -> (cx = cx4 /\ c = 0) \/ cx = cx5).
  { intros cx c H. induction H as [|cx c d H IH E Z|cx c d cx' H IH E NE Es]; auto.
    - destruct IH as [(-> & ->)| ->]; auto. cbn in E. injection E as <-. discriminate.
    - destruct IH as [(-> & ->)| ->].
      + right. assert (Q : split_cell o4 1 (fun _ => [0; 1; 2]) cx4 0 = Some cx5) by (vm_compute; reflexivity). congruence.
      + exfalso. destruct c as [|[|c]]; cbn in E; [injection E as <-; easy..|destruct c; discriminate]. }
  intros cx c d RE E NE. apply R in RE as [(-> & ->)| ->]; [apply cx4_cut|].
  exfalso. destruct c as [|[|c]]; cbn in E; [injection E as <-; easy..|destruct c; discriminate].
Qed.

Print Assumptions C65_split.
Print Assumptions C65_parts.
Print Assumptions C66_terminates.
Print Assumptions C66_complex.
Print Assumptions C67_complex.
Print Assumptions C67_marks.
Print Assumptions C67_other_side_refuted.
Print Assumptions C68_closed.
Print Assumptions C68_pipeline.
