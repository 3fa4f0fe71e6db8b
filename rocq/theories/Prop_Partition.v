(** Property C77: the choice of the kept cells in complex_partition
    (polygonlization/bsp_complex.rs 614-755). *)
From Coq Require Import List Arith ZArith Bool Lia.
From Verif Require Import Lib PushRelabel PushRelabelProofs Prop_PushRelabel Partition PartitionSpec PartitionProofs.
Import ListNotations.
Local Open Scope opt_scope.

(** The graphs are built without a panic, one for each shell; a cut of a graph costs
    what the specification says for the labelling. *)
Theorem C77_costs shell hit pos nc fs : shell <> [] -> Forall (face_ok shell nc) fs ->
  exists gs, shell_graphs shell hit pos nc fs = Some gs /\ length gs = S (list_max shell) /\
    forall s g, nth_error gs s = Some g -> valid_graph (nc + 3) g /\
      forall lab, cut_capacity g (on_nodes nc lab) = labelling_cost shell hit pos nc s fs lab.
Proof.
  intros Ne F. destruct (shell_graphs_built shell hit pos nc fs Ne F) as (gs & E & L & B).
  exists gs. split; [exact E|]. split; [exact L|]. intros s g Eg.
  destruct (B s) as (src & snk & ks & E1 & Ls & Ok & En). { rewrite <- L. eapply nth_error_lt; eauto. }
  rewrite Eg in E1. injection E1 as ->.
  pose proof (arc_builder_valid _ _ _ Ok) as V. rewrite Ls in V. replace (S nc + 2) with (nc + 3) in V by lia.
  split; [exact V|]. intros lab. rewrite <- En.
  pose proof Ok as (Le & _ & _ & Fc). rewrite <- (arc_builder_energy src snk ks lab Le Fc), Ls.
  apply (cut_capacity_ext (nc + 3)).
  - intros f t c Hin. destruct (proj2 V f t c Hin) as (? & ? & _). auto.
  - intros [|i] Hi; simpl; auto.
    destruct (Nat.leb_spec i nc), (Nat.eqb_spec i (S nc)); auto; lia.
Qed.

(** Keeping the outside is never best. *)
Theorem C77_outside shell hit pos nc s fs lab : Forall (face_ok shell nc) fs -> (0 < total_area fs)%Z -> lab nc = true ->
  (labelling_cost shell hit pos nc s fs (fun _ => false) < labelling_cost shell hit pos nc s fs lab)%Z.
Proof.
  intros F P O. unfold labelling_cost. rewrite O.
  assert (G : forall fid, (0 <= faces_cost shell hit pos nc s lab fid fs)%Z /\
    (faces_cost shell hit pos nc s (fun _ => false) fid fs <= total_area fs)%Z).
  { clear P O. induction F as [|f fs (_ & _ & _ & A) F IH]; intros fid; cbn [faces_cost total_area]; [lia|].
    destruct (IH (S fid)) as [I1 I2]. unfold face_cost.
    destruct (deciding shell hit s fid f) as [t|].
    - destruct (pos fid t), (fc1 f) as [c|]; cbn [Bool.eqb];
        destruct (lab (fc0 f)); cbn [Bool.eqb]; try destruct (lab c); cbn [Bool.eqb]; lia.
    - cbn [Bool.eqb]. destruct (Bool.eqb _ _); lia. }
  destruct (G 0). lia.
Qed.

Lemma find_more fuel fuel' s s' : find_max_flow fuel s = Some s' -> fuel <= fuel' -> find_max_flow fuel' s = Some s'.
Proof. intros; eapply find_max_flow_mono; eauto. Qed.

Lemma keep_cells_ok s nc : forall cs kept, length kept = S nc -> (forall c, In c cs -> c < nc) -> NoDup cs -> nc + 3 = length (label s) ->
  exists kept', keep_cells s kept cs = Some kept' /\ length kept' = S nc /\
    forall c, nth c kept' false = nth c kept false || (existsb (Nat.eqb c) cs && source_side s (c + 1)).
Proof.
  induction cs as [|c cs IH]; intros kept L H Nd Ll; simpl.
  { exists kept. split; [reflexivity|]. split; [exact L|]. intros c. now rewrite orb_false_r. }
  apply NoDup_cons_iff in Nd. destruct Nd as [Nn Nd]. pose proof (H c (or_introl eq_refl)) as Hc.
  unfold is_sink. destruct (nth_error_ex (label s) (c + 1)) as (l & El); [lia|]. rewrite El.
  rewrite (nth_error_nth' kept false) by lia.
  destruct (IH (upd kept c (nth c kept false || negb (negb (l =? nn s))))) as (k' & E & L' & N); auto.
  { now rewrite upd_length. } { intros; apply H; now right. }
  exists k'. split; [exact E|]. split; [exact L'|]. intros d. rewrite N.
  destruct (Nat.eqb_spec d c) as [->|Ne]; simpl.
  - rewrite nth_upd_eq by lia.
    assert (X : existsb (Nat.eqb c) cs = false).
    { destruct (existsb (Nat.eqb c) cs) eqn:Q; auto. apply existsb_exists in Q. destruct Q as (y & Hy & Ey).
      apply Nat.eqb_eq in Ey. subst y. contradiction. }
    rewrite X. simpl. rewrite orb_false_r. unfold source_side, is_sink. rewrite El. reflexivity.
  - rewrite nth_upd_neq by auto. reflexivity.
Qed.

Lemma keep_faces_ok nc kept shell : forall fs, length kept = S nc -> Forall (face_ok shell nc) fs ->
  keep_faces nc kept fs = Some (map (face_sign nc (fun c => nth c kept false)) fs).
Proof.
  induction fs as [|f fs IH]; intros L F; simpl; auto. inversion F as [|? ? (C0 & C1 & _ & _) F']; subst.
  rewrite IH by auto. unfold keep_face. rewrite (nth_error_nth' kept false) by lia.
  unfold other_cell, face_sign.
  rewrite (nth_error_nth' kept false).
  2:{ destruct (fc1 f) as [c|]; [destruct (C1 c eq_refl)|]; lia. }
  destruct (nth (fc0 f) kept false), (nth match fc1 f with Some c => c | None => nc end kept false); reflexivity.
Qed.

(** [lab] is the labelling that the code reads off a solved graph of shell [s]. *)
Definition read_off (nc : nat) (g : list (nat * nat * Z)) (lab : nat -> bool) : Prop :=
  exists r, solved g (nc + 3) r /\ forall c, c <= nc -> lab c = source_side r (c + 1).

Lemma keep_all_ok nc : forall gs kept, length kept = S nc -> (forall g, In g gs -> valid_graph (nc + 3) g) ->
  exists labs kept' fuel0, (forall fuel, fuel0 <= fuel -> keep_all fuel nc kept gs = Some kept') /\
    length kept' = S nc /\ Forall2 (read_off nc) gs labs /\
    (nth nc kept' false = nth nc kept false) /\
    forall c, c < nc -> nth c kept' false = nth c kept false || existsb (fun lab => lab c) labs.
Proof.
  induction gs as [|g gs IH]; intros kept L V.
  { exists [], kept, 0. split; [auto|]. split; [exact L|]. split; [constructor|]. split; [reflexivity|].
    intros c _. simpl. now rewrite orb_false_r. }
  pose proof (V g (or_introl eq_refl)) as Vg.
  destruct (pr_terminates g (nc + 3) Vg) as (s0 & r & f1 & E0 & E1).
  assert (Sol : solved g (nc + 3) r) by (exists s0, f1; split; auto).
  assert (Lr : length (label r) = nc + 3).
  { destruct (solved_inv _ _ _ Vg Sol) as (g0 & I & _ & N & _). rewrite (la_len _ _ (in_lab _ _ _ I)). exact N. }
  destruct (keep_cells_ok r nc (seq 0 nc) kept L) as (k1 & Ek & Lk & Nk).
  { intros c Hc. apply in_seq in Hc. lia. } { apply seq_NoDup. } { lia. }
  destruct (IH k1 Lk) as (labs & k2 & f2 & E2 & L2 & F2 & N2 & R2). { intros; apply V; now right. }
  exists ((fun c => source_side r (c + 1)) :: labs), k2, (f1 + f2).
  split; [|split; [exact L2|split; [|split]]].
  - intros fuel Hf. simpl. rewrite E0, (E1 fuel) by lia. rewrite Ek. apply E2. lia.
  - constructor; [|exact F2]. exists r. split; [exact Sol|auto].
  - rewrite N2, Nk. destruct (existsb (Nat.eqb nc) (seq 0 nc)) eqn:Q; [|now rewrite orb_false_r].
    apply existsb_exists in Q. destruct Q as (y & Hy & Ey). apply in_seq in Hy. apply Nat.eqb_eq in Ey. lia.
  - intros c Hc. rewrite R2, Nk by auto. simpl.
    assert (X : existsb (Nat.eqb c) (seq 0 nc) = true).
    { apply existsb_exists. exists c. split; [apply in_seq; lia|apply Nat.eqb_refl]. }
    rewrite X. simpl. now rewrite orb_assoc.
Qed.

(** The run ends without a panic.  A cell is kept if one of the shells keeps it, the
    outside is not, and the signs of the faces tell the two sides apart.  For a shell
    that has a labelling of cost 0 the labelling read off costs 0 and keeps every
    cell that a labelling of cost 0 keeps.  Missing for the full statement, that the
    labelling read off has least cost: the other shells; [C77_least_refuted]. *)
Theorem C77_kept_partial shell hit pos nc fs : shell <> [] -> Forall (face_ok shell nc) fs ->
  exists labs kept fuel0,
    (forall fuel, fuel0 <= fuel -> partition shell hit pos fuel nc fs =
       Some (kept, map (face_sign nc (fun c => nth c kept false)) fs)) /\
    length kept = S nc /\ nth nc kept false = false /\ length labs = S (list_max shell) /\
    (forall c, c < nc -> nth c kept false = existsb (fun lab => lab c) labs) /\
    forall s lab, nth_error labs s = Some lab -> forall lab0, labelling_cost shell hit pos nc s fs lab0 = 0%Z ->
      labelling_cost shell hit pos nc s fs lab = 0%Z /\ forall c, c <= nc -> lab0 c = true -> lab c = true.
Proof.
  intros Ne F. destruct (C77_costs shell hit pos nc fs Ne F) as (gs & E & L & B).
  destruct (keep_all_ok nc gs (repeat false (S nc))) as (labs & kept & f0 & K & Lk & R & No & Nk).
  { apply repeat_length. }
  { intros g Hg. apply In_nth_error in Hg. destruct Hg as [s Hs]. apply (B s g Hs). }
  assert (Rf : forall c, nth c (repeat false (S nc)) false = false).
  { intros c. generalize (S nc). intros n. revert c. induction n; intros [|c]; simpl; auto. }
  exists labs, kept, f0. split; [|split; [exact Lk|split; [|split; [|split]]]].
  - intros fuel Hf. unfold partition. rewrite E, (K fuel Hf), (keep_faces_ok nc kept shell fs Lk F). reflexivity.
  - rewrite No. apply Rf.
  - rewrite <- L. clear - R. induction R; simpl; auto.
  - intros c Hc. rewrite Nk by auto. now rewrite Rf.
  - intros s lab El lab0 Z0.
    assert (exists g, nth_error gs s = Some g /\ read_off nc g lab) as (g & Eg & r & Sol & Rd).
    { clear - R El. revert s El. induction R as [|g l gs labs H R IH]; intros [|s] El; simpl in *; try discriminate.
      - injection El as <-. eauto. - apply IH; auto. }
    destruct (B s g Eg) as [V C].
    pose proof (C lab0) as Cz. rewrite Z0 in Cz.
    assert (Ic : is_cut (nc + 3) (on_nodes nc lab0)).
    { split; [reflexivity|]. replace (nc + 3 - 1) with (S (S nc)) by lia. simpl.
      destruct nc as [|m]; [reflexivity|]. destruct (Nat.leb_spec (S m) m); [lia|reflexivity]. }
    destruct (pr_min_cut_zero g (nc + 3) r (on_nodes nc lab0) V Sol Ic Cz) as ([[M0 M1] _] & Cap & Big).
    split.
    + rewrite <- C, <- Cap. apply (cut_capacity_ext (nc + 3)).
      * intros f t c Hin. destruct (proj2 V f t c Hin) as (? & ? & _). auto.
      * intros [|i] Hi; simpl; [now rewrite M0|]. destruct (Nat.leb_spec i nc) as [Hl|Hl].
        -- rewrite Rd by auto. now rewrite Nat.add_1_r.
        -- replace (S i) with (nc + 3 - 1) by lia. now rewrite M1.
    + intros c Hc Hk. rewrite Rd by auto. apply Big; [lia|]. rewrite Nat.add_1_r. simpl.
      destruct (Nat.leb_spec c nc); [exact Hk|lia].
Qed.

(** One more relabelling before the sides are read would give a labelling of least
    cost, for every shell. *)
Theorem C77_relabelled shell hit pos nc fs gs s g r : shell <> [] -> Forall (face_ok shell nc) fs ->
  shell_graphs shell hit pos nc fs = Some gs -> nth_error gs s = Some g -> solved g (nc + 3) r ->
  exists r', global_relabel r = Some r' /\
    forall lab, (labelling_cost shell hit pos nc s fs (fun c => source_side r' (c + 1)) <= labelling_cost shell hit pos nc s fs lab)%Z.
Proof.
  intros Ne F E Eg Sol. destruct (C77_costs shell hit pos nc fs Ne F) as (gs' & E' & _ & B).
  rewrite E in E'. injection E' as <-. destruct (B s g Eg) as [V C].
  destruct (pr_relabel_after_total g (nc + 3) r V Sol) as (r' & Er & _). exists r'. split; [exact Er|]. intros lab.
  destruct (pr_min_cut_after_relabel g (nc + 3) r r' V Sol Er) as [[M0 M1] Mn]. rewrite <- !C.
  assert (X : cut_capacity g (on_nodes nc (fun c => source_side r' (c + 1))) = cut_capacity g (source_side r')).
  { apply (cut_capacity_ext (nc + 3)).
    - intros f t c Hin. destruct (proj2 V f t c Hin) as (? & ? & _). auto.
    - intros [|i] Hi; simpl; [now rewrite M0|]. destruct (Nat.leb_spec i nc) as [Hl|Hl].
      + now rewrite Nat.add_1_r.
      + replace (S i) with (nc + 3 - 1) by lia. now rewrite M1. }
  rewrite X. apply Mn. split; [reflexivity|]. replace (nc + 3 - 1) with (S (S nc)) by lia. simpl.
  destruct nc as [|m]; [reflexivity|]. destruct (Nat.leb_spec (S m) m); [lia|reflexivity].
Qed.

(** What cost 0 means when areas are positive. *)
Lemma faces_zero shell hit pos nc s lab : forall fs fid, Forall (fun f => 0 < farea f)%Z fs ->
  (0 <= faces_cost shell hit pos nc s lab fid fs)%Z /\
  (faces_cost shell hit pos nc s lab fid fs = 0%Z -> forall k f, nth_error fs k = Some f -> face_cost shell hit pos nc s lab (fid + k) f = 0%Z).
Proof.
  induction fs as [|f fs IH]; intros fid F; cbn [faces_cost].
  { split; [lia|]. intros _ [|k] g E; discriminate. }
  inversion F as [|? ? A F']; subst. destruct (IH (S fid) F') as [I1 I2].
  assert (P : (0 <= face_cost shell hit pos nc s lab fid f)%Z).
  { unfold face_cost. destruct (deciding shell hit s fid f).
    - destruct (Bool.eqb (lab (fc0 f)) _), (fc1 f) as [c|]; try destruct (Bool.eqb (lab c) _); lia.
    - destruct (Bool.eqb _ _); lia. }
  split; [lia|]. intros Z0 [|k] g E; simpl in E.
  - injection E as <-. rewrite Nat.add_0_r. lia.
  - replace (fid + S k) with (S fid + k) by lia. apply I2; auto. lia.
Qed.

Lemma zero_unique shell hit pos nc s fs lab lab' : Forall (face_ok shell nc) fs -> Forall (fun f => 0 < farea f)%Z fs -> (0 < total_area fs)%Z ->
  labelling_cost shell hit pos nc s fs lab = 0%Z -> labelling_cost shell hit pos nc s fs lab' = 0%Z ->
  forall c, settled shell hit nc s fs c -> lab c = lab' c.
Proof.
  intros F P T Z1 Z2. unfold labelling_cost in *.
  destruct (faces_zero shell hit pos nc s lab fs 0 P) as [N1 M1]. destruct (faces_zero shell hit pos nc s lab' fs 0 P) as [N2 M2].
  destruct (lab nc) eqn:O1; [lia|]. destruct (lab' nc) eqn:O2; [lia|].
  specialize (M1 ltac:(lia)). specialize (M2 ltac:(lia)). simpl in M1, M2. rewrite Forall_forall in P.
  intros c H. induction H as [|k f t E D|k f t c E D E1|k f E D H IH|k f c E D E1 H IH].
  - congruence.
  - specialize (P f (nth_error_In _ _ E)). pose proof (M1 k f E) as Q1. pose proof (M2 k f E) as Q2. unfold face_cost in Q1, Q2.
    rewrite D in Q1, Q2.
    destruct (pos k t), (lab (fc0 f)), (lab' (fc0 f)); auto; cbn [Bool.eqb] in Q1, Q2; exfalso;
    destruct (fc1 f) as [c|]; try destruct (lab c); try destruct (lab' c); cbn [Bool.eqb] in Q1, Q2; lia.
  - specialize (P f (nth_error_In _ _ E)). pose proof (M1 k f E) as Q1. pose proof (M2 k f E) as Q2. unfold face_cost in Q1, Q2.
    rewrite D, E1 in Q1, Q2.
    destruct (pos k t), (lab c), (lab' c); auto; cbn [Bool.eqb] in Q1, Q2; exfalso;
    destruct (lab (fc0 f)); destruct (lab' (fc0 f)); cbn [Bool.eqb] in Q1, Q2; lia.
  - specialize (P f (nth_error_In _ _ E)). pose proof (M1 k f E) as Q1. pose proof (M2 k f E) as Q2. unfold face_cost in Q1, Q2.
    rewrite D in Q1, Q2. rewrite IH in Q1.
    destruct (lab (fc0 f)), (lab' (fc0 f)), (lab' match fc1 f with Some c => c | None => nc end); auto; cbn [Bool.eqb] in Q1, Q2; lia.
  - specialize (P f (nth_error_In _ _ E)). pose proof (M1 k f E) as Q1. pose proof (M2 k f E) as Q2. unfold face_cost in Q1, Q2.
    rewrite D, E1 in Q1, Q2. rewrite IH in Q1.
    destruct (lab c), (lab' c), (lab' (fc0 f)); auto; cbn [Bool.eqb] in Q1, Q2; lia.
Qed.

(** If every shell [s] has a labelling [want s] of cost 0 (its triangles bound it without
    gaps or contradictions) that the faces settle, exactly the cells that one of them
    wants are kept. *)
Theorem C77_consistent shell hit pos nc fs want : shell <> [] -> Forall (face_ok shell nc) fs ->
  Forall (fun f => 0 < farea f)%Z fs -> fs <> [] ->
  (forall s, s <= list_max shell -> labelling_cost shell hit pos nc s fs (want s) = 0%Z) ->
  (forall s c, s <= list_max shell -> c < nc -> settled shell hit nc s fs c) ->
  exists kept fuel0, (forall fuel, fuel0 <= fuel -> partition shell hit pos fuel nc fs =
      Some (kept, map (face_sign nc (fun c => nth c kept false)) fs)) /\ length kept = S nc /\
    nth nc kept false = false /\
    forall c, c < nc -> nth c kept false = true <-> exists s, s <= list_max shell /\ want s c = true.
Proof.
  intros Ne F P Nf W Se. destruct (C77_kept_partial shell hit pos nc fs Ne F) as (labs & kept & f0 & R & Lk & No & Ll & K & Zs).
  assert (T : (0 < total_area fs)%Z).
  { destruct P as [|f fs' A P]; [congruence|]. simpl. inversion F as [|? ? _ F']; subst.
    pose proof (total_nonneg shell nc fs' F'). lia. }
  exists kept, f0. split; [exact R|]. split; [exact Lk|]. split; [exact No|]. intros c Hc. rewrite K by auto. rewrite existsb_exists.
  assert (Eq : forall s lab, nth_error labs s = Some lab -> lab c = want s c).
  { intros s lab El. assert (Hs : s <= list_max shell) by (pose proof (nth_error_lt _ _ _ El); lia).
    destruct (Zs s lab El (want s) (W s Hs)) as [Zl _].
    apply (zero_unique shell hit pos nc s fs lab (want s) F P T Zl (W s Hs)). apply Se; auto. }
  split.
  - intros (lab & Hin & Hl). apply In_nth_error in Hin. destruct Hin as [s Hs]. exists s.
    split; [pose proof (nth_error_lt _ _ _ Hs); lia|]. rewrite <- (Eq s lab Hs). exact Hl.
  - intros (s & Hs & Hw). destruct (nth_error_ex labs s) as (lab & El); [lia|]. exists lab.
    split; [eapply nth_error_In; eauto|]. rewrite (Eq s lab El). exact Hw.
Qed.

(** The labelling read off is not one of least cost in general.  Two unit cubes with a
    common face; nine of the ten other squares lie on the surface, one is missing.
    Keeping both cubes costs 2, the run drops the cube with the missing square, at a
    cost of 6. *)
Definition two_cubes : list cface :=
  CFace 0 (Some 1) [] 1%Z :: repeat (CFace 0 None [0] 1%Z) 4 ++ CFace 0 None [] 1%Z :: repeat (CFace 1 None [0] 1%Z) 5.

Theorem C77_least_refuted : exists shell hit pos nc fs fuel kept signs lab,
  shell <> [] /\ Forall (face_ok shell nc) fs /\ list_max shell = 0 /\
  partition shell hit pos fuel nc fs = Some (kept, signs) /\
  (labelling_cost shell hit pos nc 0 fs lab < labelling_cost shell hit pos nc 0 fs (fun c => nth c kept false))%Z /\
  kept = [false; true; false] /\ lab 0 = true /\ lab 1 = true /\ lab 2 = false.
Proof.
  exists [0], (fun _ _ => true), (fun _ _ => false), 2, two_cubes, 100.
  exists [false; true; false], ([1] ++ repeat 0 5 ++ repeat (-1) 5)%Z, (fun c => c <? 2).
  split; [discriminate|]. split.
  { apply Forall_forall. intros f Hf. unfold two_cubes in Hf.
    assert (C : f = CFace 0 (Some 1) [] 1 \/ f = CFace 0 None [0] 1 \/ f = CFace 0 None [] 1 \/ f = CFace 1 None [0] 1).
    { simpl in Hf. intuition. }
    unfold face_ok. destruct C as [-> | [-> | [-> | ->]]]; cbn [fc0 fc1 ftris farea length];
      (split; [lia|]); (split; [intros c E; try discriminate; injection E as <-; lia|]); (split; [|lia]);
      intros t Ht; simpl in Ht; lia. }
  split; [reflexivity|]. split; [vm_compute; reflexivity|]. split; [vm_compute; reflexivity|]. auto.
Qed.

(** ** Examples: the hypotheses are met *)

(** Three cubes in a row.  Triangles of shell 0 bound cube 0, triangles of shell 1 bound
    cube 1; triangle 2 is listed on the shared face but does not meet it.  Cube 2
    lies outside of both shells. *)
Definition row_shell : list nat := [0; 1; 1].
Definition row_hit (fid tid : nat) : bool := negb (tid =? 2).
Definition row_pos (fid tid : nat) : bool := (fid =? 0) && (tid =? 1).
Definition row_faces : list cface :=
  CFace 0 (Some 1) [2; 0; 1] 1%Z :: CFace 1 (Some 2) [1] 1%Z ::
  repeat (CFace 0 None [0] 1%Z) 5 ++ repeat (CFace 1 None [1] 1%Z) 4 ++ repeat (CFace 2 None [] 1%Z) 5.
Definition row_want (s c : nat) : bool := s =? c.

Lemma row_ok : Forall (face_ok row_shell 3) row_faces /\ Forall (fun f => 0 < farea f)%Z row_faces.
Proof.
  assert (C : forall f, In f row_faces -> f = CFace 0 (Some 1) [2; 0; 1] 1 \/ f = CFace 1 (Some 2) [1] 1 \/
    f = CFace 0 None [0] 1 \/ f = CFace 1 None [1] 1 \/ f = CFace 2 None [] 1).
  { intros f Hf. simpl in Hf. intuition. }
  split; apply Forall_forall; intros f Hf; destruct (C f Hf) as [-> | [-> | [-> | [-> | ->]]]]; cbn [farea]; try lia;
    unfold face_ok; cbn [fc0 fc1 ftris farea row_shell length];
    (split; [lia|]); (split; [intros c E; try discriminate; injection E as <-; lia|]); (split; [|lia]);
    intros t Ht; simpl in Ht; lia.
Qed.

Example C77_case : exists kept fuel0, (forall fuel, fuel0 <= fuel -> partition row_shell row_hit row_pos fuel 3 row_faces =
    Some (kept, map (face_sign 3 (fun c => nth c kept false)) row_faces)) /\ length kept = 4 /\ nth 3 kept false = false /\
  forall c, c < 3 -> nth c kept false = true <-> exists s, s <= 1 /\ (s =? c) = true.
Proof.
  apply (C77_consistent row_shell row_hit row_pos 3 row_faces row_want).
  - discriminate.
  - apply row_ok.
  - apply row_ok.
  - discriminate.
  - intros [|[|s]] Hs; [reflexivity|reflexivity|simpl in Hs; lia].
  - assert (H2 : forall s, s <= 1 -> settled row_shell row_hit 3 s row_faces 2).
    { intros s Hs. apply (se_back _ _ _ _ _ 11 (CFace 2 None [] 1%Z)); [reflexivity|reflexivity|constructor]. }
    intros [|[|s]] c Hs Hc; [| |simpl in Hs; lia]; destruct c as [|[|[|c]]]; try lia.
    + apply (se_first row_shell row_hit 3 _ row_faces 0 (CFace 0 (Some 1) [2; 0; 1] 1%Z) 0); reflexivity.
    + apply (se_second row_shell row_hit 3 _ row_faces 0 (CFace 0 (Some 1) [2; 0; 1] 1%Z) 0); reflexivity.
    + apply H2; lia.
    + apply (se_first row_shell row_hit 3 _ row_faces 0 (CFace 0 (Some 1) [2; 0; 1] 1%Z) 1); reflexivity.
    + apply (se_second row_shell row_hit 3 _ row_faces 0 (CFace 0 (Some 1) [2; 0; 1] 1%Z) 1); reflexivity.
    + apply H2; lia.
Qed.

(** The run itself. *)
Example C77_run : partition row_shell row_hit row_pos 100 3 row_faces =
  Some ([true; true; false; false], [0; -1; -1; -1; -1; -1; -1; -1; -1; -1; -1; 0; 0; 0; 0; 0]%Z).
Proof. vm_compute. reflexivity. Qed.

(** The hypotheses of [C77_outside]. *)
Example C77_outside_case : (0 < total_area row_faces)%Z.
Proof. reflexivity. Qed.

Print Assumptions C77_costs.
Print Assumptions C77_outside.
Print Assumptions C77_kept_partial.
Print Assumptions C77_consistent.
Print Assumptions C77_relabelled.
Print Assumptions C77_least_refuted.
