(** C69-C71: the outlines of the merged faces. *)
From Coq Require Import List Arith Bool Lia Permutation ZArith.
From Verif Require Import Lib Tet Bsp BspSpec BspGlue Outline OutlineSpec OutlineWalk OutlineTurn OutlineMerge OutlineGroups.
Import ListNotations.

(** * C69: extract_faces_outlines *)

(** For every group of faces without a halfedge twice, whatever the order of
    the hash map: the halfedges found are those on the outline, the function
    returns, and the outlines are closed walks with every halfedge of the
    outline exactly once.  Partial: the faces have no inner edge between two
    pinched vertices; [C69_outlines_refuted] shows that it is needed. *)
Theorem C69_outlines_partial : forall fs hs tf,
  NoDup (turned_edges fs) -> apart fs -> Permutation hs (outline_halfedges fs) -> length (turned_edges fs) < tf ->
  NoDup hs /\ (forall e, In e hs <-> on_outline fs e) /\
  exists ol, extract_outlines fs hs tf = Some ol /\ Forall closed_walk ol /\ Permutation (concat ol) hs.
Proof.
  intros fs hs tf N A P L. destruct (outline_halfedges_spec fs N) as [Nh Ih].
  assert (Nhs : NoDup hs) by (eapply Permutation_NoDup; [symmetry; exact P|exact Nh]).
  assert (Ihs : forall e, In e hs <-> on_outline fs e) by (intros e; rewrite <- Ih; split; apply Permutation_in; [|symmetry]; exact P).
  split; [exact Nhs|]. split; [exact Ihs|]. now apply extract_ok.
Qed.

(** Deciding the hypotheses on examples. *)
Definition inb (l : list (nat * nat)) (e : nat * nat) : bool := existsb (he_eqb e) l.
Lemma inb_true l e : inb l e = true <-> In e l.
Proof. apply (visited_true l e). Qed.
Fixpoint nodupb (l : list (nat * nat)) : bool := match l with [] => true | e :: t => negb (inb t e) && nodupb t end.
Lemma nodupb_true l : nodupb l = true -> NoDup l.
Proof.
  induction l as [|e t IH]; cbn [nodupb]; [constructor|]. intros H. apply andb_true_iff in H as [A B]. constructor; [|now apply IH].
  intros I. apply inb_true in I. rewrite I in A. easy.
Qed.
Lemma pinch_outs fs v : NoDup (turned_edges fs) -> pinch fs v -> 2 <= length (outs (outline_halfedges fs) v).
Proof.
  intros N (a & b & D & A & B). apply (outline_halfedges_spec fs N) in A, B.
  assert (In (v, a) (outs (outline_halfedges fs) v)) by now apply outs_in.
  assert (In (v, b) (outs (outline_halfedges fs) v)) by now apply outs_in.
  destruct (outs (outline_halfedges fs) v) as [|x [|y t]]; cbn in *; [easy| |lia].
  destruct H as [H|[]], H0 as [H0|[]]. exfalso. congruence.
Qed.
Lemma apart_dec fs : NoDup (turned_edges fs) ->
  forallb (fun e => negb (inb (turned_edges fs) (swap e) && multi (outline_halfedges fs) (fst e) && multi (outline_halfedges fs) (snd e))) (turned_edges fs) = true -> apart fs.
Proof.
  intros N H u v A B P Q. rewrite forallb_forall in H. specialize (H _ A). change (swap (u, v)) with (v, u) in H. cbn [fst snd] in H.
  apply inb_true in B. rewrite B in H. unfold multi in H.
  apply (pinch_outs fs u N) in P. apply (pinch_outs fs v N) in Q. apply Nat.leb_le in P, Q. rewrite P, Q in H. easy.
Qed.

(** Four faces around a hole that touches the outer outline in vertex 1, the
    last face given the other way round: one pinched vertex, outlines found in
    two orders of the hash map. *)
Definition fs_touch : list kface :=
  [KFace [0; 1; 2; 3] true; KFace [1; 4; 5; 6] true; KFace [2; 6; 5] true; KFace [5; 2; 3] false].
Example C69_case : NoDup (turned_edges fs_touch) /\ apart fs_touch /\ pinch fs_touch 1 /\
  extract_outlines fs_touch (outline_halfedges fs_touch) 20 = Some [[(0, 1); (1, 2); (2, 6); (6, 1); (1, 4); (4, 5); (5, 3); (3, 0)]] /\
  extract_outlines fs_touch (rev (outline_halfedges fs_touch)) 20 <> None.
Proof.
  assert (N : NoDup (turned_edges fs_touch)) by (apply nodupb_true; reflexivity).
  split; [exact N|]. split; [apply apart_dec; [exact N|reflexivity]|]. split.
  - exists 2, 4. split; [easy|]. split; apply (outline_halfedges_spec fs_touch N); apply inb_true; reflexivity.
  - split; [reflexivity|]. now vm_compute.
Qed.

(** Two faces with the common edge 0-1, both ends of which are pinched by
    another face of the group:
      0 = (-1,0)  1 = (1,0)  2 = (1,3)  3 = (-1,3)  4 = (-1,-3)  5 = (1,-3)
      6 = (-3,1)  7 = (-3,-1)  8 = (3,-1)  9 = (3,1)  10-13 = (5,5) (-5,5) (-5,-5) (5,-5).
    he_next_map is indexed by the edge alone: what the face on one side writes
    for the edge 0-1 replaces what the other side has written, the turn around
    vertex 0 goes on around vertex 1, and he_next_map.get(&cur).unwrap() panics
    (bsp_complex.rs:1034). *)
Definition fs_pinched : list kface :=
  [KFace [1; 0; 4; 5] true; KFace [0; 1; 2; 3] true; KFace [10; 11; 3; 2] true; KFace [11; 6; 3] true; KFace [11; 12; 7; 6] true;
   KFace [12; 4; 7] true; KFace [12; 13; 5; 4] true; KFace [13; 8; 5] true; KFace [13; 10; 9; 8] true; KFace [10; 2; 9] true;
   KFace [0; 6; 7] true; KFace [1; 8; 9] true].
Definition hs_pinched : list (nat * nat) := (0, 4) :: filter (fun e => negb (he_eqb e (0, 4))) (outline_halfedges fs_pinched).
Definition connectedb (fs : list kface) : bool :=
  forallb (fun i => match nth_error fs (S i) with
                    | None => true
                    | Some f => existsb (fun j => match nth_error fs j with
                        | None => false
                        | Some f' => existsb (fun e => inb (outward (kpos f) (kcycle f)) (swap e)) (outward (kpos f') (kcycle f')) end) (seq 0 (S i))
                    end) (seq 0 (length fs)).
Lemma connectedb_true fs : connectedb fs = true -> connected fs.
Proof.
  unfold connectedb. rewrite forallb_forall. intros H i f Hi. specialize (H i). rewrite Hi in H.
  assert (Li : S i < length fs) by (apply nth_error_Some; congruence).
  specialize (H ltac:(apply in_seq; lia)). apply existsb_exists in H as (j & Hj & H). apply in_seq in Hj.
  destruct (nth_error fs j) as [f'|] eqn:Ej; [|easy]. apply existsb_exists in H as (e & He & H). apply inb_true in H.
  exists j, f'. split; [lia|]. split; [exact Ej|]. exists e. auto.
Qed.
Theorem C69_outlines_refuted : exists fs hs,
  NoDup (turned_edges fs) /\ connected fs /\ (forall f, In f fs -> NoDup (kcycle f) /\ 3 <= length (kcycle f)) /\
  Permutation hs (outline_halfedges fs) /\ forall k, extract_outlines fs hs (length (turned_edges fs) + k) = None.
Proof.
  exists fs_pinched, hs_pinched.
  assert (N : NoDup (turned_edges fs_pinched)) by (apply nodupb_true; vm_compute; reflexivity).
  split; [exact N|]. split; [apply connectedb_true; vm_compute; reflexivity|]. split.
  - intros f Hf. cbn in Hf. repeat (destruct Hf as [<- |Hf]; [cbn; split; [repeat constructor; cbn; intuition discriminate|lia]|]). destruct Hf.
  - split.
    + destruct (outline_halfedges_spec _ N) as [Nh _]. apply NoDup_Permutation.
      * apply nodupb_true. vm_compute. reflexivity.
      * exact Nh.
      * intros e. assert (E : forall l, NoDup l -> In (0, 4) l -> forall e, In e ((0, 4) :: filter (fun e => negb (he_eqb e (0, 4))) l) <-> In e l).
        { intros l _ I a. cbn. rewrite filter_In. destruct (he_eqb_spec a (0, 4)) as [->|D]; cbn; intuition congruence. }
        apply E; [exact Nh|vm_compute; tauto].
    + intros k. vm_compute. reflexivity.
Qed.

(** * C70: merge_colinear_edges *)

(** For every outline with a corner before its last halfedge, the result is
    the corners in order; the test may be any function. *)
Theorem C70_corners : forall col a x y b, col x y = false ->
  merge_colinear col (a ++ x :: y :: b) = Some (corners col (a ++ x :: y :: b)).
Proof. intros col a x y b. apply merge_colinear_corners. Qed.
(** An outline without one panics (halfedges[0], bsp_complex.rs:1139). *)
Theorem C70_straight_panics : forall col l, (forall a x y b, l = a ++ x :: y :: b -> col x y = true) -> merge_colinear col l = None.
Proof.
  intros col [|x t] H; [reflexivity|]. apply merge_colinear_straight. revert x H. induction t as [|y t IH]; intros x H; cbn; [exact I|].
  split; [apply (H [] x y t); reflexivity|]. apply IH. intros a u v b E. apply (H (x :: a) u v b). cbn. now rewrite E.
Qed.
(** A square with a vertex inside each of two sides, also where the outline
    starts. *)
Example C70_case :
  let col := fun p q => match p, q with (0, 1), (1, 2) => true | (5, 0), (0, 1) => true | _, _ => false end in
  merge_colinear col [(0, 1); (1, 2); (2, 3); (3, 4); (4, 5); (5, 0)] = Some [2; 3; 4; 5] /\
  corners col [(0, 1); (1, 2); (2, 3); (3, 4); (4, 5); (5, 0)] = [2; 3; 4; 5].
Proof. split; reflexivity. Qed.

(** * C71: the loops of all groups *)

(** For every closed surface, every grouping of its faces, every order of the
    hash maps: the edges of all loops are balanced, so two loops that meet
    along a line have the same vertices there.  Partial: no group has a pinched
    vertex; [C71_conforming_refuted] shows that it is needed. *)
Theorem C71_conforming_partial : forall fs grp line aligned order tf gs R,
  two_sided fs -> (forall g v, ~ pinch (group_faces fs grp g) v) -> exact_line fs grp line aligned ->
  (forall g, Permutation (order g) (outline_halfedges (group_faces fs grp g))) -> length (turned_edges fs) < tf ->
  NoDup gs -> (forall i, i < length fs -> In (grp i) gs) ->
  merge_groups fs grp line order tf gs = Some R -> balanced (loop_edges R).
Proof. intros. eapply loops_balanced; eauto. Qed.
(** The loops are found when no closed walk on an outline is straight. *)
Theorem C71_loops_found : forall fs grp line order tf gs,
  two_sided fs -> (forall g v, ~ pinch (group_faces fs grp g) v) ->
  (forall g, Permutation (order g) (outline_halfedges (group_faces fs grp g))) -> length (turned_edges fs) < tf ->
  (forall g l, closed_walk l -> Forall (on_outline (group_faces fs grp g)) l ->
     exists a x y b, l = a ++ x :: y :: b /\ line g (fst x) (snd x) (snd y) = false) ->
  exists R, merge_groups fs grp line order tf gs = Some R.
Proof.
  intros fs grp line order tf gs TS NP ORD FU CO. induction gs as [|g gs (R & IH)]; cbn [merge_groups]; [eauto|].
  destruct (group_extract fs grp TS NP order tf ORD FU g) as (ol & -> & C & P).
  assert (I : forall l, In l ol -> Forall (on_outline (group_faces fs grp g)) l).
  { intros l Hl. apply Forall_forall. intros e He. apply (order_spec fs grp TS order ORD g). eapply Permutation_in; [exact P|]. apply in_concat. eauto. }
  assert (X : exists lps, omap (merge_colinear (colinear fs grp (line g))) ol = Some lps).
  { clear P. revert I. induction ol as [|l ol IHo]; intros I; cbn [omap]; [eauto|]. inversion C; subst.
    destruct IHo as (lps & ->); [assumption|intros; apply I; now right|].
    destruct (CO g l) as (a & x & y & b & E & L); [assumption|apply I; now left|].
    assert (Ix : on_outline (group_faces fs grp g) x /\ on_outline (group_faces fs grp g) y).
    { pose proof (I l (or_introl eq_refl)) as F. rewrite Forall_forall in F. subst l. split; apply F; apply in_or_app; right; cbn; auto. }
    assert (J : fst y = snd x).
    { assert (Cl : closed_walk l) by assumption. subst l. destruct a as [|a0 a]; [apply closed_linked in Cl; apply Cl|].
      cbn [app] in Cl. apply closed_linked in Cl. apply linked_app in Cl as [_ [Cl _]]. exact Cl. }
    subst l. rewrite C70_corners; [eauto|]. unfold colinear. apply andb_false_iff. right. rewrite L.
    destruct (edge_eqb x y) eqn:Ee; [|reflexivity]. exfalso. destruct Ix as [[X1 X2] [Y1 Y2]].
    apply edge_eqb_true in Ee as [-> | ->].
    - apply X2. destruct y as [u v]. cbn in *. subst v. exact X1.
    - apply Y2. exact X1. }
  destruct X as (lps & ->). rewrite IH. eauto.
Qed.

(** Straightness of points with integer coordinates. *)
Definition vsub (p q : Z * Z * Z) : Z * Z * Z := let '(a, b, c) := p in let '(d, e, f) := q in (a - d, b - e, c - f)%Z.
Definition cross (p q : Z * Z * Z) : Z * Z * Z := let '(a, b, c) := p in let '(d, e, f) := q in (b * f - c * e, c * d - a * f, a * e - b * d)%Z.
Definition dot (p q : Z * Z * Z) : Z := let '(a, b, c) := p in let '(d, e, f) := q in (a * d + b * e + c * f)%Z.
Definition zero3 (p : Z * Z * Z) : bool := let '(a, b, c) := p in ((a =? 0) && (b =? 0) && (c =? 0))%Z.
Definition straight (pos : nat -> Z * Z * Z) (a b c : nat) : bool := zero3 (cross (vsub (pos b) (pos a)) (vsub (pos c) (pos a))).
Lemma straight_sym pos a b c : straight pos a b c = straight pos c b a.
Proof.
  unfold straight. destruct (pos a) as [[ax ay] az], (pos b) as [[bx by_] bz], (pos c) as [[cx cy] cz]. cbn.
  f_equal; [f_equal|]; apply eq_true_iff_eq; rewrite !Z.eqb_eq; split; intros; nia.
Qed.
(** Two faces lie in one plane: the vertices of the second in that of the first
    three vertices of the first. *)
Definition in_plane (pos : nat -> Z * Z * Z) (l l' : list nat) : bool :=
  match l with
  | a :: b :: c :: _ => forallb (fun v => (dot (cross (vsub (pos b) (pos a)) (vsub (pos c) (pos a))) (vsub (pos v) (pos a)) =? 0)%Z) l'
  | _ => false
  end.
Definition face_plane (pos : nat -> Z * Z * Z) (fs : list kface) (i j : nat) : bool :=
  match nth_error fs i, nth_error fs j with Some f, Some f' => in_plane pos (kcycle f) (kcycle f') | _, _ => false end.

(** A box, the top of which consists of two faces. *)
Definition fs_box : list kface :=
  [KFace [4; 8; 9; 7] true; KFace [8; 5; 6; 9] true; KFace [1; 2; 3; 0] false; KFace [0; 1; 5; 8; 4] true; KFace [1; 2; 6; 5] true;
   KFace [2; 3; 7; 9; 6] true; KFace [3; 0; 4; 7] true].
Definition pos_box (v : nat) : Z * Z * Z :=
  nth v [(0, 0, 0); (2, 0, 0); (2, 2, 0); (0, 2, 0); (0, 0, 2); (2, 0, 2); (2, 2, 2); (0, 2, 2); (1, 0, 2); (1, 2, 2)]%Z (0, 0, 0)%Z.
Definition grp_box (i : nat) : nat := i - 1.
Definition order_of (fs : list kface) (grp : nat -> nat) (g : nat) : list (nat * nat) := rev (outline_halfedges (group_faces fs grp g)).
Definition two_sidedb (fs : list kface) : bool := nodupb (turned_edges fs) && forallb (fun e => inb (turned_edges fs) (swap e)) (turned_edges fs).
Lemma two_sidedb_true fs : two_sidedb fs = true -> two_sided fs.
Proof.
  unfold two_sidedb. intros H. apply andb_true_iff in H as [A B]. split; [now apply nodupb_true|]. intros e He. rewrite forallb_forall in B. apply inb_true. auto.
Qed.
Lemma no_pinch fs : NoDup (turned_edges fs) -> forallb (fun e => negb (multi (outline_halfedges fs) (fst e))) (outline_halfedges fs) = true -> forall v, ~ pinch fs v.
Proof.
  intros N H v P. pose proof (pinch_outs fs v N P) as L. destruct P as (a & b & _ & A & _). apply (outline_halfedges_spec fs N) in A.
  rewrite forallb_forall in H. specialize (H _ A). cbn [fst] in H. unfold multi in H. apply Nat.leb_le in L. rewrite L in H. easy.
Qed.
Definition grouped_b (plane : nat -> nat -> bool) (fs : list kface) (grp : nat -> nat) (n : nat) : bool :=
  forallb (fun i => forallb (fun j => match nth_error fs i, nth_error fs j with
    | Some f, Some f' => negb (existsb (fun e => inb (outward (kpos f') (kcycle f')) (swap e)) (outward (kpos f) (kcycle f))) || eqb (grp i =? grp j) (plane i j)
    | _, _ => true end) (seq 0 (length fs))) (seq 0 (length fs)) &&
  forallb (fun g => connectedb (group_faces fs grp g)) (seq 0 n) && forallb (fun i => grp i <? n) (seq 0 (length fs)).
Lemma group_faces_none fs grp n g : forallb (fun i => grp i <? n) (seq 0 (length fs)) = true -> n <= g -> group_faces fs grp g = [].
Proof.
  intros H L. rewrite forallb_forall in H. destruct (group_faces fs grp g) as [|f t] eqn:E; [reflexivity|exfalso].
  assert (I : In f (group_faces fs grp g)) by (rewrite E; now left). apply group_faces_in in I as (i & Hi & Hg).
  assert (i < length fs) by (apply nth_error_Some; congruence). specialize (H i ltac:(apply in_seq; lia)). apply Nat.ltb_lt in H. lia.
Qed.
Lemma grouped_b_true plane fs grp n : grouped_b plane fs grp n = true -> grouped_by plane fs grp.
Proof.
  unfold grouped_b. intros H. apply andb_true_iff in H as [H H3]. apply andb_true_iff in H as [H1 H2]. split.
  - intros i j f f' Hi Hj (e & He & He'). rewrite forallb_forall in H1.
    assert (Li : i < length fs) by (apply nth_error_Some; congruence). assert (Lj : j < length fs) by (apply nth_error_Some; congruence).
    specialize (H1 i ltac:(apply in_seq; lia)). rewrite forallb_forall in H1. specialize (H1 j ltac:(apply in_seq; lia)). rewrite Hi, Hj in H1.
    apply orb_true_iff in H1 as [H1|H1].
    + exfalso. apply negb_true_iff in H1. assert (X : existsb (fun e => inb (outward (kpos f') (kcycle f')) (swap e)) (outward (kpos f) (kcycle f)) = true).
      { apply existsb_exists. exists e. split; [exact He|now apply inb_true]. } congruence.
    + apply eqb_prop in H1. rewrite <- H1. symmetry. apply Nat.eqb_eq.
  - intros g. destruct (le_lt_dec n g) as [L|L].
    + rewrite (group_faces_none fs grp n g H3 L). intros i f. now rewrite (proj2 (nth_error_None [] (S i))) by (cbn; lia).
    + apply connectedb_true. rewrite forallb_forall in H2. apply H2. apply in_seq. lia.
Qed.
Lemma no_pinches fs grp n : NoDup (turned_edges fs) -> forallb (fun i => grp i <? n) (seq 0 (length fs)) = true ->
  forallb (fun g => let hs := outline_halfedges (group_faces fs grp g) in forallb (fun e => negb (multi hs (fst e))) hs) (seq 0 n) = true ->
  forall g v, ~ pinch (group_faces fs grp g) v.
Proof.
  intros N H1 H2 g. destruct (le_lt_dec n g) as [L|L].
  - rewrite (group_faces_none fs grp n g H1 L). intros v (a & b & _ & [[] _] & _).
  - apply no_pinch; [now apply group_nodup|]. rewrite forallb_forall in H2. apply H2. apply in_seq. lia.
Qed.
Lemma exact_straight fs grp pos : exact_line fs grp (fun _ => straight pos) (straight pos).
Proof. split; [intros; apply straight_sym|reflexivity]. Qed.
Example C71_case : two_sided fs_box /\ (forall g v, ~ pinch (group_faces fs_box grp_box g) v) /\
  grouped_by (face_plane pos_box fs_box) fs_box grp_box /\
  exact_line fs_box grp_box (fun _ => straight pos_box) (straight pos_box) /\
  merge_groups fs_box grp_box (fun _ => straight pos_box) (order_of fs_box grp_box) 40 (seq 0 6)
    = Some [[[7; 4; 5; 6]]; [[0; 3; 2; 1]]; [[0; 1; 5; 4]]; [[1; 2; 6; 5]]; [[2; 3; 7; 6]]; [[3; 0; 4; 7]]].
Proof.
  assert (T : two_sided fs_box) by (apply two_sidedb_true; vm_compute; reflexivity).
  split; [exact T|]. split; [apply (no_pinches _ _ 6 (proj1 T)); vm_compute; reflexivity|].
  split; [apply (grouped_b_true _ _ _ 6); vm_compute; reflexivity|]. split; [apply exact_straight|]. vm_compute. reflexivity.
Qed.

(** A box with a pit, the opening 0-5-6 of which touches the front edge 1-2 of
    the top in the vertex 0.  The outline of the top passes through 0 twice and
    turns there, so 0 stays in its loop; in the outline of the front 0 is inside
    a straight line between the same two groups and is dropped.  The front has
    the edge 2-1, the top has 1-0 and 0-2. *)
Definition fs_pit : list kface :=
  [KFace [1; 0; 5; 4] true; KFace [5; 6; 3; 4] true; KFace [0; 2; 3; 6] true; KFace [5; 0; 7] true; KFace [0; 6; 7] true; KFace [6; 5; 7] true;
   KFace [1; 8; 9; 2; 0] true; KFace [2; 9; 10; 3] true; KFace [3; 10; 11; 4] true; KFace [4; 11; 8; 1] true; KFace [8; 11; 10; 9] true].
Definition pos_pit (v : nat) : Z * Z * Z :=
  nth v [(0, 0, 0); (-2, 0, 0); (2, 0, 0); (2, 4, 0); (-2, 4, 0); (-1, 2, 0); (1, 2, 0); (0, 2, -1);
         (-2, 0, -4); (2, 0, -4); (2, 4, -4); (-2, 4, -4)]%Z (0, 0, 0)%Z.
Definition grp_pit (i : nat) : nat := match i with 1 => 0 | S (S j) => j | 0 => 0 end.
Theorem C71_conforming_refuted : exists fs pos grp order gs R,
  two_sided fs /\ (forall f, In f fs -> NoDup (kcycle f) /\ 3 <= length (kcycle f)) /\
  grouped_by (face_plane pos fs) fs grp /\ exact_line fs grp (fun _ => straight pos) (straight pos) /\
  (forall g, Permutation (order g) (outline_halfedges (group_faces fs grp g))) /\
  NoDup gs /\ (forall i, i < length fs -> In (grp i) gs) /\
  merge_groups fs grp (fun _ => straight pos) order (S (length (turned_edges fs))) gs = Some R /\
  In (2, 1) (loop_edges R) /\ ~ In (1, 2) (loop_edges R) /\ ~ balanced (loop_edges R).
Proof.
  exists fs_pit, pos_pit, grp_pit, (order_of fs_pit grp_pit), (seq 0 9),
    [[[0; 2; 3; 4; 1; 0; 5; 6]]; [[5; 0; 7]]; [[0; 6; 7]]; [[6; 5; 7]]; [[1; 8; 9; 2]]; [[2; 9; 10; 3]]; [[3; 10; 11; 4]]; [[4; 11; 8; 1]]; [[8; 11; 10; 9]]].
  split; [apply two_sidedb_true; vm_compute; reflexivity|]. split.
  { intros f Hf. cbn in Hf. repeat (destruct Hf as [<- |Hf]; [cbn; split; [repeat constructor; cbn; intuition discriminate|lia]|]). destruct Hf. }
  split; [apply (grouped_b_true _ _ _ 9); vm_compute; reflexivity|]. split; [apply exact_straight|].
  split; [intros g; symmetry; apply Permutation_rev|]. split; [apply seq_NoDup|]. split.
  { intros i Hi. cbn in Hi. do 11 (destruct i as [|i]; [cbn; tauto|]). lia. }
  split; [vm_compute; reflexivity|].
  split; [|split].
  - vm_compute. tauto.
  - vm_compute. intuition congruence.
  - intros B. specialize (B 1 2). vm_compute in B. discriminate B.
Qed.

Print Assumptions C69_outlines_partial.
Print Assumptions C69_outlines_refuted.
Print Assumptions C70_corners.
Print Assumptions C70_straight_panics.
Print Assumptions C71_conforming_partial.
Print Assumptions C71_loops_found.
Print Assumptions C71_conforming_refuted.
