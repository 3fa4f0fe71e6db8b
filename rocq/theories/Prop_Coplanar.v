(** C57: copying the recorded sides from one triangle to a coplanar one
    (bsp_complex.rs:267-281, inside split_cell) keeps them exact when both
    triangles were projected along the same axis, and may not otherwise. *)
From Coq Require Import Reals Lra Psatz List Arith Bool Lia.
From Verif Require Import Lib Geo Dispatch Orient PointTests Prop_Dispatch Prop_PointTests Clip Prop_Clip.
Import ListNotations.
Local Open Scope R_scope.

(** bsp_complex.rs:270-279: what is recorded for the coplanar triangle; the
    arguments are tri_orientations[tid], tri_orientations[coplanar_tid] and the
    recorded side of the vertex for tid. *)
Definition copied_side (base_tri_ori coplanar_ori ori : Orientation) : Orientation :=
  if ori_eqb base_tri_ori coplanar_ori then ori else sign_reverse ori.
(** bsp_complex.rs:205-221: tri_orientations[i] along the axis tri_axes[i]. *)
Definition tri_orientation (axis : nat) (p : plane3) : Orientation :=
  let '(a, b, c) := p in ori_of (Prop_Dispatch.o2 axis a b c).
Definition side3 (p : plane3) (x : vec3) : Orientation := let '(a, b, c) := p in exact_side a b c x.

Definition comp (axis : nat) (v : vec3) : R := match axis with 0%nat => vx v | 1%nat => vy v | _ => vz v end.
Lemma o2_nrm axis a b c : Prop_Dispatch.o2 axis a b c = comp axis (nrm a b c).
Proof. destruct axis as [|[|axis]]; unfold Prop_Dispatch.o2, proj, comp, nrm, orient2; cbn [fst snd vx vy vz cross vsub]; ring. Qed.
Lemma perp_one n m a b c : n <> vzero -> m = cross (vsub b a) (vsub c a) -> dot n (vsub b a) = 0 -> dot n (vsub c a) = 0 -> exists k, m = vscale k n.
Proof.
  intros Nz -> H1 H2. set (d := vsub b a) in *. set (e := vsub c a) in *. clearbody d e. exists (dot (cross d e) n / dot n n).
  pose proof (vnz n Nz) as P.
  assert (C : cross (cross d e) n = vzero).
  { destruct n as [n1 n2 n3], d as [d1 d2 d3], e as [e1 e2 e3]. unfold dot in H1, H2. unfold cross, vzero. cbn [vx vy vz] in *. apply vec3_eq; cbn [vx vy vz].
    - transitivity (e1 * (n1 * d1 + n2 * d2 + n3 * d3) - d1 * (n1 * e1 + n2 * e2 + n3 * e3)); [ring|rewrite H1, H2; ring].
    - transitivity (e2 * (n1 * d1 + n2 * d2 + n3 * d3) - d2 * (n1 * e1 + n2 * e2 + n3 * e3)); [ring|rewrite H1, H2; ring].
    - transitivity (e3 * (n1 * d1 + n2 * d2 + n3 * d3) - d3 * (n1 * e1 + n2 * e2 + n3 * e3)); [ring|rewrite H1, H2; ring]. }
  set (m := cross d e) in *. clearbody m. clear H1 H2.
  destruct n as [w1 w2 w3], m as [x1 x2 x3]. unfold dot in *. unfold cross, vzero in C. unfold vscale. cbn [vx vy vz] in *.
  injection C as C1 C2 C3. set (q := w1 * w1 + w2 * w2 + w3 * w3) in *.
  assert (forall x y, x * q = y -> x = y / q) as Dv by (intros x y <-; field; lra).
  apply vec3_eq; cbn [vx vy vz].
  - replace ((x1 * w1 + x2 * w2 + x3 * w3) / q * w1) with ((x1 * w1 + x2 * w2 + x3 * w3) * w1 / q) by (unfold Rdiv; ring). apply Dv. unfold q.
    transitivity ((x1 * w1 + x2 * w2 + x3 * w3) * w1 + w2 * (x1 * w2 - x2 * w1) - w3 * (x3 * w1 - x1 * w3)); [ring|rewrite C2, C3; ring].
  - replace ((x1 * w1 + x2 * w2 + x3 * w3) / q * w2) with ((x1 * w1 + x2 * w2 + x3 * w3) * w2 / q) by (unfold Rdiv; ring). apply Dv. unfold q.
    transitivity ((x1 * w1 + x2 * w2 + x3 * w3) * w2 + w3 * (x2 * w3 - x3 * w2) - w1 * (x1 * w2 - x2 * w1)); [ring|rewrite C1, C3; ring].
  - replace ((x1 * w1 + x2 * w2 + x3 * w3) / q * w3) with ((x1 * w1 + x2 * w2 + x3 * w3) * w3 / q) by (unfold Rdiv; ring). apply Dv. unfold q.
    transitivity ((x1 * w1 + x2 * w2 + x3 * w3) * w3 + w1 * (x3 * w1 - x1 * w3) - w2 * (x2 * w3 - x3 * w2)); [ring|rewrite C1, C2; ring].
Qed.
Lemma ori_scale k x : k <> 0 -> ori_of (k * x) = if Rlt_dec 0 k then ori_of x else sign_reverse (ori_of x).
Proof.
  intros N. destruct (Rlt_dec 0 k) as [P|P].
  - destruct (Rtotal_order x 0) as [H|[H|H]].
    + rewrite (ori_neg x), (ori_neg (k * x)); auto. assert (0 < k * - x) by (apply Rmult_lt_0_compat; lra). lra.
    + subst. rewrite Rmult_0_r. reflexivity.
    + rewrite (ori_pos x), (ori_pos (k * x)); auto. apply Rmult_lt_0_compat; lra.
  - rewrite <- ori_opp. destruct (Rtotal_order x 0) as [H|[H|H]].
    + rewrite (ori_pos (- x)), (ori_pos (k * x)); auto; [|lra]. assert (0 < - k * - x) by (apply Rmult_lt_0_compat; lra). lra.
    + subst. rewrite Rmult_0_r, Ropp_0. reflexivity.
    + rewrite (ori_neg (- x)), (ori_neg (k * x)); auto; [|lra]. assert (0 < - k * x) by (apply Rmult_lt_0_compat; lra). lra.
Qed.

(** Triangles p and q in one plane, both seen along the same axis, neither
    degenerate along it. *)
Theorem C57_copied axis p q x :
  (let '(d, e, f) := q in on p d /\ on p e /\ on p f) ->
  tri_orientation axis p <> Zero -> tri_orientation axis q <> Zero ->
  copied_side (tri_orientation axis p) (tri_orientation axis q) (side3 p x) = side3 q x.
Proof.
  destruct p as ((a & b) & c), q as ((d & e) & f). cbn [on tri_orientation side3]. intros (Hd & He & Hf).
  rewrite !o2_nrm. intros Np Nq.
  set (n := nrm a b c) in *. assert (Nz : n <> vzero). { intros E. apply Np. rewrite E. destruct axis as [|[|]]; apply ori_zero. }
  destruct (perp_one n (nrm d e f) d e f Nz eq_refl (on_diff (a, b, c) e d He Hd) (on_diff (a, b, c) f d Hf Hd)) as (k & Ek).
  rewrite Ek in Nq |- *.
  assert (Ec : comp axis (vscale k n) = k * comp axis n) by (destruct axis as [|[|]]; reflexivity). rewrite Ec in Nq |- *.
  assert (Nk : k <> 0). { intros ->. apply Nq. rewrite Rmult_0_l. apply ori_zero. }
  assert (Es : exact_side d e f x = ori_of (k * Prop_Dispatch.o3 a b c x)).
  { unfold exact_side, Prop_Dispatch.o3. f_equal. rewrite !orient3_nrm, Ek. fold n.
    assert (D : dot n (vsub d a) = 0) by (apply (on_diff (a, b, c)); [exact Hd|apply plane_a]).
    assert (V : dot (vscale k n) (vsub x d) = k * (dot n (vsub x a) - dot n (vsub d a))) by (unfold dot, vscale, vsub; cbn [vx vy vz]; ring). rewrite V, D. ring. }
  rewrite Es. unfold copied_side, exact_side. rewrite !(ori_scale k) by auto.
  destruct (Rlt_dec 0 k).
  - destruct (ori_eqb_spec (ori_of (comp axis n)) (ori_of (comp axis n))); congruence.
  - destruct (ori_eqb_spec (ori_of (comp axis n)) (sign_reverse (ori_of (comp axis n)))) as [e'|]; auto.
    exfalso. destruct (ori_of (comp axis n)) eqn:Eo; cbn in e'; try discriminate; try congruence. unfold ori_of in Eo. destruct (total_order_T _ 0) as [[|]|] in Eo; discriminate.
Qed.
(** Along different axes the copied side can be the wrong one: two triangles of
    the plane x + y = 0, wound alike, seen along x and along y. *)
Theorem C57_axes_refuted : exists p q x,
  (let '(d, e, f) := q in on p d /\ on p e /\ on p f) /\
  tri_orientation 0 p <> Zero /\ tri_orientation 1 q <> Zero /\
  (comp 0 (nrm3 p) = - comp 1 (nrm3 p) /\ comp 2 (nrm3 p) = 0 /\ comp 0 (nrm3 q) = - comp 1 (nrm3 q) /\ comp 2 (nrm3 q) = 0) /\
  copied_side (tri_orientation 0 p) (tri_orientation 1 q) (side3 p x) <> side3 q x.
Proof.
  exists (V3 0 0 0, V3 1 1 0, V3 0 0 1), (V3 0 0 0, V3 2 2 0, V3 0 0 1), (V3 1 0 0).
  assert (A : tri_orientation 0 (V3 0 0 0, V3 1 1 0, V3 0 0 1) = Positive) by (cbn [tri_orientation]; apply ori_pos; rewrite o2_nrm; unfold nrm; geo; cbn [comp vx vy vz]; lra).
  assert (B : tri_orientation 1 (V3 0 0 0, V3 2 2 0, V3 0 0 1) = Negative) by (cbn [tri_orientation]; apply ori_neg; rewrite o2_nrm; unfold nrm; geo; cbn [comp vx vy vz]; lra).
  assert (C : side3 (V3 0 0 0, V3 1 1 0, V3 0 0 1) (V3 1 0 0) = Positive) by (cbn [side3]; apply ori_pos; unfold Prop_Dispatch.o3; geo; lra).
  assert (D : side3 (V3 0 0 0, V3 2 2 0, V3 0 0 1) (V3 1 0 0) = Positive) by (cbn [side3]; apply ori_pos; unfold Prop_Dispatch.o3; geo; lra).
  rewrite A, B, C, D. split; [cbn [on]; unfold on_plane; geo; repeat split; ring|]. split; [discriminate|]. split; [discriminate|].
  split; [cbn [nrm3]; unfold nrm; geo; cbn [comp vx vy vz]; repeat split; ring|]. discriminate.
Qed.
Example C57_case : copied_side (tri_orientation 2 (V3 0 0 0, V3 1 0 0, V3 0 1 0)) (tri_orientation 2 (V3 0 0 0, V3 0 3 0, V3 3 0 0)) Positive = Negative /\
  side3 (V3 0 0 0, V3 1 0 0, V3 0 1 0) (V3 5 5 5) = Positive /\ side3 (V3 0 0 0, V3 0 3 0, V3 3 0 0) (V3 5 5 5) = Negative.
Proof.
  assert (A : tri_orientation 2 (V3 0 0 0, V3 1 0 0, V3 0 1 0) = Positive) by (cbn [tri_orientation]; apply ori_pos; rewrite o2_nrm; unfold nrm; geo; cbn [comp vx vy vz]; lra).
  assert (B : tri_orientation 2 (V3 0 0 0, V3 0 3 0, V3 3 0 0) = Negative) by (cbn [tri_orientation]; apply ori_neg; rewrite o2_nrm; unfold nrm; geo; cbn [comp vx vy vz]; lra).
  assert (S : side3 (V3 0 0 0, V3 1 0 0, V3 0 1 0) (V3 5 5 5) = Positive) by (cbn [side3]; apply ori_pos; unfold Prop_Dispatch.o3; geo; lra).
  rewrite A, B. split; [reflexivity|]. split; [exact S|].
  rewrite <- (C57_copied 2 (V3 0 0 0, V3 1 0 0, V3 0 1 0)); [rewrite A, B, S; reflexivity| |rewrite A; discriminate|rewrite B; discriminate].
  cbn [on]; unfold on_plane; geo; repeat split; ring.
Qed.
Print Assumptions C57_copied.
Print Assumptions C57_axes_refuted.
