(** C36: the segment and triangle tests decide the geometric relations their
    names announce (exact real coordinates). *)
From Coq Require Import Reals Lra Bool List.
From Verif Require Import Lib Geo Dispatch Orient PointTests Prop_Dispatch.
Local Open Scope R_scope.

(** ** Specification *)
Definition lerp (a b : vec3) (t : R) : vec3 := vadd a (vscale t (vsub b a)).
Definition in_open_segment (p a b : vec3) : Prop :=
  a <> b /\ exists t, 0 < t < 1 /\ p = lerp a b t.
Definition in_segment (p a b : vec3) : Prop :=
  exists t, 0 <= t <= 1 /\ p = lerp a b t.
Definition bary (v1 v2 v3 : vec3) (a b c : R) : vec3 :=
  vadd (vscale a v1) (vadd (vscale b v2) (vscale c v3)).
Definition in_open_triangle (p v1 v2 v3 : vec3) : Prop :=
  exists a b c, 0 < a /\ 0 < b /\ 0 < c /\ a + b + c = 1 /\ p = bary v1 v2 v3 a b c.
Definition in_triangle (p v1 v2 v3 : vec3) : Prop :=
  exists a b c, 0 <= a /\ 0 <= b /\ 0 <= c /\ a + b + c = 1 /\ p = bary v1 v2 v3 a b c.
Definition vzero : vec3 := V3 0 0 0.
Definition collinear (p q r : vec3) : Prop := cross (vsub q p) (vsub r p) = vzero.

(** ** Small facts *)
Lemma ori_eqb_spec a b : reflect (a = b) (ori_eqb a b).
Proof. destruct a, b; simpl; constructor; congruence. Qed.
Lemma Rltb_spec a b : reflect (a < b) (Rltb a b).
Proof. unfold Rltb; destruct Rlt_dec; constructor; auto. Qed.
Lemma Rleb_spec a b : reflect (a <= b) (Rleb a b).
Proof. unfold Rleb; destruct Rle_dec; constructor; auto. Qed.
Lemma Reqb_spec a b : reflect (a = b) (Reqb a b).
Proof. unfold Reqb; destruct Req_EM_T; constructor; auto. Qed.

Lemma vec3_eq_dec (a b : vec3) : {a = b} + {a <> b}.
Proof.
  destruct a as [a1 a2 a3], b as [b1 b2 b3].
  destruct (Req_EM_T a1 b1), (Req_EM_T a2 b2), (Req_EM_T a3 b3);
  (left; congruence) || (right; intros H; injection H; congruence).
Qed.

Lemma ori_eqb_zero x : ori_eqb (ori_of x) Zero = true <-> x = 0.
Proof. destruct (ori_eqb_spec (ori_of x) Zero) as [H|H]; rewrite ori_eq_zero in H; split; intros; try tauto; congruence. Qed.
Lemma ori_eqb_nzero x : ori_eqb (ori_of x) Zero = false <-> x <> 0.
Proof. destruct (ori_eqb_spec (ori_of x) Zero) as [H|H]; rewrite ori_eq_zero in H; split; intros; try tauto; congruence. Qed.

Ltac geo := unfold lerp, bary, orient3, orient2, det3, dot, cross, vsub, vadd, vscale, vzero in *;
  cbn [vx vy vz] in *.

Lemma mis_alignment_spec p q r : mis_alignment p q r = false <-> collinear p q r.
Proof.
  unfold mis_alignment, collinear, s_xy, s_yz, s_xz.
  destruct (ori_eqb_spec (ori_of (orient2 (vx p) (vy p) (vx q) (vy q) (vx r) (vy r))) Zero) as [H1|H1];
  destruct (ori_eqb_spec (ori_of (orient2 (vy p) (vz p) (vy q) (vz q) (vy r) (vz r))) Zero) as [H2|H2];
  destruct (ori_eqb_spec (ori_of (orient2 (vx p) (vz p) (vx q) (vz q) (vx r) (vz r))) Zero) as [H3|H3];
  rewrite ori_eq_zero in *; simpl; split; intros H; try discriminate; try reflexivity;
  try (apply vec3_eq; geo; lra);
  exfalso; injection H as E1 E2 E3; geo; (apply H1; lra) || (apply H2; lra) || (apply H3; lra).
Qed.

Lemma mis_alignment_true p q r : mis_alignment p q r = true <-> ~ collinear p q r.
Proof.
  rewrite <- mis_alignment_spec. destruct mis_alignment; split; congruence.
Qed.

Lemma collinear_eqs p q r : collinear p q r <->
  orient2 (vx p) (vy p) (vx q) (vy q) (vx r) (vy r) = 0 /\
  orient2 (vy p) (vz p) (vy q) (vz q) (vy r) (vz r) = 0 /\
  orient2 (vx p) (vz p) (vx q) (vz q) (vx r) (vz r) = 0.
Proof.
  unfold collinear; split.
  - intros H. injection H as E1 E2 E3. geo. repeat split; lra.
  - intros (H1 & H2 & H3). apply vec3_eq; geo; lra.
Qed.

Lemma strictly_between_spec a b p :
  strictly_between a b p = true <-> (a < p < b \/ b < p < a).
Proof.
  unfold strictly_between.
  destruct (Rltb_spec a b), (Rltb_spec a p), (Rltb_spec p b), (Rltb_spec b a),
    (Rltb_spec p a), (Rltb_spec b p); simpl; split; intros; try discriminate; auto; lra.
Qed.

Lemma div_between a b p : (a < p < b \/ b < p < a) -> 0 < (p - a) / (b - a) < 1.
Proof.
  intros [H|H].
  - assert (0 < / (b - a)) by (apply Rinv_0_lt_compat; lra).
    assert ((b - a) * / (b - a) = 1) by (field; lra).
    unfold Rdiv. split; [apply Rmult_lt_0_compat; lra|].
    assert ((b - p) * / (b - a) > 0) by (apply Rmult_lt_0_compat; lra). nra.
  - assert (0 < / (a - b)) by (apply Rinv_0_lt_compat; lra).
    assert ((a - b) * / (a - b) = 1) by (field; lra).
    replace ((p - a) / (b - a)) with ((a - p) * / (a - b)) by (field; lra).
    split; [apply Rmult_lt_0_compat; lra|].
    assert ((p - b) * / (a - b) > 0) by (apply Rmult_lt_0_compat; lra). nra.
Qed.

Lemma lerp_between a b t : 0 < t < 1 -> a <> b ->
  (a < a + t * (b - a) < b \/ b < a + t * (b - a) < a).
Proof.
  intros Ht Hab. destruct (Rtotal_order a b) as [H|[H|H]]; [left|contradiction|right]; nra.
Qed.

(** A collinear point is [a + t (b - a)] for the [t] read off any coordinate
    on which [a] and [b] differ. *)
Lemma collinear_param p a b :
  collinear p a b -> a <> b -> exists t, p = lerp a b t.
Proof.
  rewrite collinear_eqs. intros (H1 & H2 & H3) Hab.
  destruct (Req_dec (vx a) (vx b)) as [Ex|Ex].
  - destruct (Req_dec (vy a) (vy b)) as [Ey|Ey].
    + destruct (Req_dec (vz a) (vz b)) as [Ez|Ez].
      * exfalso. apply Hab, vec3_eq; auto.
      * exists ((vz p - vz a) / (vz b - vz a)).
        apply vec3_eq; geo; apply Rmult_eq_reg_r with (vz b - vz a); try lra; field_simplify; try lra.
    + exists ((vy p - vy a) / (vy b - vy a)).
      apply vec3_eq; geo; apply Rmult_eq_reg_r with (vy b - vy a); try lra; field_simplify; try lra.
  - exists ((vx p - vx a) / (vx b - vx a)).
      apply vec3_eq; geo; apply Rmult_eq_reg_r with (vx b - vx a); try lra; field_simplify; try lra.
Qed.

Lemma lerp_collinear a b t : collinear (lerp a b t) a b.
Proof. apply vec3_eq; geo; ring. Qed.

Theorem point_in_inner_segment_spec p v1 v2 :
  point_in_inner_segment p v1 v2 = true <-> in_open_segment p v1 v2.
Proof.
  unfold point_in_inner_segment. rewrite andb_true_iff, negb_true_iff, mis_alignment_spec.
  rewrite !orb_true_iff, !strictly_between_spec. unfold in_open_segment. split.
  - intros [Hc Hb].
    assert (Hne : v1 <> v2) by (intros ->; lra).
    split; [exact Hne|].
    destruct (collinear_param _ _ _ Hc Hne) as [t Ht]. exists t. split; [|exact Ht].
    subst p. geo.
    assert (forall a b, (a < a + t * (b - a) < b \/ b < a + t * (b - a) < a) -> 0 < t < 1).
    { intros a b H. pose proof (div_between _ _ _ H) as D.
      replace ((a + t * (b - a) - a) / (b - a)) with t in D by (field; lra). exact D. }
    destruct Hb as [[Hb|Hb]|Hb]; eauto.
  - intros (Hne & t & Ht & ->). split; [apply lerp_collinear|].
    geo.
    destruct (Req_dec (vx v1) (vx v2)) as [Ex|Ex]; [|left; left; apply lerp_between; auto].
    destruct (Req_dec (vy v1) (vy v2)) as [Ey|Ey]; [|left; right; apply lerp_between; auto].
    destruct (Req_dec (vz v1) (vz v2)) as [Ez|Ez]; [|right; apply lerp_between; auto].
    exfalso. apply Hne, vec3_eq; auto.
Qed.

Lemma same_point_spec p q : same_point p q = true <-> p = q.
Proof.
  unfold same_point. destruct (Reqb_spec (vx p) (vx q)), (Reqb_spec (vy p) (vy q)),
    (Reqb_spec (vz p) (vz q)); simpl; split; intros; try discriminate; auto;
    try (apply vec3_eq; auto); subst; tauto.
Qed.

Theorem point_in_segment_spec p v1 v2 :
  point_in_segment p v1 v2 = true <-> in_segment p v1 v2.
Proof.
  unfold point_in_segment. rewrite !orb_true_iff, !same_point_spec, point_in_inner_segment_spec.
  unfold in_segment, in_open_segment. split.
  - intros [[->| ->]|(Hne & t & Ht & ->)].
    + exists 0. split; [lra|]. apply vec3_eq; geo; ring.
    + exists 1. split; [lra|]. apply vec3_eq; geo; ring.
    + exists t. split; [lra|reflexivity].
  - intros (t & Ht & ->).
    destruct (Req_dec t 0) as [->|H0]; [left; left; apply vec3_eq; geo; ring|].
    destruct (Req_dec t 1) as [->|H1]; [left; right; apply vec3_eq; geo; ring|].
    destruct (vec3_eq_dec v1 v2) as [->|Hne].
    + left; left; apply vec3_eq; geo; ring.
    + right. split; auto. exists t. split; [lra|reflexivity].
Qed.

(** ** Triangles *)
Lemma ori_eqb_scale k x y : ori_of x = ori_of y -> y = k * x -> x <> 0 -> 0 < k.
Proof.
  intros H E Hx. subst y. destruct (ori_cases x) as [[H1 E1]|[[H1 E1]|[H1 E1]]]; try contradiction;
  rewrite E1 in H; symmetry in H; [rewrite ori_eq_neg in H|rewrite ori_eq_pos in H]; nra.
Qed.

Lemma same_sign_ratio x y : ori_of x = ori_of y -> y <> 0 -> 0 < x / y.
Proof.
  intros H Hy. destruct (ori_cases y) as [[H1 E1]|[[H1 E1]|[H1 E1]]]; try contradiction;
  rewrite E1 in H; [rewrite ori_eq_neg in H|rewrite ori_eq_pos in H].
  - assert (/ y < 0) by (apply Rinv_lt_0_compat; auto). unfold Rdiv. nra.
  - apply Rmult_lt_0_compat; auto. apply Rinv_0_lt_compat; auto.
Qed.

Lemma bary_sum x y z N : N <> 0 -> x + y + z = N -> x / N + y / N + z / N = 1.
Proof. intros H E. replace (x / N + y / N + z / N) with ((x + y + z) / N) by (field; auto).
  rewrite E. field; auto. Qed.
Lemma bary_coord x y z N a b c p :
  N <> 0 -> N * p = x * a + y * b + z * c -> p = x / N * a + (y / N * b + z / N * c).
Proof. intros H E. apply Rmult_eq_reg_l with N; auto. rewrite E. field; auto. Qed.

Lemma nondegenerate_cases v1 v2 v3 : ~ collinear v1 v2 v3 ->
  orient2 (vx v1) (vy v1) (vx v2) (vy v2) (vx v3) (vy v3) <> 0 \/
  orient2 (vy v1) (vz v1) (vy v2) (vz v2) (vy v3) (vz v3) <> 0 \/
  orient2 (vx v1) (vz v1) (vx v2) (vz v2) (vx v3) (vz v3) <> 0.
Proof.
  rewrite collinear_eqs. intros H.
  destruct (Req_dec (orient2 (vx v1) (vy v1) (vx v2) (vy v2) (vx v3) (vy v3)) 0); auto.
  destruct (Req_dec (orient2 (vy v1) (vz v1) (vy v2) (vz v2) (vy v3) (vz v3)) 0); auto.
  right; right; intros E. apply H; auto.
Qed.

Lemma point_in_inner_triangle_signs p v1 v2 v3 :
  point_in_inner_triangle p v1 v2 v3 = true <->
  (s_xy p v2 v3 = s_xy v1 v2 v3 /\ s_yz p v2 v3 = s_yz v1 v2 v3 /\ s_xz p v2 v3 = s_xz v1 v2 v3) /\
  (s_xy p v3 v1 = s_xy v1 v2 v3 /\ s_yz p v3 v1 = s_yz v1 v2 v3 /\ s_xz p v3 v1 = s_xz v1 v2 v3) /\
  (s_xy p v1 v2 = s_xy v1 v2 v3 /\ s_yz p v1 v2 = s_yz v1 v2 v3 /\ s_xz p v1 v2 = s_xz v1 v2 v3).
Proof.
  unfold point_in_inner_triangle. rewrite !andb_true_iff.
  assert (H : forall a b, ori_eqb a b = true <-> a = b)
    by (intros a b; destruct (ori_eqb_spec a b); split; congruence).
  rewrite !H. tauto.
Qed.

Theorem point_in_inner_triangle_spec p v1 v2 v3 :
  ~ collinear v1 v2 v3 -> orient3 v1 v2 v3 p = 0 ->
  (point_in_inner_triangle p v1 v2 v3 = true <-> in_open_triangle p v1 v2 v3).
Proof.
  intros Hn Hc. rewrite point_in_inner_triangle_signs. split.
  - intros ((A1 & A2 & A3) & (B1 & B2 & B3) & (C1 & C2 & C3)).
    unfold s_xy, s_yz, s_xz in *.
    destruct (nondegenerate_cases _ _ _ Hn) as [D|[D|D]].
    + pose proof (same_sign_ratio _ _ A1 D) as PA. pose proof (same_sign_ratio _ _ B1 D) as PB.
      pose proof (same_sign_ratio _ _ C1 D) as PC.
      set (N := orient2 (vx v1) (vy v1) (vx v2) (vy v2) (vx v3) (vy v3)) in *.
      do 3 eexists. split; [exact PA|]. split; [exact PB|]. split; [exact PC|].
      split.
      * apply bary_sum; auto. unfold N; geo; ring.
      * apply vec3_eq; cbn [bary vadd vscale vx vy vz]; apply bary_coord; auto; unfold N; geo; lra.
    + pose proof (same_sign_ratio _ _ A2 D) as PA. pose proof (same_sign_ratio _ _ B2 D) as PB.
      pose proof (same_sign_ratio _ _ C2 D) as PC.
      set (N := orient2 (vy v1) (vz v1) (vy v2) (vz v2) (vy v3) (vz v3)) in *.
      do 3 eexists. split; [exact PA|]. split; [exact PB|]. split; [exact PC|].
      split.
      * apply bary_sum; auto. unfold N; geo; ring.
      * apply vec3_eq; cbn [bary vadd vscale vx vy vz]; apply bary_coord; auto; unfold N; geo; lra.
    + pose proof (same_sign_ratio _ _ A3 D) as PA. pose proof (same_sign_ratio _ _ B3 D) as PB.
      pose proof (same_sign_ratio _ _ C3 D) as PC.
      set (N := orient2 (vx v1) (vz v1) (vx v2) (vz v2) (vx v3) (vz v3)) in *.
      do 3 eexists. split; [exact PA|]. split; [exact PB|]. split; [exact PC|].
      split.
      * apply bary_sum; auto. unfold N; geo; ring.
      * apply vec3_eq; cbn [bary vadd vscale vx vy vz]; apply bary_coord; auto; unfold N; geo; lra.
  - intros (a & b & c & Ha & Hb & Hc' & Hs & ->).
    assert (c = 1 - a - b) by lra. subst c.
    unfold s_xy, s_yz, s_xz.
    assert (S : forall k x y, 0 < k -> x = k * y -> ori_of x = ori_of y)
      by (intros; subst; apply ori_mul_pos; auto).
    repeat split;
    first [ apply (S a); [lra|geo; ring] | apply (S b); [lra|geo; ring] | apply (S (1-a-b)); [lra|geo; ring] ].
Qed.

(** Without coplanarity the answer says nothing: a point off the plane of a
    non-degenerate triangle is accepted. *)
Theorem point_in_inner_triangle_coplanarity_needed :
  exists p v1 v2 v3, ~ collinear v1 v2 v3 /\ orient3 v1 v2 v3 p <> 0 /\
    point_in_inner_triangle p v1 v2 v3 = true.
Proof.
  exists (V3 (1/4) (1/4) (1/4)), (V3 1 0 0), (V3 0 1 0), (V3 0 0 1).
  split; [|split].
  - rewrite collinear_eqs. geo. lra.
  - geo. lra.
  - rewrite point_in_inner_triangle_signs. unfold s_xy, s_yz, s_xz; geo.
    repeat split;
    match goal with |- ori_of ?a = ori_of ?b =>
      first [ rewrite (ori_pos a), (ori_pos b) by lra; reflexivity
            | rewrite (ori_neg a), (ori_neg b) by lra; reflexivity ] end.
Qed.

(** A degenerate (collinear) triangle accepts every point of its line, also
    those outside the segment it spans. *)
Theorem point_in_inner_triangle_degenerate p v1 v2 v3 :
  collinear v1 v2 v3 -> collinear p v1 v2 -> collinear p v2 v3 -> collinear p v3 v1 ->
  point_in_inner_triangle p v1 v2 v3 = true.
Proof.
  rewrite !collinear_eqs. intros (A1 & A2 & A3) (B1 & B2 & B3) (C1 & C2 & C3) (D1 & D2 & D3).
  rewrite point_in_inner_triangle_signs. unfold s_xy, s_yz, s_xz.
  rewrite A1, A2, A3, B1, B2, B3, C1, C2, C3, D1, D2, D3. repeat split.
Qed.

Theorem point_in_triangle_spec p v1 v2 v3 :
  ~ collinear v1 v2 v3 -> orient3 v1 v2 v3 p = 0 ->
  (point_in_triangle p v1 v2 v3 = true <-> in_triangle p v1 v2 v3).
Proof.
  intros Hn Hc. unfold point_in_triangle.
  rewrite !orb_true_iff, !point_in_segment_spec, (point_in_inner_triangle_spec _ _ _ _ Hn Hc).
  unfold in_segment, in_open_triangle, in_triangle. split.
  - intros [[[(t & Ht & ->)|(t & Ht & ->)]|(t & Ht & ->)]|(a & b & c & Ha & Hb & Hcc & Hs & ->)].
    + exists (1 - t), t, 0. repeat split; try lra. apply vec3_eq; geo; ring.
    + exists 0, (1 - t), t. repeat split; try lra. apply vec3_eq; geo; ring.
    + exists t, 0, (1 - t). repeat split; try lra. apply vec3_eq; geo; ring.
    + exists a, b, c. repeat split; lra || auto.
  - intros (a & b & c & Ha & Hb & Hcc & Hs & ->).
    destruct (Req_dec a 0) as [->|Na].
    { left; left; right. exists c. split; [lra|]. replace b with (1 - c) by lra. apply vec3_eq; geo; ring. }
    destruct (Req_dec b 0) as [->|Nb].
    { left; right. exists a. split; [lra|]. replace c with (1 - a) by lra. apply vec3_eq; geo; ring. }
    destruct (Req_dec c 0) as [->|Nc].
    { left; left; left. exists b. split; [lra|]. replace a with (1 - b) by lra. apply vec3_eq; geo; ring. }
    right. exists a, b, c. repeat split; auto; lra.
Qed.

(** ** Segment against triangle *)

(** The linear relation between five points of R^3. *)
Lemma five_points u1 u2 v1 v2 v3 :
  let A := orient3 u1 u2 v2 v3 in let B := orient3 u1 u2 v3 v1 in let C := orient3 u1 u2 v1 v2 in
  let o1 := orient3 u1 v1 v2 v3 in let o2 := orient3 u2 v1 v2 v3 in
  A + B + C = o1 - o2 /\
  vadd (vscale (- o2) u1) (vscale o1 u2) = vadd (vscale A v1) (vadd (vscale B v2) (vscale C v3)).
Proof.
  cbv zeta. split; [geo; ring|]. apply vec3_eq; geo; ring.
Qed.

Definition separated (u1 u2 v1 v2 v3 : vec3) : Prop :=
  orient3 u1 v1 v2 v3 * orient3 u2 v1 v2 v3 < 0.

Lemma separated_spec u1 u2 v1 v2 v3 :
  (let o1 := s3 u1 v1 v2 v3 in let o2 := s3 u2 v1 v2 v3 in
   o1 <> Zero /\ o2 <> Zero /\ o1 <> o2) <-> separated u1 u2 v1 v2 v3.
Proof.
  unfold separated, s3. cbv zeta.
  set (x := orient3 u1 v1 v2 v3). set (y := orient3 u2 v1 v2 v3).
  destruct (ori_cases x) as [[H1 E1]|[[H1 E1]|[H1 E1]]], (ori_cases y) as [[H2 E2]|[[H2 E2]|[H2 E2]]];
  rewrite E1, E2; split; intros; try (exfalso; intuition congruence); try (exfalso; nra);
  try nra; repeat split; congruence.
Qed.

Lemma box_reject_spec c u1 u2 v1 v2 v3 :
  box_reject c u1 u2 v1 v2 v3 = true <->
  ((c v1 <= c u1 /\ c v1 <= c u2 /\ c v2 <= c u1 /\ c v2 <= c u2 /\ c v3 <= c u1 /\ c v3 <= c u2) \/
   (c u1 <= c v1 /\ c u2 <= c v1 /\ c u1 <= c v2 /\ c u2 <= c v2 /\ c u1 <= c v3 /\ c u2 <= c v3)).
Proof.
  unfold box_reject. cbv zeta.
  assert (L : forall a b, Rleb a b = true <-> a <= b)
    by (intros a b; destruct (Rleb_spec a b); split; intros; auto; congruence || lra).
  rewrite orb_true_iff, !andb_true_iff, !L.
  unfold Rmin, Rmax. destruct (Rle_dec (c u1) (c u2)); split; intros [H|H]; (left; lra) || (right; lra).
Qed.

Lemma orient3_flat (f : vec3 -> R) u v1 v2 v3 :
  (f = vx \/ f = vy \/ f = vz) ->
  f u = f v1 -> f v1 = f v2 -> f v2 = f v3 -> orient3 u v1 v2 v3 = 0.
Proof.
  intros [->|[->| ->]] E1 E2 E3; geo; rewrite E1, E2, E3; ring.
Qed.

Lemma bary_coord_proj f v1 v2 v3 a b c :
  (f = vx \/ f = vy \/ f = vz) -> f (bary v1 v2 v3 a b c) = a * f v1 + b * f v2 + c * f v3.
Proof. intros [->|[->| ->]]; geo; ring. Qed.
Lemma lerp_coord_proj f u1 u2 t :
  (f = vx \/ f = vy \/ f = vz) -> f (lerp u1 u2 t) = (1 - t) * f u1 + t * f u2.
Proof. intros [->|[->| ->]]; geo; ring. Qed.

Lemma box_never_rejects f u1 u2 v1 v2 v3 :
  (f = vx \/ f = vy \/ f = vz) ->
  separated u1 u2 v1 v2 v3 ->
  forall t a b c, 0 < t < 1 -> 0 < a -> 0 < b -> 0 < c -> a + b + c = 1 ->
  lerp u1 u2 t = bary v1 v2 v3 a b c ->
  box_reject f u1 u2 v1 v2 v3 = false.
Proof.
  intros Hf Hsep t a b c Ht Ha Hb Hc Hs E.
  destruct (box_reject f u1 u2 v1 v2 v3) eqn:R; auto. exfalso.
  apply box_reject_spec in R.
  apply (f_equal f) in E. rewrite (bary_coord_proj f) in E by auto.
  rewrite (lerp_coord_proj f) in E by auto.
  assert (K : f u1 = f v1 /\ f v1 = f v2 /\ f v2 = f v3).
  { assert (c = 1 - a - b) by lra. subst c.
    destruct R as [R|R]; destruct R as (R1 & R2 & R3 & R4 & R5 & R6).
    - set (m := Rmin (f u1) (f u2)).
      assert (M1 : f v1 <= m) by (apply Rmin_glb; auto).
      assert (M2 : f v2 <= m) by (apply Rmin_glb; auto).
      assert (M3 : f v3 <= m) by (apply Rmin_glb; auto).
      assert (M4 : m <= f u1) by apply Rmin_l. assert (M5 : m <= f u2) by apply Rmin_r.
      assert (0 <= (1 - t) * (f u1 - m)) by (apply Rmult_le_pos; lra).
      assert (0 <= t * (f u2 - m)) by (apply Rmult_le_pos; lra).
      assert (0 <= a * (m - f v1)) by (apply Rmult_le_pos; lra).
      assert (0 <= b * (m - f v2)) by (apply Rmult_le_pos; lra).
      assert (0 <= (1-a-b) * (m - f v3)) by (apply Rmult_le_pos; lra).
      assert (Z1 : (1 - t) * (f u1 - m) = 0) by lra.
      assert (Z3 : a * (m - f v1) = 0) by lra. assert (Z4 : b * (m - f v2) = 0) by lra.
      assert (Z5 : (1-a-b) * (m - f v3) = 0) by lra.
      apply Rmult_integral in Z1, Z3, Z4, Z5. lra.
    - set (m := Rmax (f u1) (f u2)).
      assert (M1 : m <= f v1) by (apply Rmax_lub; auto).
      assert (M2 : m <= f v2) by (apply Rmax_lub; auto).
      assert (M3 : m <= f v3) by (apply Rmax_lub; auto).
      assert (M4 : f u1 <= m) by apply Rmax_l. assert (M5 : f u2 <= m) by apply Rmax_r.
      assert (0 <= (1 - t) * (m - f u1)) by (apply Rmult_le_pos; lra).
      assert (0 <= t * (m - f u2)) by (apply Rmult_le_pos; lra).
      assert (0 <= a * (f v1 - m)) by (apply Rmult_le_pos; lra).
      assert (0 <= b * (f v2 - m)) by (apply Rmult_le_pos; lra).
      assert (0 <= (1-a-b) * (f v3 - m)) by (apply Rmult_le_pos; lra).
      assert (Z1 : (1 - t) * (m - f u1) = 0) by lra.
      assert (Z3 : a * (f v1 - m) = 0) by lra. assert (Z4 : b * (f v2 - m) = 0) by lra.
      assert (Z5 : (1-a-b) * (f v3 - m) = 0) by lra.
      apply Rmult_integral in Z1, Z3, Z4, Z5. lra. }
  destruct K as (K1 & K2 & K3).
  pose proof (orient3_flat f u1 v1 v2 v3 Hf K1 K2 K3) as Z.
  unfold separated in Hsep. rewrite Z in Hsep. lra.
Qed.

(** The test accepts exactly the segments whose end points are strictly on
    different sides of the triangle's plane and whose interior meets the
    interior of the triangle. *)
Theorem inner_segment_cross_inner_triangle_spec u1 u2 v1 v2 v3 :
  inner_segment_cross_inner_triangle u1 u2 v1 v2 v3 = true <->
  separated u1 u2 v1 v2 v3 /\
  exists x, in_open_segment x u1 u2 /\ in_open_triangle x v1 v2 v3.
Proof.
  destruct (five_points u1 u2 v1 v2 v3) as [Hsum Hrel]. cbv zeta in Hsum, Hrel.
  assert (Main : (separated u1 u2 v1 v2 v3 /\
     let o12 := s3 u1 u2 v1 v2 in let o23 := s3 u1 u2 v2 v3 in let o31 := s3 u1 u2 v3 v1 in
     o12 <> Zero /\ o12 = o23 /\ o31 = o23) <->
     (separated u1 u2 v1 v2 v3 /\ exists t a b c, 0 < t < 1 /\ 0 < a /\ 0 < b /\ 0 < c /\ a + b + c = 1 /\
       lerp u1 u2 t = bary v1 v2 v3 a b c)).
  { cbv zeta. unfold s3.
    set (A := orient3 u1 u2 v2 v3) in *. set (B := orient3 u1 u2 v3 v1) in *.
    set (C := orient3 u1 u2 v1 v2) in *. set (o1 := orient3 u1 v1 v2 v3) in *.
    set (o2 := orient3 u2 v1 v2 v3) in *.
    split.
    - intros (Hsep & Hn & E1 & E2). split; [exact Hsep|].
      assert (Ho : o1 - o2 <> 0) by (unfold separated in Hsep; fold o1 o2 in Hsep; nra).
      set (S := A + B + C) in *.
      assert (HS : S <> 0) by (rewrite Hsum; auto).
      assert (HA : 0 < A / S /\ 0 < B / S /\ 0 < C / S).
      { rewrite ori_eq_zero in Hn.
        destruct (ori_cases C) as [[H3 F3]|[[H3 F3]|[H3 F3]]]; [|contradiction|];
        rewrite F3 in E1; symmetry in E1; rewrite E1 in E2;
        (rewrite ori_eq_neg in E1, E2 || rewrite ori_eq_pos in E1, E2); unfold S.
        - assert (I : / (A + B + C) < 0) by (apply Rinv_lt_0_compat; lra). unfold Rdiv. repeat split; nra.
        - assert (I : 0 < / (A + B + C)) by (apply Rinv_0_lt_compat; lra).
          repeat split; apply Rmult_lt_0_compat; auto. }
      exists (o1 / S), (A / S), (B / S), (C / S).
      destruct HA as (HA & HB & HC).
      split; [|split; [exact HA|split; [exact HB|split; [exact HC|split]]]].
      + unfold separated in Hsep; fold o1 o2 in Hsep.
        assert (Hb : 0 < o1 / (o1 - o2) < 1).
        { destruct (Rlt_dec o1 0).
          - assert (0 < o2) by nra.
            assert (/ (o1 - o2) < 0) by (apply Rinv_lt_0_compat; lra).
            assert ((o1 - o2) * / (o1 - o2) = 1) by (field; lra). unfold Rdiv. nra.
          - assert (0 < o1) by (destruct (Req_dec o1 0) as [Z|]; [rewrite Z in Hsep; lra|lra]).
            assert (o2 < 0) by nra.
            assert (0 < / (o1 - o2)) by (apply Rinv_0_lt_compat; lra).
            assert ((o1 - o2) * / (o1 - o2) = 1) by (field; lra). unfold Rdiv. nra. }
        rewrite Hsum. exact Hb.
      + unfold S. field. exact HS.
      + assert (E : lerp u1 u2 (o1 / S) = vscale (/ S) (vadd (vscale (- o2) u1) (vscale o1 u2))).
        { replace o2 with (o1 - S) by lra. apply vec3_eq; geo; field; auto. }
        rewrite E, Hrel. apply vec3_eq; geo; field; auto.
    - intros (Hsep & t & a & b & c & Ht & Ha & Hb & Hc & Hs & E). split; [exact Hsep|].
      assert (c = 1 - a - b) by lra. subst c.
      (* A = a * S etc. *)
      assert (EA : A = a * (o1 - o2) /\ B = b * (o1 - o2) /\ C = (1 - a - b) * (o1 - o2)).
      { assert (K : forall p, orient3 u1 u2 (lerp u1 u2 t) p = 0) by (intros; geo; ring).
        (* replacing v1 by the crossing point inside the bilinear form *)
        assert (K3 : orient3 u1 u2 (bary v1 v2 v3 a b (1 - a - b)) v3 = - a * B + b * A).
        { unfold A, B. geo. ring. }
        assert (K2 : orient3 u1 u2 (bary v1 v2 v3 a b (1 - a - b)) v2 = a * C - (1 - a - b) * A).
        { unfold A, C. geo. ring. }
        assert (K1 : orient3 u1 u2 (bary v1 v2 v3 a b (1 - a - b)) v1 = - b * C + (1 - a - b) * B).
        { unfold B, C. geo. ring. }
        rewrite <- E in K1, K2, K3.
        rewrite K in K1, K2, K3.
        rewrite <- Hsum. repeat split; lra. }
      destruct EA as (EA & EB & EC).
      assert (Ho : o1 - o2 <> 0) by (unfold separated in Hsep; fold o1 o2 in Hsep; nra).
      assert (Sg : forall k, 0 < k -> ori_of (k * (o1 - o2)) = ori_of (o1 - o2))
        by (intros; apply ori_mul_pos; auto).
      rewrite EA, EB, EC, !Sg by lra. rewrite ori_eq_zero. auto. }
  assert (Left : inner_segment_cross_inner_triangle u1 u2 v1 v2 v3 = true <->
     (box_reject vx u1 u2 v1 v2 v3 = false /\ box_reject vy u1 u2 v1 v2 v3 = false /\
      box_reject vz u1 u2 v1 v2 v3 = false) /\
     (separated u1 u2 v1 v2 v3 /\
     let o12 := s3 u1 u2 v1 v2 in let o23 := s3 u1 u2 v2 v3 in let o31 := s3 u1 u2 v3 v1 in
     o12 <> Zero /\ o12 = o23 /\ o31 = o23)).
  { rewrite <- separated_spec. unfold inner_segment_cross_inner_triangle. cbv zeta.
    destruct (box_reject vx u1 u2 v1 v2 v3), (box_reject vy u1 u2 v1 v2 v3), (box_reject vz u1 u2 v1 v2 v3);
      simpl; try (split; [discriminate|intros [[? [? ?]] ?]; discriminate]).
    destruct (ori_eqb_spec (s3 u1 v1 v2 v3) Zero); simpl; [split; [discriminate|tauto]|].
    destruct (ori_eqb_spec (s3 u2 v1 v2 v3) Zero); simpl; [split; [discriminate|tauto]|].
    destruct (ori_eqb_spec (s3 u1 v1 v2 v3) (s3 u2 v1 v2 v3)); simpl; [split; [discriminate|tauto]|].
    destruct (ori_eqb_spec (s3 u1 u2 v1 v2) Zero); simpl; [split; [discriminate|tauto]|].
    destruct (ori_eqb_spec (s3 u1 u2 v2 v3) Zero); simpl; [split; [discriminate|intuition congruence]|].
    destruct (ori_eqb_spec (s3 u1 u2 v1 v2) (s3 u1 u2 v2 v3)); simpl; [|split; [discriminate|intuition congruence]].
    destruct (ori_eqb_spec (s3 u1 u2 v3 v1) Zero); simpl; [split; [discriminate|intuition congruence]|].
    destruct (ori_eqb_spec (s3 u1 u2 v3 v1) (s3 u1 u2 v2 v3)); simpl; [|split; [discriminate|intuition congruence]].
    intuition. }
  rewrite Left, Main. split.
  - intros (_ & Hsep & t & a & b & c & Ht & Ha & Hb & Hc & Hs & E).
    split; [exact Hsep|]. exists (lerp u1 u2 t). split.
    + split.
      * intros ->. unfold separated in Hsep. nra.
      * exists t; auto.
    + exists a, b, c; auto.
  - intros (Hsep & x & (Hne & t & Ht & ->) & (a & b & c & Ha & Hb & Hc & Hs & E)).
    split.
    + repeat split; apply (box_never_rejects _ u1 u2 v1 v2 v3) with (t := t) (a := a) (b := b) (c := c); auto.
    + split; [exact Hsep|]. exists t, a, b, c; auto 10.
Qed.

(** ** Segment against segment *)
Definition wv (p a b : vec3) : vec3 := cross (vsub a p) (vsub b p).

Lemma same_half_plane_spec p q a b :
  same_half_plane p q a b = true <->
  ori_of (vx (wv p a b)) = ori_of (vx (wv q a b)) /\
  ori_of (vy (wv p a b)) = ori_of (vy (wv q a b)) /\
  ori_of (vz (wv p a b)) = ori_of (vz (wv q a b)).
Proof.
  assert (Hxy : forall p, s_xy p a b = ori_of (vz (wv p a b)))
    by (intros; unfold s_xy; f_equal; unfold wv; geo; ring).
  assert (Hyz : forall p, s_yz p a b = ori_of (vx (wv p a b)))
    by (intros; unfold s_yz; f_equal; unfold wv; geo; ring).
  assert (Hxz : forall p, s_xz p a b = sign_reverse (ori_of (vy (wv p a b))))
    by (intros; rewrite <- ori_opp; unfold s_xz; f_equal; unfold wv; geo; ring).
  unfold same_half_plane. rewrite !Hxy, !Hyz, !Hxz. clear Hxy Hyz Hxz.
  generalize (wv p a b) (wv q a b). intros wp wq.
  destruct (ori_eqb_spec (ori_of (vz wp)) (ori_of (vz wq))); simpl;
    [|split; [discriminate|tauto]].
  destruct (ori_eqb_spec (ori_of (vx wp)) (ori_of (vx wq))); simpl;
    [|split; [discriminate|tauto]].
  destruct (ori_of (vy wp)), (ori_of (vy wq)); simpl; split; intros HH; try discriminate; auto;
  destruct HH as (? & HH & ?); discriminate.
Qed.

Lemma wv_parallel p q a b :
  orient3 p q a b = 0 -> cross (wv p a b) (wv q a b) = vzero.
Proof.
  intros H.
  assert (E : cross (wv p a b) (wv q a b) = vscale (orient3 p q a b) (vsub a b))
    by (apply vec3_eq; unfold wv; geo; ring).
  rewrite E, H. apply vec3_eq; geo; ring.
Qed.

Lemma parallel_ratio u v : cross u v = vzero -> u <> vzero -> exists k, v = vscale k u.
Proof.
  intros H Hu. injection H as E1 E2 E3.
  destruct (Req_dec (vx u) 0) as [Zx|Nx]; [destruct (Req_dec (vy u) 0) as [Zy|Ny];
    [destruct (Req_dec (vz u) 0) as [Zz|Nz]|]|].
  - exfalso. apply Hu, vec3_eq; auto.
  - exists (vz v / vz u). apply vec3_eq; geo; apply Rmult_eq_reg_r with (vz u); auto;
    field_simplify; auto; try lra.
  - exists (vy v / vy u). apply vec3_eq; geo; apply Rmult_eq_reg_r with (vy u); auto;
    field_simplify; auto; try lra.
  - exists (vx v / vx u). apply vec3_eq; geo; apply Rmult_eq_reg_r with (vx u); auto;
    field_simplify; auto; try lra.
Qed.

(** Opposite sides: coplanar, neither end on the line of [a b], not in the
    same half plane; then the segment [p q] meets the line of [a b]. *)
Lemma opposite_ratio p q a b :
  orient3 p q a b = 0 -> ~ collinear p a b -> ~ collinear q a b ->
  same_half_plane p q a b = false ->
  exists k, 0 < k /\ wv q a b = vscale (- k) (wv p a b).
Proof.
  intros Hc Hp Hq Hs.
  destruct (parallel_ratio (wv p a b) (wv q a b)) as [k Hk]; [now apply wv_parallel|exact Hp|].
  exists (- k). replace (- - k) with k by ring. split; [|exact Hk].
  destruct (Rlt_dec k 0); [lra|]. exfalso.
  destruct (Req_dec k 0) as [->|Nk].
  - apply Hq. unfold collinear. fold (wv q a b). rewrite Hk. apply vec3_eq; geo; ring.
  - assert (0 < k) by lra.
    assert (same_half_plane p q a b = true); [|congruence].
    apply same_half_plane_spec. rewrite Hk. unfold vscale; cbn [vx vy vz].
    rewrite !ori_mul_pos by lra. auto.
Qed.

Lemma cross_point p q a b k :
  0 < k -> wv q a b = vscale (- k) (wv p a b) ->
  collinear (lerp p q (/ (1 + k))) a b.
Proof.
  intros Hk E.
  assert (L : wv (lerp p q (/ (1 + k))) a b
              = vscale (/ (1 + k)) (vadd (vscale k (wv p a b)) (wv q a b))).
  { apply vec3_eq; unfold wv; geo; field; lra. }
  unfold collinear. fold (wv (lerp p q (/ (1 + k))) a b). rewrite L, E.
  apply vec3_eq; geo; ring.
Qed.

Lemma inv_open k : 0 < k -> 0 < / (1 + k) < 1.
Proof.
  intros. assert (0 < / (1 + k)) by (apply Rinv_0_lt_compat; lra).
  assert ((1 + k) * / (1 + k) = 1) by (field; lra). nra.
Qed.

Definition parallel (u1 u2 v1 v2 : vec3) : Prop := cross (vsub u2 u1) (vsub v2 v1) = vzero.

Lemma not_parallel p a b q : ~ collinear p a b -> a <> b -> forall t, 0 < t < 1 ->
  collinear (lerp p q t) a b -> ~ parallel p q a b.
Proof.
  intros Hp Hab t Ht Hc Hpar.
  destruct (collinear_param _ _ _ Hc Hab) as [s Hs].
  apply Hp. unfold parallel in Hpar. unfold collinear.
  (* p = lerp a b s - t (q - p) *)
  assert (E : vsub a p = vadd (vscale (- s) (vsub b a)) (vscale t (vsub q p))).
  { injection Hs as X Y Z. geo. apply vec3_eq; cbn [vx vy vz]; lra. }
  assert (E2 : vsub b p = vadd (vsub a p) (vsub b a)) by (apply vec3_eq; geo; ring).
  rewrite E2, E.
  set (w := vsub b a) in *. set (d := vsub q p) in *. clearbody w d.
  injection Hpar as X Y Z. apply vec3_eq; geo; nra.
Qed.

Lemma vsub_scale0 x y d : vsub x y = vscale 0 d -> x = y.
Proof. intros H. injection H as X Y Z. apply vec3_eq; lra. Qed.
Lemma vscale_div a b u v : vscale a u = vscale b v -> a <> 0 -> u = vscale (b / a) v.
Proof.
  intros H Ha. injection H as X Y Z. apply vec3_eq; geo; apply Rmult_eq_reg_l with a; auto.
  - rewrite X. field; auto.
  - rewrite Y. field; auto.
  - rewrite Z. field; auto.
Qed.

Theorem inner_segments_cross_spec u1 u2 v1 v2 :
  inner_segments_cross u1 u2 v1 v2 = true <->
  ~ parallel u1 u2 v1 v2 /\ exists x, in_open_segment x u1 u2 /\ in_open_segment x v1 v2.
Proof.
  assert (Left : inner_segments_cross u1 u2 v1 v2 = true <->
    orient3 u1 u2 v1 v2 = 0 /\ same_half_plane u1 u2 v1 v2 = false /\
    same_half_plane v1 v2 u1 u2 = false /\ ~ collinear u1 v1 v2 /\ ~ collinear u2 v1 v2 /\
    ~ collinear v1 u1 u2 /\ ~ collinear v2 u1 u2).
  { unfold inner_segments_cross. rewrite <- !mis_alignment_true.
    unfold s3 at 1.
    destruct (ori_eqb_spec (ori_of (orient3 u1 u2 v1 v2)) Zero) as [Z|Z]; rewrite ori_eq_zero in Z; simpl;
      [|split; [discriminate|tauto]].
    destruct (same_half_plane u1 u2 v1 v2); simpl; [split; [discriminate|intuition discriminate]|].
    destruct (same_half_plane v1 v2 u1 u2); simpl; [split; [discriminate|intuition discriminate]|].
    destruct (mis_alignment u1 v1 v2); simpl; [|split; [discriminate|intuition discriminate]].
    destruct (mis_alignment u2 v1 v2); simpl; [|split; [discriminate|intuition discriminate]].
    destruct (mis_alignment v1 u1 u2) eqn:M; simpl; [|split; [discriminate|intuition discriminate]].
    destruct (mis_alignment v2 u1 u2); simpl; [|split; [discriminate|intuition discriminate]].
    split; [tauto|]. intros _.
    destruct (ori_eqb_spec (s_xy u1 u2 v1) Zero) as [X|X]; simpl; auto.
    destruct (ori_eqb_spec (s_xy v1 v2 u2) Zero) as [X'|X']; simpl; auto.
    destruct (ori_eqb_spec (s_yz u1 u2 v1) Zero) as [Y|Y]; simpl; auto.
    destruct (ori_eqb_spec (s_yz v1 v2 u2) Zero) as [Y'|Y']; simpl; auto.
    destruct (ori_eqb_spec (s_xz u1 u2 v1) Zero) as [W|W]; simpl; auto.
    exfalso. apply mis_alignment_true in M. apply M.
    unfold s_xy, s_yz, s_xz in *. rewrite ori_eq_zero in *.
    apply collinear_eqs. geo. lra. }
  rewrite Left. split.
  - intros (Hc & S1 & S2 & A1 & A2 & A3 & A4).
    assert (Hv : v1 <> v2) by (intros ->; apply A1; apply vec3_eq; geo; ring).
    assert (Hu : u1 <> u2) by (intros ->; apply A3; apply vec3_eq; geo; ring).
    destruct (opposite_ratio u1 u2 v1 v2) as (k & Hk & Ek); auto.
    assert (Hc' : orient3 v1 v2 u1 u2 = 0) by (rewrite <- Hc; geo; ring).
    destruct (opposite_ratio v1 v2 u1 u2) as (l & Hl & El); auto.
    pose proof (cross_point _ _ _ _ _ Hk Ek) as C1. pose proof (cross_point _ _ _ _ _ Hl El) as C2.
    pose proof (inv_open _ Hk) as I1. pose proof (inv_open _ Hl) as I2.
    pose proof (not_parallel u1 v1 v2 u2 A1 Hv _ I1 C1) as NP.
    split; [exact NP|].
    set (x := lerp u1 u2 (/ (1 + k))) in *. set (y := lerp v1 v2 (/ (1 + l))) in *.
    destruct (collinear_param _ _ _ C1 Hv) as [s Hs].
    destruct (collinear_param _ _ _ C2 Hu) as [r Hr].
    (* x = y because both lie on both lines *)
    assert (E : x = y).
    { assert (P1 : vsub x y = vscale (s - / (1 + l)) (vsub v2 v1))
        by (rewrite Hs; unfold y; apply vec3_eq; geo; ring).
      assert (P2 : vsub x y = vscale (/ (1 + k) - r) (vsub u2 u1))
        by (rewrite Hr; unfold x; apply vec3_eq; geo; ring).
      destruct (Req_dec (s - / (1 + l)) 0) as [Z|NZ].
      - rewrite Z in P1. exact (vsub_scale0 _ _ _ P1).
      - exfalso. apply NP. unfold parallel.
        assert (P3 : vsub v2 v1 = vscale ((/ (1 + k) - r) / (s - / (1 + l))) (vsub u2 u1)).
        { rewrite P1 in P2. apply vscale_div; auto. }
        rewrite P3. apply vec3_eq; geo; ring. }
    exists x. split.
    + split; auto. exists (/ (1 + k)). split; auto.
    + split; auto. exists (/ (1 + l)). split; auto.
  - intros (NP & x & (Hu & t & Ht & ->) & (Hv & s & Hs & E)).
    (* each area vector is a non-zero multiple of d x e *)
    set (n := cross (vsub u2 u1) (vsub v2 v1)).
    assert (Hn : n <> vzero) by exact NP.
    assert (V1 : v1 = vadd u1 (vadd (vscale t (vsub u2 u1)) (vscale (- s) (vsub v2 v1)))).
    { injection E as X Y Z. apply vec3_eq; geo; lra. }
    assert (V2 : v2 = vadd u1 (vadd (vscale t (vsub u2 u1)) (vscale (1 - s) (vsub v2 v1)))).
    { injection E as X Y Z. apply vec3_eq; geo; lra. }
    assert (U2 : u2 = vadd u1 (vsub u2 u1)) by (apply vec3_eq; geo; ring).
    assert (FF : wv u1 v1 v2 = vscale t n /\ wv u2 v1 v2 = vscale (t - 1) n /\
                 wv v1 u1 u2 = vscale (- s) n /\ wv v2 u1 u2 = vscale (1 - s) n /\
                 orient3 u1 u2 v1 v2 = 0).
    { unfold n. set (d := vsub u2 u1) in *. set (e := vsub v2 v1) in *. clearbody d e.
      rewrite V1, V2, U2. unfold wv.
      repeat split; try (apply vec3_eq; geo; ring). geo; ring. }
    destruct FF as (F1 & F2 & F3 & F4 & F5). clearbody n.
    assert (NZ : forall k, k <> 0 -> vscale k n <> vzero).
    { intros k Hk Z. apply Hn. injection Z as X Y Q. apply vec3_eq; cbn [vzero vx vy vz];
      apply Rmult_eq_reg_l with k; auto; lra. }
    assert (Opp : forall k l, 0 < k -> l < 0 ->
      ~ (ori_of (vx (vscale k n)) = ori_of (vx (vscale l n)) /\
         ori_of (vy (vscale k n)) = ori_of (vy (vscale l n)) /\
         ori_of (vz (vscale k n)) = ori_of (vz (vscale l n)))).
    { intros k l Hk Hl (O1 & O2 & O3). cbn [vscale vx vy vz] in *.
      assert (Hl' : forall z, ori_of (l * z) = sign_reverse (ori_of z)).
      { intros. replace (l * z) with (- (- l * z)) by ring. rewrite ori_opp, ori_mul_pos by lra. auto. }
      rewrite Hl', ori_mul_pos in O1, O2, O3 by auto.
      apply Hn, vec3_eq; cbn [vzero vx vy vz]; apply ori_eq_zero.
      - pose proof (ori_defined (vx n)). destruct (ori_of (vx n)); simpl in *; congruence.
      - pose proof (ori_defined (vy n)). destruct (ori_of (vy n)); simpl in *; congruence.
      - pose proof (ori_defined (vz n)). destruct (ori_of (vz n)); simpl in *; congruence. }
    split; [|split; [|split; [|split; [|split; [|split]]]]].
    + exact F5.
    + destruct (same_half_plane u1 u2 v1 v2) eqn:Q; auto. exfalso.
      apply same_half_plane_spec in Q. rewrite F1, F2 in Q. revert Q. apply Opp; lra.
    + destruct (same_half_plane v1 v2 u1 u2) eqn:Q; auto. exfalso.
      apply same_half_plane_spec in Q. rewrite F3, F4 in Q.
      destruct Q as (Q1 & Q2 & Q3). symmetry in Q1, Q2, Q3.
      apply (Opp (1 - s) (- s)); try lra. auto.
    + unfold collinear. fold (wv u1 v1 v2). rewrite F1. apply NZ; lra.
    + unfold collinear. fold (wv u2 v1 v2). rewrite F2. apply NZ; lra.
    + unfold collinear. fold (wv v1 u1 u2). rewrite F3. apply NZ; lra.
    + unfold collinear. fold (wv v2 u1 u2). rewrite F4. apply NZ; lra.
Qed.

(** The combined test: acceptance always means a common point, and for a
    segment that is not contained in the triangle's plane it is equivalent to
    the existence of one. *)
Theorem inner_segment_cross_triangle_sound u1 u2 v1 v2 v3 :
  inner_segment_cross_triangle u1 u2 v1 v2 v3 = true ->
  exists x, in_open_segment x u1 u2 /\ in_triangle x v1 v2 v3.
Proof.
  unfold inner_segment_cross_triangle.
  rewrite !orb_true_iff, !point_in_inner_segment_spec, !inner_segments_cross_spec,
    inner_segment_cross_inner_triangle_spec.
  intros [[[[[[H|H]|H]|(_ & x & (_ & t & Ht & ->) & H2)]|(_ & x & (_ & t & Ht & ->) & H2)]|(_ & x & (_ & t & Ht & ->) & H2)]
         |(_ & x & H1 & (a & b & c & Ha & Hb & Hc & Hs & ->))].
  - exists v1. split; auto. exists 1, 0, 0. repeat split; try lra. apply vec3_eq; geo; ring.
  - exists v2. split; auto. exists 0, 1, 0. repeat split; try lra. apply vec3_eq; geo; ring.
  - exists v3. split; auto. exists 0, 0, 1. repeat split; try lra. apply vec3_eq; geo; ring.
  - eexists. split; [exact H2|]. exists 0, (1 - t), t. repeat split; try lra. apply vec3_eq; geo; ring.
  - eexists. split; [exact H2|]. exists t, 0, (1 - t). repeat split; try lra. apply vec3_eq; geo; ring.
  - eexists. split; [exact H2|]. exists (1 - t), t, 0. repeat split; try lra. apply vec3_eq; geo; ring.
  - eexists. split; [exact H1|]. exists a, b, c. repeat split; try lra.
Qed.

Lemma orient3_bary u1 u2 t v1 v2 v3 a b c :
  a + b + c = 1 -> lerp u1 u2 t = bary v1 v2 v3 a b c ->
  (1 - t) * orient3 u1 v1 v2 v3 + t * orient3 u2 v1 v2 v3 = 0.
Proof.
  intros Hs E.
  assert (L : orient3 (lerp u1 u2 t) v1 v2 v3
              = (1 - t) * orient3 u1 v1 v2 v3 + t * orient3 u2 v1 v2 v3) by (geo; ring).
  rewrite <- L, E. replace c with (1 - a - b) by lra. geo; ring.
Qed.

Lemma opposite_sides t x y : 0 < t < 1 -> (1 - t) * x + t * y = 0 -> x <> 0 \/ y <> 0 -> x * y < 0.
Proof.
  intros Ht E N.
  assert (Ny : y <> 0).
  { intros ->. destruct N as [N|N]; [|lra]. apply N.
    apply Rmult_eq_reg_l with (1 - t); lra. }
  assert (P : 0 < y * y) by nra.
  assert (Q : (1 - t) * (x * y) = - (t * (y * y))) by nra.
  assert (0 < t * (y * y)) by (apply Rmult_lt_0_compat; lra).
  apply Rmult_lt_reg_l with (1 - t); lra.
Qed.

(** A segment parallel to an edge of the triangle that meets the edge's line
    lies in the triangle's plane. *)
Lemma parallel_in_plane u1 u2 a b c t s :
  a <> b -> parallel u1 u2 a b -> lerp u1 u2 t = lerp a b s ->
  orient3 u1 a b c = 0 /\ orient3 u2 a b c = 0.
Proof.
  intros Hab Hp E.
  destruct (parallel_ratio (vsub b a) (vsub u2 u1)) as [k Hk].
  - unfold parallel in Hp. injection Hp as X Y Z. apply vec3_eq; geo; lra.
  - intros Z. apply Hab. injection Z as X Y Z'. apply vec3_eq; lra.
  - assert (U1 : u1 = lerp a b (s - t * k)).
    { injection E as X Y Z. injection Hk as X' Y' Z'. rewrite X' in X. rewrite Y' in Y. rewrite Z' in Z.
      apply vec3_eq; geo; lra. }
    assert (U2 : u2 = lerp a b (s - t * k + k)).
    { assert (u2 = vadd u1 (vsub u2 u1)) as -> by (apply vec3_eq; geo; ring).
      rewrite Hk, U1. apply vec3_eq; geo; ring. }
    rewrite U1, U2. split; geo; ring.
Qed.

Theorem inner_segment_cross_triangle_spec u1 u2 v1 v2 v3 :
  ~ collinear v1 v2 v3 ->
  (orient3 u1 v1 v2 v3 <> 0 \/ orient3 u2 v1 v2 v3 <> 0) ->
  (inner_segment_cross_triangle u1 u2 v1 v2 v3 = true <->
   exists x, in_open_segment x u1 u2 /\ in_triangle x v1 v2 v3).
Proof.
  intros Hn Hout. split; [apply inner_segment_cross_triangle_sound|].
  intros (x & Hx & (a & b & c & Ha & Hb & Hc & Hs & E)).
  assert (N12 : v1 <> v2) by (intros ->; apply Hn; apply vec3_eq; geo; ring).
  assert (N23 : v2 <> v3) by (intros ->; apply Hn; apply vec3_eq; geo; ring).
  assert (N31 : v3 <> v1) by (intros ->; apply Hn; apply vec3_eq; geo; ring).
  unfold inner_segment_cross_triangle.
  rewrite !orb_true_iff, !point_in_inner_segment_spec, !inner_segments_cross_spec,
    inner_segment_cross_inner_triangle_spec.
  pose proof Hx as (Hu & t & Ht & Et).
  assert (Par : forall p q r s, p <> q -> x = lerp p q s ->
     (orient3 u1 p q r = 0 /\ orient3 u2 p q r = 0 -> orient3 u1 v1 v2 v3 = 0 /\ orient3 u2 v1 v2 v3 = 0) ->
     ~ parallel p q u1 u2).
  { intros p q r s Hpq Es Himp Hpar.
    assert (Hpar' : parallel u1 u2 p q).
    { unfold parallel in *. injection Hpar as X Y Z. apply vec3_eq; geo; lra. }
    destruct (parallel_in_plane u1 u2 p q r t s Hpq Hpar') as [Z1 Z2]; [congruence|].
    destruct (Himp (conj Z1 Z2)). tauto. }
  destruct (Req_dec a 0) as [Za|Na].
  - destruct (Req_dec b 0) as [Zb|Nb].
    { left; left; left; left; right. replace v3 with x; auto. rewrite E, Za, Zb.
      replace c with 1 by lra. apply vec3_eq; geo; ring. }
    destruct (Req_dec c 0) as [Zc|Nc].
    { left; left; left; left; left; right. replace v2 with x; auto. rewrite E, Za, Zc.
      replace b with 1 by lra. apply vec3_eq; geo; ring. }
    left; left; left; right.
    assert (Es : x = lerp v2 v3 c).
    { rewrite E, Za. replace b with (1 - c) by lra. apply vec3_eq; geo; ring. }
    split.
    + apply (Par v2 v3 v1 c); auto.
      intros [Z1 Z2]. split; [rewrite <- Z1|rewrite <- Z2]; geo; ring.
    + exists x. split; auto. split; auto. exists c. split; [lra|auto].
  - destruct (Req_dec b 0) as [Zb|Nb].
    { destruct (Req_dec c 0) as [Zc|Nc].
      { left; left; left; left; left; left. replace v1 with x; auto. rewrite E, Zb, Zc.
        replace a with 1 by lra. apply vec3_eq; geo; ring. }
      left; left; right.
      assert (Es : x = lerp v3 v1 a).
      { rewrite E, Zb. replace c with (1 - a) by lra. apply vec3_eq; geo; ring. }
      split.
      + apply (Par v3 v1 v2 a); auto.
        intros [Z1 Z2]. split; [rewrite <- Z1|rewrite <- Z2]; geo; ring.
      + exists x. split; auto. split; auto. exists a. split; [lra|auto]. }
    destruct (Req_dec c 0) as [Zc|Nc].
    { left; right.
      assert (Es : x = lerp v1 v2 b).
      { rewrite E, Zc. replace a with (1 - b) by lra. apply vec3_eq; geo; ring. }
      split.
      + apply (Par v1 v2 v3 b); auto.
      + exists x. split; auto. split; auto. exists b. split; [lra|auto]. }
    right. split.
    + assert (Q := orient3_bary u1 u2 t v1 v2 v3 a b c Hs).
      rewrite <- Et, <- E in Q. specialize (Q eq_refl). unfold separated. now apply (opposite_sides t).
    + exists x. split; auto. exists a, b, c. repeat split; auto; lra.
Qed.

(** ** Mixed explicit/implicit points: [point_in_segment_general] *)
Section General.
Context {E L T : Type}.
Context (semE : E -> vec3) (semL : L -> vec3) (semT : T -> vec3).
Context (okE : E -> Prop) (okL : L -> Prop) (okT : T -> Prop).
Context (k : nat -> kernels1 E L T).
Hypothesis Hk : forall a, sound_kernels1 semE semL semT okE okL okT a (k a).
Notation sem := (sem semE semL semT).
Notation ok := (ok okE okL okT).

Lemma seg_block_true x y r :
  seg_block (Some (ori_of x)) (Some (ori_of y)) r = Some true <->
  (x <> 0 \/ y <> 0) /\ 0 <= x * y \/ (x = 0 /\ y = 0 /\ r = Some true).
Proof.
  destruct (ori_cases x) as [[Hx Ex]|[[Hx Ex]|[Hx Ex]]], (ori_cases y) as [[Hy Ey]|[[Hy Ey]|[Hy Ey]]];
  rewrite Ex, Ey; simpl; split; intros HH; try discriminate; try reflexivity; auto;
  try (left; split; [lra|nra]); try (right; auto; fail);
  try (exfalso; destruct HH as [[? ?]|(? & ? & ?)]; nra);
  destruct HH as [[? ?]|(? & ? & ?)]; auto; lra.
Qed.

Lemma seg_last_true x y :
  seg_last (Some (ori_of x)) (Some (ori_of y)) = Some true <-> 0 <= x * y.
Proof.
  destruct (ori_cases x) as [[Hx Ex]|[[Hx Ex]|[Hx Ex]]], (ori_cases y) as [[Hy Ey]|[[Hy Ey]|[Hy Ey]]];
  rewrite Ex, Ey; simpl; split; intros; try discriminate; try reflexivity; try nra.
Qed.

Theorem point_in_segment_general_partial p v1 v2 :
  ok p -> ok v1 -> ok v2 ->
  exchanged v1 p = exchanged p v2 ->
  collinear (sem p) (sem v1) (sem v2) -> sem v1 <> sem v2 ->
  (point_in_segment_general k p v1 v2 = Some true <-> in_segment (sem p) (sem v1) (sem v2)).
Proof.
  intros Hp H1 H2 Hex Hc Hne.
  destruct (collinear_param _ _ _ Hc Hne) as [t Et].
  assert (D : forall ax, (ax <= 2)%nat -> forall a b, ok a -> ok b -> less_than_axis ax k a b =
     Some (ori_of ((if exchanged a b then -1 else 1) * (coord ax (sem a) - coord ax (sem b))))).
  { intros ax Hax a b Ha Hb. rewrite (less_than_dispatch semE semL semT okE okL okT) by assumption.
    cbv zeta. f_equal. destruct (exchanged a b).
    - rewrite <- ori_opp. f_equal. ring.
    - f_equal. ring. }
  unfold point_in_segment_general.
  pose proof (D 0%nat) as D0. pose proof (D 1%nat) as D1. pose proof (D 2%nat) as D2.
  unfold less_than_axis in *. cbn [coord] in *.
  rewrite !D0, !D1, !D2 by auto. rewrite <- Hex.
  set (e := if exchanged v1 p then -1 else 1).
  assert (He : e * e = 1) by (unfold e; destruct exchanged; lra).
  rewrite !seg_block_true, seg_last_true, Et. geo.
  assert (Sq : forall a b, e * (a - (a + t * (b - a))) * (e * (a + t * (b - a) - b)) =
     t * (1 - t) * ((b - a) * (b - a))).
  { intros. transitivity (e * e * (t * (1 - t) * ((b - a) * (b - a)))); [ring|]. rewrite He. ring. }
  rewrite !Sq.
  assert (Key : forall d, d <> 0 -> (0 <= t * (1 - t) * (d * d) <-> 0 <= t <= 1)).
  { intros d Hd. assert (0 < d * d) by nra.
    split; intros Q; [|apply Rmult_le_pos; [apply Rmult_le_pos; lra|lra]].
    assert (P : 0 <= t * (1 - t)) by (apply Rmult_le_reg_r with (d * d); lra).
    split; apply Rnot_lt_le; intros N; nra. }
  assert (Ze : forall x, e * x = 0 <-> x = 0).
  { intros. split; intros Hz; [|rewrite Hz; ring].
    apply Rmult_integral in Hz. destruct Hz as [Hz|Hz]; auto. rewrite Hz in He. lra. }
  rewrite !Ze.
  assert (Bth : forall a b, a - (a + t * (b - a)) = 0 /\ a + t * (b - a) - b = 0 <-> a = b).
  { intros a b. split; [intros [Z1 Z2]; lra|intros ->; split; ring]. }
  assert (Alt : forall a b P, ((a - (a + t * (b - a)) <> 0 \/ a + t * (b - a) - b <> 0) /\
     0 <= t * (1 - t) * ((b - a) * (b - a)) \/
     (a - (a + t * (b - a)) = 0 /\ a + t * (b - a) - b = 0 /\ P)) <->
     (a <> b /\ 0 <= t <= 1 \/ a = b /\ P)).
  { intros a b P. destruct (Req_dec a b) as [Eab|Nab].
    - subst b. split; intros [[Q1 Q2]|Q].
      + exfalso. destruct Q1 as [Q1|Q1]; apply Q1; ring.
      + right. tauto.
      + exfalso. tauto.
      + right. repeat split; try ring; tauto.
    - rewrite (Key (b - a)) by lra. split; intros [[Q1 Q2]|Q].
      + left; auto.
      + exfalso. apply Nab. lra.
      + left. split; auto. lra.
      + exfalso. tauto. }
  assert (Ze' : forall x, e * x <> 0 <-> x <> 0) by (intros x; rewrite Ze; tauto).
  rewrite !Alt.
  assert (Hseg : in_segment (lerp (sem v1) (sem v2) t) (sem v1) (sem v2) <-> 0 <= t <= 1).
  { split.
    - intros (s & Hs & Es).
      assert (t = s); [|lra].
      injection Es as X Y Z.
      destruct (Req_dec (vx (sem v2)) (vx (sem v1))) as [Qx|Qx];
      [destruct (Req_dec (vy (sem v2)) (vy (sem v1))) as [Qy|Qy];
       [destruct (Req_dec (vz (sem v2)) (vz (sem v1))) as [Qz|Qz]|]|].
      + exfalso. apply Hne, vec3_eq; auto.
      + apply Rmult_eq_reg_r with (vz (sem v2) - vz (sem v1)); lra.
      + apply Rmult_eq_reg_r with (vy (sem v2) - vy (sem v1)); lra.
      + apply Rmult_eq_reg_r with (vx (sem v2) - vx (sem v1)); lra.
    - intros. exists t. auto. }
  geo. rewrite Hseg. clear Alt Bth Sq D D0 D1 D2.
  destruct (Req_dec (vx (sem v1)) (vx (sem v2))) as [Qx|Qx]; [|tauto].
  destruct (Req_dec (vy (sem v1)) (vy (sem v2))) as [Qy|Qy]; [|tauto].
  destruct (Req_dec (vz (sem v1)) (vz (sem v2))) as [Qz|Qz]; [exfalso; apply Hne, vec3_eq; auto|].
  rewrite Key by lra. tauto.
Qed.

(** The remaining kinds: when exactly one of the two comparisons exchanges its
    arguments, every point strictly inside a segment that is not parallel to
    the yz plane is rejected. *)
Theorem point_in_segment_general_refuted p v1 v2 :
  ok p -> ok v1 -> ok v2 ->
  exchanged v1 p <> exchanged p v2 ->
  vx (sem v1) <> vx (sem v2) ->
  in_open_segment (sem p) (sem v1) (sem v2) ->
  point_in_segment_general k p v1 v2 = Some false.
Proof.
  intros Hp H1 H2 Hex Hx (Hne & t & Ht & Et).
  pose proof (less_than_dispatch semE semL semT okE okL okT k 0 (Nat.le_0_l _) Hk) as D.
  cbv zeta in D. unfold less_than_axis in D. cbn [coord] in D.
  unfold point_in_segment_general. rewrite !D by auto.
  assert (X : vx (sem p) = vx (sem v1) + t * (vx (sem v2) - vx (sem v1))) by (rewrite Et; reflexivity).
  rewrite X.
  destruct (Rlt_dec (vx (sem v1)) (vx (sem v2))) as [Q|Q].
  - rewrite !ori_neg by nra. destruct (exchanged v1 p), (exchanged p v2); try congruence; reflexivity.
  - rewrite !ori_pos by nra. destruct (exchanged v1 p), (exchanged p v2); try congruence; reflexivity.
Qed.
End General.

(** ** Non-vacuity *)
Example ex_tri : ~ collinear (V3 0 0 0) (V3 4 0 0) (V3 0 4 0).
Proof. intros H. injection H. geo. lra. Qed.
Example ex_inner_triangle :
  point_in_inner_triangle (V3 1 1 0) (V3 0 0 0) (V3 4 0 0) (V3 0 4 0) = true /\
  point_in_inner_triangle (V3 2 2 0) (V3 0 0 0) (V3 4 0 0) (V3 0 4 0) = false /\
  point_in_triangle (V3 2 2 0) (V3 0 0 0) (V3 4 0 0) (V3 0 4 0) = true.
Proof.
  assert (C1 : orient3 (V3 0 0 0) (V3 4 0 0) (V3 0 4 0) (V3 1 1 0) = 0) by (geo; ring).
  assert (C2 : orient3 (V3 0 0 0) (V3 4 0 0) (V3 0 4 0) (V3 2 2 0) = 0) by (geo; ring).
  split; [|split].
  - apply point_in_inner_triangle_spec; [exact ex_tri|exact C1|].
    exists (1/2), (1/4), (1/4). repeat split; try lra. apply vec3_eq; geo; field.
  - apply not_true_is_false. rewrite point_in_inner_triangle_spec by (exact ex_tri || exact C2).
    intros (a & b & c & Ha & Hb & Hc & Hs & E). injection E as E1 E2 E3. lra.
  - apply point_in_triangle_spec; [exact ex_tri|exact C2|].
    exists 0, (1/2), (1/2). repeat split; try lra. apply vec3_eq; geo; field.
Qed.
Example ex_seg_tri :
  inner_segment_cross_inner_triangle (V3 1 1 (-1)) (V3 1 1 1) (V3 0 0 0) (V3 4 0 0) (V3 0 4 0) = true /\
  inner_segment_cross_triangle (V3 2 0 (-1)) (V3 2 0 1) (V3 0 0 0) (V3 4 0 0) (V3 0 4 0) = true /\
  inner_segment_cross_triangle (V3 3 3 (-1)) (V3 3 3 1) (V3 0 0 0) (V3 4 0 0) (V3 0 4 0) = false.
Proof.
  split; [|split].
  - apply inner_segment_cross_inner_triangle_spec. split; [unfold separated; geo; lra|].
    exists (V3 1 1 0). split.
    + split; [intros Q; injection Q; lra|]. exists (1/2). split; [lra|]. apply vec3_eq; geo; field.
    + exists (1/2), (1/4), (1/4). repeat split; try lra. apply vec3_eq; geo; field.
  - apply inner_segment_cross_triangle_spec; [exact ex_tri|left; geo; lra|].
    exists (V3 2 0 0). split.
    + split; [intros Q; injection Q; lra|]. exists (1/2). split; [lra|]. apply vec3_eq; geo; field.
    + exists (1/2), (1/2), 0. repeat split; try lra. apply vec3_eq; geo; field.
  - apply not_true_is_false. intros H. apply inner_segment_cross_triangle_sound in H.
    destruct H as (x & (_ & t & Ht & E1) & (a & b & c & Ha & Hb & Hc & Hs & E2)).
    rewrite E1 in E2. injection E2 as X Y Z. lra.
Qed.
Example ex_segs : inner_segments_cross (V3 (-1) 0 0) (V3 1 0 0) (V3 0 (-1) 0) (V3 0 1 0) = true.
Proof.
  apply inner_segments_cross_spec. split; [intros H; injection H; lra|].
  exists (V3 0 0 0). split; (split; [intros Q; injection Q; lra|]); exists (1/2); (split; [lra|]);
  apply vec3_eq; geo; field.
Qed.

Print Assumptions point_in_inner_segment_spec.
Print Assumptions point_in_segment_spec.
Print Assumptions point_in_inner_triangle_spec.
Print Assumptions point_in_inner_triangle_coplanarity_needed.
Print Assumptions point_in_inner_triangle_degenerate.
Print Assumptions point_in_triangle_spec.
Print Assumptions inner_segment_cross_inner_triangle_spec.
Print Assumptions inner_segments_cross_spec.
Print Assumptions inner_segment_cross_triangle_sound.
Print Assumptions inner_segment_cross_triangle_spec.
Print Assumptions point_in_segment_general_partial.
Print Assumptions point_in_segment_general_refuted.
