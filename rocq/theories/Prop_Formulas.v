(** C29, C30 (and the formula half of C37): over the real numbers the generic
    formulas of the indirect predicates compute the intersection point and
    the orientation determinants of the points they denote. *)
From Coq Require Import Reals Lra List.
From Verif Require Import GenericFormulas Geo.
Import ListNotations.
Local Open Scope R_scope.

Definition Rops : num_ops R := NumOps Rplus Rminus Rmult.

Definition lpi_R (p q r s t : vec3) : cache R :=
  fst (lpi_lambda Rops (vx p) (vy p) (vz p) (vx q) (vy q) (vz q)
         (vx r) (vy r) (vz r) (vx s) (vy s) (vz s) (vx t) (vy t) (vz t)).

Definition tpi_R (v1 v2 v3 w1 w2 w3 u1 u2 u3 : vec3) : cache R :=
  fst (tpi_lambda Rops
         (vx v1) (vy v1) (vz v1) (vx v2) (vy v2) (vz v2) (vx v3) (vy v3) (vz v3)
         (vx w1) (vy w1) (vz w1) (vx w2) (vy w2) (vz w2) (vx w3) (vy w3) (vz w3)
         (vx u1) (vy u1) (vz u1) (vx u2) (vy u2) (vz u2) (vx u3) (vy u3) (vz u3)).

(** The affine point a cache denotes. *)
Definition cache_point (c : cache R) : vec3 :=
  V3 (lx c / ld c) (ly c / ld c) (lz c / ld c).

Ltac unf := unfold tpi_R, lpi_R, cache_point, lpi_lambda, tpi_lambda, on_plane, orient3, normal,
  det3, dot, cross, vsub, vadd, vscale in *; cbn [nadd nsub nmul Rops fst snd lx ly lz ld vx vy vz] in *.

(** The denominator is the obvious one: it vanishes exactly when the line is
    parallel to the plane (or one of the two is degenerate). *)
Theorem lpi_denominator p q r s t :
  ld (lpi_R p q r s t) = dot (vsub p q) (cross (vsub s r) (vsub t r)).
Proof. unf. ring. Qed.

Theorem lpi_is_intersection p q r s t :
  ld (lpi_R p q r s t) <> 0 ->
  let x := cache_point (lpi_R p q r s t) in
  on_line p q x /\ on_plane r s t x /\
  (forall y, on_line p q y -> on_plane r s t y -> y = x).
Proof.
  intros Hd x.
  set (n := (vx p - vx r) * ((vy s - vy r) * (vz t - vz r) - (vz s - vz r) * (vy t - vy r))
          - (vy p - vy r) * ((vx s - vx r) * (vz t - vz r) - (vz s - vz r) * (vx t - vx r))
          + (vz p - vz r) * ((vx s - vx r) * (vy t - vy r) - (vy s - vy r) * (vx t - vx r))).
  set (d := ld (lpi_R p q r s t)) in *.
  assert (Hx : x = vadd p (vscale (n / d) (vsub q p))).
  { apply vec3_eq; unfold x, cache_point; fold d; unf; cbn [vx vy vz]; field_simplify;
    try exact Hd; f_equal; unfold d, n; unf; ring. }
  assert (Hgen : forall k, orient3 r s t (vadd p (vscale k (vsub q p))) = k * d - n).
  { intros k. unfold d, n. unf. ring. }
  split; [exists (n/d); exact Hx|]. split.
  - unfold on_plane. rewrite Hx, Hgen. field. exact Hd.
  - intros y [k Hk] Hp. subst y. unfold on_plane in Hp. rewrite Hgen in Hp.
    rewrite Hx. replace (n / d) with k; auto. apply Rmult_eq_reg_r with d; auto.
    field_simplify; auto; lra.
Qed.

Theorem tpi_denominator v1 v2 v3 w1 w2 w3 u1 u2 u3 :
  ld (tpi_R v1 v2 v3 w1 w2 w3 u1 u2 u3)
  = det3 (normal v1 v2 v3) (normal w1 w2 w3) (normal u1 u2 u3).
Proof. unf. ring. Qed.

Lemma on_plane_normal a b c x :
  on_plane a b c x <-> dot (normal a b c) x = dot (normal a b c) a.
Proof.
  assert (H : orient3 a b c x = dot (normal a b c) a - dot (normal a b c) x)
    by (unf; ring).
  unfold on_plane. rewrite H. split; intros; lra.
Qed.

(** Cramer's rule for three planes [n_i . x = c_i]. *)
Definition cramer (n1 n2 n3 : vec3) (c1 c2 c3 : R) : vec3 :=
  vadd (vscale c1 (cross n2 n3)) (vadd (vscale c2 (cross n3 n1)) (vscale c3 (cross n1 n2))).

Lemma tpi_cramer v1 v2 v3 w1 w2 w3 u1 u2 u3 :
  let c := tpi_R v1 v2 v3 w1 w2 w3 u1 u2 u3 in
  let n1 := normal v1 v2 v3 in let n2 := normal w1 w2 w3 in let n3 := normal u1 u2 u3 in
  V3 (lx c) (ly c) (lz c) = cramer n1 n2 n3 (dot n1 v1) (dot n2 w1) (dot n3 u1).
Proof.
  cbv zeta. unfold tpi_R, tpi_lambda, normal. cbn [nadd nsub nmul Rops fst lx ly lz ld].
  destruct v1 as [a1 a2 a3], v2 as [b1 b2 b3], v3 as [c1 c2 c3], w1 as [d1 d2 d3],
    w2 as [e1 e2 e3], w3 as [f1 f2 f3], u1 as [g1 g2 g3], u2 as [h1 h2 h3], u3 as [i1 i2 i3].
  unfold cross, vsub. cbn [vx vy vz].
  repeat match goal with
  | |- context [?x - ?y] => is_var x; is_var y; let k := fresh "k" in set (k := x - y); clearbody k
  end.
  unfold cramer, vadd, vscale, cross, dot. cbn [vx vy vz].
  f_equal; ring.
Qed.

Theorem tpi_is_intersection v1 v2 v3 w1 w2 w3 u1 u2 u3 :
  let c := tpi_R v1 v2 v3 w1 w2 w3 u1 u2 u3 in
  ld c <> 0 ->
  let x := cache_point c in
  (on_plane v1 v2 v3 x /\ on_plane w1 w2 w3 x /\ on_plane u1 u2 u3 x) /\
  (forall y, on_plane v1 v2 v3 y -> on_plane w1 w2 w3 y -> on_plane u1 u2 u3 y -> y = x).
Proof.
  intros c Hd x.
  pose proof (tpi_cramer v1 v2 v3 w1 w2 w3 u1 u2 u3) as HC. cbv zeta in HC. fold c in HC.
  pose proof (tpi_denominator v1 v2 v3 w1 w2 w3 u1 u2 u3) as HD. fold c in HD.
  clearbody c. subst x.
  rewrite !on_plane_normal. setoid_rewrite on_plane_normal.
  set (x := cache_point c).
  set (n1 := normal v1 v2 v3) in *; set (n2 := normal w1 w2 w3) in *;
  set (n3 := normal u1 u2 u3) in *.
  set (k1 := dot n1 v1) in *; set (k2 := dot n2 w1) in *; set (k3 := dot n3 u1) in *.
  assert (Hx : x = vscale (/ ld c) (cramer n1 n2 n3 k1 k2 k3)).
  { rewrite <- HC. unfold x, cache_point, vscale; cbn; f_equal; field; auto. }
  assert (L1 : dot n1 (cramer n1 n2 n3 k1 k2 k3) = k1 * ld c)
    by (rewrite HD; unfold cramer; unf; ring).
  assert (L2 : dot n2 (cramer n1 n2 n3 k1 k2 k3) = k2 * ld c)
    by (rewrite HD; unfold cramer; unf; ring).
  assert (L3 : dot n3 (cramer n1 n2 n3 k1 k2 k3) = k3 * ld c)
    by (rewrite HD; unfold cramer; unf; ring).
  assert (Hs : forall a k b, dot a (vscale k b) = k * dot a b) by (intros; unf; ring).
  split.
  - rewrite Hx, !Hs, L1, L2, L3. repeat split; field; auto.
  - intros y H1 H2 H3. rewrite Hx.
    assert (E : cramer n1 n2 n3 k1 k2 k3 = vscale (ld c) y).
    { rewrite <- H1, <- H2, <- H3, HD. unfold cramer; unf; f_equal; ring. }
    rewrite E. destruct y. unfold vscale. cbn. f_equal; field; auto.
Qed.

(** Non-vacuity: the z axis meets the plane z = 0 at the origin, three
    coordinate planes meet at (1,2,3). *)
Example lpi_nontrivial :
  ld (lpi_R (V3 0 0 (-1)) (V3 0 0 1) (V3 (-1) (-1) 0) (V3 1 (-1) 0) (V3 0 1 0)) <> 0.
Proof. rewrite lpi_denominator. unf. lra. Qed.

Example tpi_nontrivial :
  ld (tpi_R (V3 1 0 0) (V3 1 1 0) (V3 1 0 1) (V3 0 2 0) (V3 0 2 1) (V3 1 2 0)
            (V3 0 0 3) (V3 1 0 3) (V3 0 1 3)) <> 0.
Proof. rewrite tpi_denominator. unf. lra. Qed.

(** ** C30: orientation formulas.  Each implicit argument is the scaled point
    [(d P, d)]; the formulas return minus the orientation determinant times a
    product of denominators (orient3d), the determinant itself (orient2d) or
    the coordinate difference (less_than). *)
Theorem orient3d_ieee_formula d1 P A B C :
  fst (orient3d_ieee_impl Rops (d1 * vx P) (d1 * vy P) (d1 * vz P) d1
         (vx A) (vy A) (vz A) (vx B) (vy B) (vz B) (vx C) (vy C) (vz C))
  = d1 * - orient3 P A B C.
Proof. unfold orient3d_ieee_impl. unf. ring. Qed.

Theorem orient3d_iiee_formula d1 d2 P Q A B :
  fst (orient3d_iiee_impl Rops (d1 * vx P) (d1 * vy P) (d1 * vz P) d1
         (d2 * vx Q) (d2 * vy Q) (d2 * vz Q) d2
         (vx A) (vy A) (vz A) (vx B) (vy B) (vz B))
  = d1 * d2 * - orient3 P Q A B.
Proof. unfold orient3d_iiee_impl. unf. ring. Qed.

Theorem orient3d_iiie_formula d1 d2 d3 P Q S A :
  fst (orient3d_iiie_impl Rops (d1 * vx P) (d1 * vy P) (d1 * vz P) d1
         (d2 * vx Q) (d2 * vy Q) (d2 * vz Q) d2
         (d3 * vx S) (d3 * vy S) (d3 * vz S) d3
         (vx A) (vy A) (vz A))
  = d1 * d2 * d3 * - orient3 P Q S A.
Proof. unfold orient3d_iiie_impl. unf. ring. Qed.

Theorem orient3d_iiii_formula d1 d2 d3 d4 P Q S A :
  orient3d_iiii_impl Rops (d1 * vx P) (d1 * vy P) (d1 * vz P) d1
         (d2 * vx Q) (d2 * vy Q) (d2 * vz Q) d2
         (d3 * vx S) (d3 * vy S) (d3 * vz S) d3
         (d4 * vx A) (d4 * vy A) (d4 * vz A) d4
  = d1 * d2 * d3 * (d4 * d4 * d4) * - orient3 P Q S A.
Proof. unfold orient3d_iiii_impl. unf. ring. Qed.

Theorem orient2d_iee_formula d1 px py ax ay bx by_ :
  fst (orient2d_iee_impl Rops (d1 * px) (d1 * py) d1 ax ay bx by_)
  = d1 * orient2 px py ax ay bx by_.
Proof. unfold orient2d_iee_impl, orient2. unf. ring. Qed.

Theorem orient2d_iie_formula d1 d2 px py qx qy ax ay :
  fst (orient2d_iie_impl Rops (d1 * px) (d1 * py) d1 (d2 * qx) (d2 * qy) d2 ax ay)
  = d1 * d1 * d2 * orient2 px py qx qy ax ay.
Proof. unfold orient2d_iie_impl, orient2. unf. ring. Qed.

Theorem orient2d_iii_formula d1 d2 d3 px py qx qy sx sy :
  orient2d_iii_impl Rops (d1 * px) (d1 * py) d1 (d2 * qx) (d2 * qy) d2
    (d3 * sx) (d3 * sy) d3
  = d1 * d1 * d2 * d3 * orient2 px py qx qy sx sy.
Proof. unfold orient2d_iii_impl, orient2. unf. ring. Qed.

Theorem less_than_ie_formula d1 p b :
  less_than_ie_impl Rops (d1 * p) d1 b = d1 * (p - b).
Proof. unfold less_than_ie_impl. unf. ring. Qed.

Theorem less_than_ii_formula d1 d2 p q :
  less_than_ii_impl Rops (d1 * p) d1 (d2 * q) d2 = d1 * d2 * (p - q).
Proof. unfold less_than_ii_impl. unf. ring. Qed.

Theorem tri_normal_formula a b c :
  fst (max_comp_in_tri_normal_impl Rops (vx a) (vy a) (vz a) (vx b) (vy b) (vz b)
         (vx c) (vy c) (vz c))
  = (vx (normal a b c), vy (normal a b c), vz (normal a b c)).
Proof. unfold max_comp_in_tri_normal_impl. unf.
  apply f_equal2; [apply f_equal2|]; ring.
Qed.

Print Assumptions lpi_is_intersection.
Print Assumptions tpi_is_intersection.
Print Assumptions orient3d_ieee_formula.
Print Assumptions orient3d_iiee_formula.
Print Assumptions orient3d_iiie_formula.
Print Assumptions orient3d_iiii_formula.
Print Assumptions orient2d_iee_formula.
Print Assumptions orient2d_iie_formula.
Print Assumptions orient2d_iii_formula.
Print Assumptions less_than_ie_formula.
Print Assumptions less_than_ii_formula.
Print Assumptions tri_normal_formula.
