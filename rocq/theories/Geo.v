(** Specification vocabulary: exact points of R^3 and R^2, determinants,
    lines, planes.  Nothing here refers to the code. *)
From Coq Require Import Reals Lra.
Local Open Scope R_scope.

Record vec3 : Type := V3 { vx : R; vy : R; vz : R }.

Definition vsub (a b : vec3) : vec3 := V3 (vx a - vx b) (vy a - vy b) (vz a - vz b).
Definition vadd (a b : vec3) : vec3 := V3 (vx a + vx b) (vy a + vy b) (vz a + vz b).
Definition vscale (k : R) (a : vec3) : vec3 := V3 (k * vx a) (k * vy a) (k * vz a).
Definition cross (a b : vec3) : vec3 :=
  V3 (vy a * vz b - vz a * vy b)
     (vz a * vx b - vx a * vz b)
     (vx a * vy b - vy a * vx b).
Definition dot (a b : vec3) : R := vx a * vx b + vy a * vy b + vz a * vz b.

(** Determinant of the matrix with rows [a], [b], [c]. *)
Definition det3 (a b c : vec3) : R := dot a (cross b c).

(** Signed volume (times 6) of the tetrahedron; positive when [d] sees
    [a], [b], [c] counter-clockwise from the other side, Shewchuk's
    convention for [orient3d]. *)
Definition orient3 (a b c d : vec3) : R := det3 (vsub a d) (vsub b d) (vsub c d).

(** Twice the signed area of a planar triangle. *)
Definition orient2 (ax ay bx by_ cx cy : R) : R :=
  (bx - ax) * (cy - ay) - (by_ - ay) * (cx - ax).

Definition on_line (p q x : vec3) : Prop :=
  exists t, x = vadd p (vscale t (vsub q p)).

Definition on_plane (r s t x : vec3) : Prop := orient3 r s t x = 0.

Definition normal (a b c : vec3) : vec3 := cross (vsub b a) (vsub c b).

(** The sign of a real number as -1, 0 or 1. *)
Definition sgn (x : R) : Z :=
  match total_order_T x 0 with
  | inleft (left _) => (-1)%Z
  | inleft (right _) => 0%Z
  | inright _ => 1%Z
  end.

Lemma sgn_pos x : 0 < x -> sgn x = 1%Z.
Proof. unfold sgn; destruct (total_order_T x 0) as [[|]|]; intros; auto; lra. Qed.
Lemma sgn_neg x : x < 0 -> sgn x = (-1)%Z.
Proof. unfold sgn; destruct (total_order_T x 0) as [[|]|]; intros; auto; lra. Qed.
Lemma sgn_zero : sgn 0 = 0%Z.
Proof. unfold sgn; destruct (total_order_T 0 0) as [[|]|]; intros; auto; lra. Qed.

Lemma sgn_opp x : sgn (- x) = (- sgn x)%Z.
Proof.
  unfold sgn; destruct (total_order_T x 0) as [[|]|];
  destruct (total_order_T (-x) 0) as [[|]|]; auto; exfalso; lra.
Qed.

Lemma sgn_mul_pos k x : 0 < k -> sgn (k * x) = sgn x.
Proof.
  intros Hk. unfold sgn at 2; destruct (total_order_T x 0) as [[H|H]|H].
  - apply sgn_neg. assert (k * (-x) > 0) by (apply Rmult_lt_0_compat; lra). lra.
  - subst; rewrite Rmult_0_r; apply sgn_zero.
  - apply sgn_pos. apply Rmult_lt_0_compat; lra.
Qed.

Lemma vec3_eq a b : vx a = vx b -> vy a = vy b -> vz a = vz b -> a = b.
Proof. destruct a, b; simpl; congruence. Qed.
