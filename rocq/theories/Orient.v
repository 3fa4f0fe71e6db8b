(** The orientation of an exact real number, used in specifications. *)
From Coq Require Import Reals Lra ZArith.
From Verif Require Import Dispatch.
Local Open Scope R_scope.

(** The orientation reported for an exact real. *)
Definition ori_of (x : R) : Orientation :=
  match total_order_T x 0 with
  | inleft (left _) => Negative
  | inleft (right _) => Zero
  | inright _ => Positive
  end.

Lemma ori_pos x : 0 < x -> ori_of x = Positive.
Proof. unfold ori_of; destruct (total_order_T x 0) as [[|]|]; intros; auto; lra. Qed.
Lemma ori_neg x : x < 0 -> ori_of x = Negative.
Proof. unfold ori_of; destruct (total_order_T x 0) as [[|]|]; intros; auto; lra. Qed.
Lemma ori_zero : ori_of 0 = Zero.
Proof. unfold ori_of; destruct (total_order_T 0 0) as [[|]|]; intros; auto; lra. Qed.
Lemma ori_opp x : ori_of (- x) = sign_reverse (ori_of x).
Proof.
  unfold ori_of; destruct (total_order_T x 0) as [[|]|];
  destruct (total_order_T (-x) 0) as [[|]|]; simpl; auto; exfalso; lra.
Qed.
Lemma ori_mul_pos k x : 0 < k -> ori_of (k * x) = ori_of x.
Proof.
  intros Hk. unfold ori_of at 2; destruct (total_order_T x 0) as [[H|H]|H].
  - apply ori_neg. assert (k * (-x) > 0) by (apply Rmult_lt_0_compat; lra). lra.
  - subst; rewrite Rmult_0_r; apply ori_zero.
  - apply ori_pos. apply Rmult_lt_0_compat; lra.
Qed.

Lemma ori_cases x :
  (x < 0 /\ ori_of x = Negative) \/ (x = 0 /\ ori_of x = Zero) \/ (0 < x /\ ori_of x = Positive).
Proof. unfold ori_of; destruct (total_order_T x 0) as [[|]|]; auto. Qed.

Lemma ori_eq_zero x : ori_of x = Zero <-> x = 0.
Proof. destruct (ori_cases x) as [[H E]|[[H E]|[H E]]]; rewrite E; split; intros; try congruence; lra. Qed.
Lemma ori_eq_pos x : ori_of x = Positive <-> 0 < x.
Proof. destruct (ori_cases x) as [[H E]|[[H E]|[H E]]]; rewrite E; split; intros; try congruence; lra. Qed.
Lemma ori_eq_neg x : ori_of x = Negative <-> x < 0.
Proof. destruct (ori_cases x) as [[H E]|[[H E]|[H E]]]; rewrite E; split; intros; try congruence; lra. Qed.
Lemma ori_defined x : ori_of x <> Undefined.
Proof. destruct (ori_cases x) as [[H E]|[[H E]|[H E]]]; rewrite E; congruence. Qed.
