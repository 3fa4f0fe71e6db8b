(** Small helpers shared by the models: vector update with Rust's
    index-out-of-bounds panics turned into [None], and an option bind. *)
From Coq Require Import List Arith Bool Lia.
Import ListNotations.

Declare Scope opt_scope.
Delimit Scope opt_scope with opt.
Notation "x <- e ;; k" := (match e with Some x => k | None => None end)
  (at level 61, e at next level, right associativity) : opt_scope.
Notation "' p <- e ;; k" := (match e with Some p => k | None => None end)
  (at level 61, p pattern, e at next level, right associativity) : opt_scope.

(** [upd l i v] is [l] with entry [i] replaced by [v] (unchanged when out of
    range).  [set l i v] is Rust's [l[i] = v], panicking out of range. *)
Fixpoint upd {A} (l : list A) (i : nat) (v : A) : list A :=
  match l, i with
  | [], _ => []
  | _ :: t, 0 => v :: t
  | x :: t, S i' => x :: upd t i' v
  end.

Definition set {A} (l : list A) (i : nat) (v : A) : option (list A) :=
  if i <? length l then Some (upd l i v) else None.

Lemma upd_length {A} (l : list A) i v : length (upd l i v) = length l.
Proof. revert i; induction l; destruct i; simpl; auto. Qed.

Lemma nth_error_upd_eq {A} (l : list A) i v :
  i < length l -> nth_error (upd l i v) i = Some v.
Proof.
  revert i; induction l; destruct i; simpl; intros; try lia; auto.
  apply IHl; lia.
Qed.

Lemma nth_error_upd_neq {A} (l : list A) i j v :
  i <> j -> nth_error (upd l i v) j = nth_error l j.
Proof.
  revert i j; induction l; destruct i, j; simpl; intros; try lia; auto.
Qed.

Lemma nth_error_upd {A} (l : list A) i j v :
  nth_error (upd l i v) j =
  if (i =? j) && (i <? length l) then Some v else nth_error l j.
Proof.
  destruct (Nat.eqb_spec i j) as [->|H]; simpl.
  - destruct (Nat.ltb_spec j (length l)) as [Hl|Hl].
    + now apply nth_error_upd_eq.
    + rewrite (proj2 (nth_error_None _ _)) by (rewrite upd_length; lia).
      symmetry; now apply nth_error_None.
  - now apply nth_error_upd_neq.
Qed.

Lemma nth_upd_eq {A} (l : list A) i v d :
  i < length l -> nth i (upd l i v) d = v.
Proof.
  revert i; induction l; destruct i; simpl; intros; try lia; auto.
  apply IHl; lia.
Qed.

Lemma nth_upd_neq {A} (l : list A) i j v d :
  i <> j -> nth j (upd l i v) d = nth j l d.
Proof.
  revert i j; induction l; destruct i, j; simpl; intros; try lia; auto.
Qed.

Lemma set_Some {A} (l l' : list A) i v :
  set l i v = Some l' <-> i < length l /\ l' = upd l i v.
Proof.
  unfold set. destruct (Nat.ltb_spec i (length l)); split; intros H0.
  - inversion H0; auto.
  - destruct H0; now subst.
  - discriminate.
  - lia.
Qed.

Lemma nth_error_nth_eq {A} (l : list A) i v d :
  nth_error l i = Some v -> nth i l d = v.
Proof. apply nth_error_nth. Qed.

Lemma nth_error_lt {A} (l : list A) i v :
  nth_error l i = Some v -> i < length l.
Proof. intros H; apply nth_error_Some; congruence. Qed.

Lemma nth_error_ex {A} (l : list A) i :
  i < length l -> exists v, nth_error l i = Some v.
Proof.
  intros H. destruct (nth_error l i) eqn:E; eauto.
  apply nth_error_None in E; lia.
Qed.
