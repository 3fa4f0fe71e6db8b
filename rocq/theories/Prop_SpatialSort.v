(** Property C42: the spatial sort (src/triangle/tetrahedron.rs). *)
From Coq Require Import List Arith Bool Lia Permutation ZArith.
From Flocq Require Import Core BinarySingleNaN.
From Verif Require Import Lib F64 F64Facts SpatialSort SpatialSortProofs.
Import ListNotations.
Local Open Scope opt_scope.

(** ** C42 *)

(** Whatever the random shuffle does, the insertion order lists every input
    point exactly once, and computing it does not panic or loop. *)
Theorem C42_insertion_order shuffle points :
  (forall l, Permutation l (shuffle l)) ->
  (forall p, In p points -> is_finite p = true) -> 3 <= length points ->
  exists r, insertion_order shuffle points = Some r /\ NoDup r /\ forall i, In i r <-> i < length points / 3.
Proof.
  intros S F L. unfold insertion_order. destruct (bbox_ok points F L) as (b & -> & B).
  set (n := length points / 3). assert (P := S (seq 0 n)).
  assert (Hn : 3 * n <= length points) by (apply Nat.mul_div_le; lia).
  destruct (brio_ok SORT_OPTION points b) with (fuel := Datatypes.S n) (l := shuffle (seq 0 n)) as (r & E & Q).
  - intros p Hp. specialize (F p Hp). destruct p; try discriminate; reflexivity.
  - simpl. lia.
  - simpl. lia.
  - exact B.
  - intros x Hx. assert (In x (seq 0 n)) by (eapply Permutation_in; [apply Permutation_sym; exact P|exact Hx]).
    apply in_seq in H. lia.
  - rewrite <- (Permutation_length P), seq_length. lia.
  - exists r. split; [exact E|]. assert (PR : Permutation (seq 0 n) r) by (rewrite P; exact Q).
    split; [eapply Permutation_NoDup; [exact PR|apply seq_NoDup]|]. intros i. split; intros H.
    + apply Permutation_sym in PR. apply (Permutation_in _ PR) in H. apply in_seq in H. lia.
    + apply (Permutation_in _ PR). apply in_seq. lia.
Qed.

(** The recursion keeps the indices, for every slice, every starting octant
    and every order, limit and threshold. *)
Theorem C42_sort_permutes o points bbox l :
  (forall p, In p points -> is_finite p = true) -> (forall p, In p bbox -> is_finite p = true) -> length bbox = 6 ->
  (forall x, In x l -> 3 * x + 3 <= length points) -> 0 < hilbert_order o -> 0 < threshold o ->
  exists r, brio_multiscale_sort o points l bbox (S (length l)) = Some r /\ Permutation l r.
Proof.
  intros F FB LB R HO HT. apply brio_ok; auto.
  - intros p Hp. specialize (F p Hp). destruct p; try discriminate; reflexivity.
  - split; auto. intros a lo hi _ E1 E2. apply nth_error_In in E1, E2. specialize (FB _ E1) as F1. specialize (FB _ E2) as F2.
    split; [destruct lo; try discriminate; reflexivity|]. split; [destruct hi; try discriminate; reflexivity|]. auto.
Qed.

(** One split between the octants of codes [gc0] and [gc1]: the indices are
    permuted; with at least two of them those before the cut are the points on
    the near side of the middle of the box along the axis in which the codes
    differ, the side being given by the bit of [gc0]. *)
Theorem C42_split points l gc0 gc1 bbox axis lo hi :
  (forall p, In p points -> is_finite p = true) -> (forall p, In p bbox -> is_finite p = true) -> length bbox = 6 ->
  (forall x, In x l -> 3 * x + 3 <= length points) ->
  axis < 3 -> Nat.lxor gc0 gc1 = 2 ^ axis ->
  nth_error bbox axis = Some lo -> nth_error bbox (axis + 3) = Some hi ->
  exists A B, hilbert_split points l gc0 gc1 bbox = Some (A ++ B, length A) /\ Permutation l (A ++ B) /\
    (2 <= length l -> forall x c, In x l -> nth_error points (3 * x + axis) = Some c ->
       let split := fmul (fadd lo hi) half in
       let near := if Nat.testbit gc0 axis then flt split c else flt c split in
       (In x A -> near = true) /\ (In x B -> near = false)).
Proof.
  intros F FB LB R HA HX E1 E2.
  assert (AX : Nat.shiftr (Nat.lxor gc0 gc1) 1 = axis).
  { rewrite HX. destruct axis as [|[|[|a]]]; [reflexivity|reflexivity|reflexivity|lia]. }
  destruct (hilbert_split_ok points l gc0 gc1 bbox) as (A & B & E & P & Q); auto.
  - intros p Hp. specialize (F p Hp). destruct p; try discriminate; reflexivity.
  - split; auto. intros a lo' hi' _ K1 K2. apply nth_error_In in K1, K2. specialize (FB _ K1) as F1. specialize (FB _ K2) as F2.
    split; [destruct lo'; try discriminate; reflexivity|]. split; [destruct hi'; try discriminate; reflexivity|]. auto.
  - rewrite AX. exact HA.
  - exists A, B. split; [exact E|]. split; [exact P|]. intros L x c Hx Hc split near. destruct (Q ltac:(lia)) as [QA QB].
    rewrite AX in QA, QB.
    assert (IFF : before points bbox gc0 axis x <-> near = true).
    { unfold before, near. split.
      - intros (c' & lo' & hi' & K1 & K2 & K3 & K4). assert (c' = c) by congruence. assert (lo' = lo) by congruence.
        assert (hi' = hi) by congruence. subst c' lo' hi'. fold split in K4. destruct (Nat.testbit gc0 axis); exact K4.
      - intros K. exists c, lo, hi. fold split. destruct (Nat.testbit gc0 axis); auto. }
    split; intros H.
    + apply IFF. auto.
    + destruct near; auto. exfalso. apply (QB x H). apply IFF. reflexivity.
Qed.

(** For each of the 24 orientations the eight codes are the eight octants, and
    consecutive ones are neighbours across one axis. *)
Theorem C42_octants e d : e < 8 -> d < 3 ->
  (forall o, o < 8 -> exists w, w < 8 /\ trans_gc e d w = Some o) /\
  (forall w, w < 7 -> exists g0 g1 axis, trans_gc e d w = Some g0 /\ trans_gc e d (w + 1) = Some g1 /\
     axis < 3 /\ Nat.lxor g0 g1 = 2 ^ axis).
Proof.
  intros He Hd. split.
  - intros o Ho.
    assert (K : forallb (fun e => forallb (fun d => forallb (fun o => existsb (fun w =>
      match trans_gc e d w with Some x => x =? o | None => false end) (seq 0 8)) (seq 0 8)) (seq 0 3)) (seq 0 8) = true)
      by (vm_compute; reflexivity).
    rewrite forallb_forall in K. specialize (K e ltac:(apply in_seq; lia)). rewrite forallb_forall in K.
    specialize (K d ltac:(apply in_seq; lia)). rewrite forallb_forall in K. specialize (K o ltac:(apply in_seq; lia)).
    apply existsb_exists in K. destruct K as (w & Hw & K). apply in_seq in Hw. exists w. split; [lia|].
    destruct (trans_gc e d w); [|discriminate]. apply Nat.eqb_eq in K. congruence.
  - intros w Hw.
    assert (K : forallb (fun e => forallb (fun d => forallb (fun w => existsb (fun a =>
      match trans_gc e d w, trans_gc e d (w + 1) with Some x, Some y => Nat.lxor x y =? 2 ^ a | _, _ => false end)
      (seq 0 3)) (seq 0 7)) (seq 0 3)) (seq 0 8) = true)
      by (vm_compute; reflexivity).
    rewrite forallb_forall in K. specialize (K e ltac:(apply in_seq; lia)). rewrite forallb_forall in K.
    specialize (K d ltac:(apply in_seq; lia)). rewrite forallb_forall in K. specialize (K w ltac:(apply in_seq; lia)).
    apply existsb_exists in K. destruct K as (a & Ha & K). apply in_seq in Ha.
    destruct (trans_gc e d w) as [g0|]; [|discriminate]. destruct (trans_gc e d (w + 1)) as [g1|]; [|discriminate].
    apply Nat.eqb_eq in K. exists g0, g1, a. repeat split; auto; lia.
Qed.

(** ** Examples: ten points of the unit cube's diagonal and corners. *)
Definition pt (x y z : Z) : list f64 := [fl x (-2); fl y (-2); fl z (-2)].
Definition pts10 : list f64 :=
  concat [pt 0 0 0; pt 4 4 4; pt 1 3 2; pt 3 1 2; pt 2 2 2; pt 4 0 0; pt 0 4 0; pt 0 0 4; pt 1 1 1; pt 3 3 3].
Example pts10_finite : forallb is_finite pts10 = true.
Proof. vm_compute. reflexivity. Qed.
Example pts10_order : insertion_order (@rev nat) pts10 = Some [0; 8; 6; 2; 7; 9; 1; 5; 3; 4].
Proof. vm_compute. reflexivity. Qed.
Example pts10_split :
  hilbert_split pts10 [1;0;8;9;4;2] 0 1 [fl 0 0; fl 0 0; fl 0 0; fl 1 0; fl 1 0; fl 1 0] = Some ([2; 0; 8] ++ [9; 4; 1], 3).
Proof. vm_compute. reflexivity. Qed.
Print Assumptions C42_insertion_order.
Print Assumptions C42_sort_permutes.
Print Assumptions C42_split.
Print Assumptions C42_octants.
