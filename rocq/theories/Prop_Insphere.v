(** C44: the in-sphere test with symbolic perturbation. *)
From Coq Require Import List Arith Bool ZArith Reals Lia Lra.
From Verif Require Import Lib Geo Tet TetSpec InsphereProofs.
Import ListNotations.
Local Open Scope R_scope.

(** The determinant the code evaluates (predicates.rs:1534-1542) is the in-sphere
    determinant. *)
Theorem C44_determinant a b c d e :
  insphere_det a b c d e =
  (dot (vsub d e) (vsub d e) * orient3 a b c e - dot (vsub c e) (vsub c e) * orient3 d a b e)
  + (dot (vsub b e) (vsub b e) * orient3 c d a e - dot (vsub a e) (vsub a e) * orient3 b c d e).
Proof. unfold insphere_det. unf. ring. Qed.

(** Its sign tells on which side of the sphere through the first four points the
    fifth is. *)
Theorem C44_sphere a b c d e o r :
  dot (vsub a o) (vsub a o) = r -> dot (vsub b o) (vsub b o) = r ->
  dot (vsub c o) (vsub c o) = r -> dot (vsub d o) (vsub d o) = r ->
  insphere_det a b c d e = orient3 a b c d * (r - dot (vsub e o) (vsub e o)).
Proof.
  intros A B C D.
  transitivity (- orient3 b c d e * dot (vsub a o) (vsub a o) + orient3 a c d e * dot (vsub b o) (vsub b o)
     - orient3 a b d e * dot (vsub c o) (vsub c o) + orient3 a b c e * dot (vsub d o) (vsub d o)
     - orient3 a b c d * dot (vsub e o) (vsub e o)).
  - unfold insphere_det. unf. ring.
  - rewrite A, B, C, D. unf. ring.
Qed.

(** Given exact signs, the test returns the sign of the in-sphere determinant
    after lowering the height of every point [i] by [d ^ (i + 1)], for all small
    [d]: the same infinitesimal perturbation of the point set, whatever the
    order of the arguments. *)
Theorem C44_symbolic_perturbation (P : nat -> vec3) (o3 : sign3) (isp : sign4) (pa pb pc pd pe : nat) :
  (forall a b c d, Z.sgn (o3 a b c d) = sgn (orient3 (P a) (P b) (P c) (P d))) ->
  (forall a b c d e, Z.sgn (isp a b c d e) = sgn (insphere_det (P a) (P b) (P c) (P d) (P e))) ->
  NoDup [pa; pb; pc; pd; pe] ->
  (forall i j, In i [pa; pb; pc; pd; pe] -> In j [pa; pb; pc; pd; pe] -> P i = P j -> i = j) ->
  let h d i := dot (P i) (P i) - d ^ (i + 1) in
  exists d0, 0 < d0 /\ forall d, 0 < d < d0 ->
    insphere_s o3 isp pa pb pc pd pe =
    Some (sgn (lift_det (P pa) (P pb) (P pc) (P pd) (P pe) (h d pa) (h d pb) (h d pc) (h d pd) (h d pe))).
Proof.
  intros O I ND Inj h. destruct (insphere_s_correct P o3 isp pa pb pc pd pe O I ND Inj) as (d0 & H0 & H).
  exists d0. split; auto. intros d Hd. rewrite (H d Hd). unfold det_list, h.
  rewrite !(Nat.add_comm _ 1). reflexivity.
Qed.

(** It is therefore never zero around a tetrahedron that is not flat. *)
Theorem C44_decides (P : nat -> vec3) (o3 : sign3) (isp : sign4) (pa pb pc pd pe : nat) :
  (forall a b c d, Z.sgn (o3 a b c d) = sgn (orient3 (P a) (P b) (P c) (P d))) ->
  (forall a b c d e, Z.sgn (isp a b c d e) = sgn (insphere_det (P a) (P b) (P c) (P d) (P e))) ->
  NoDup [pa; pb; pc; pd; pe] ->
  (forall i j, In i [pa; pb; pc; pd; pe] -> In j [pa; pb; pc; pd; pe] -> P i = P j -> i = j) ->
  orient3 (P pa) (P pb) (P pc) (P pd) <> 0 ->
  insphere_s o3 isp pa pb pc pd pe = Some 1%Z \/ insphere_s o3 isp pa pb pc pd pe = Some (-1)%Z.
Proof.
  intros O I ND Inj N. destruct (insphere_s_correct P o3 isp pa pb pc pd pe O I ND Inj) as (d0 & H0 & H).
  assert (Hm : 0 < d0 / 2 < d0) by lra. rewrite (H _ Hm).
  match goal with |- Some (sgn ?x) = _ \/ _ => set (y := x) end.
  destruct (total_order_T y 0) as [[L|E]|L].
  - right. rewrite sgn_neg; auto.
  - exfalso. apply N. clear L || idtac.
    assert (Z : forall d, 0 < d < d0 -> det_list P (fun i => dot (P i) (P i) - d ^ S i) [pa; pb; pc; pd; pe] = 0).
    { intros d Hd. apply sgn_zero_inv. pose proof (H d Hd) as H1. rewrite (H _ Hm) in H1.
      fold y in H1. rewrite E, sgn_zero in H1. now apply (f_equal (fun o => match o with Some z => z | None => 0%Z end)) in H1. }
    eapply (psum_zero [(insphere_det (P pa) (P pb) (P pc) (P pd) (P pe), 0%nat);
          (orient3 (P pb) (P pc) (P pd) (P pe), S pa); (- orient3 (P pa) (P pc) (P pd) (P pe), S pb);
          (orient3 (P pa) (P pb) (P pd) (P pe), S pc); (- orient3 (P pa) (P pb) (P pc) (P pe), S pd);
          (orient3 (P pa) (P pb) (P pc) (P pd), S pe)] d0) with (n := S pe).
    + cbn [map snd]. constructor; [cbn; intuition discriminate|].
      change (NoDup (map S [pa; pb; pc; pd; pe])). apply FinFun.Injective_map_NoDup; auto. intros ? ? E'; congruence.
    + exact H0.
    + intros d Hd. rewrite <- (Z d Hd). unfold det_list, insphere_det. rewrite !lift_det_linear. cbn [psum]. rewrite pow_O. ring.
    + cbn; auto 7.
  - left. rewrite sgn_pos; auto.
Qed.

(** Exchanging two arguments reverses the answer (stated for every pair). *)
Theorem C44_alternating (P : nat -> vec3) (o3 : sign3) (isp : sign4) (pa pb pc pd pe : nat) :
  (forall a b c d, Z.sgn (o3 a b c d) = sgn (orient3 (P a) (P b) (P c) (P d))) ->
  (forall a b c d e, Z.sgn (isp a b c d e) = sgn (insphere_det (P a) (P b) (P c) (P d) (P e))) ->
  NoDup [pa; pb; pc; pd; pe] ->
  (forall i j, In i [pa; pb; pc; pd; pe] -> In j [pa; pb; pc; pd; pe] -> P i = P j -> i = j) ->
  exists s, insphere_s o3 isp pa pb pc pd pe = Some s /\
    insphere_s o3 isp pb pa pc pd pe = Some (- s)%Z /\ insphere_s o3 isp pa pc pb pd pe = Some (- s)%Z /\
    insphere_s o3 isp pa pb pd pc pe = Some (- s)%Z /\ insphere_s o3 isp pa pb pc pe pd = Some (- s)%Z.
Proof.
  intros O I ND Inj.
  assert (Go : forall a b c d e, Permutation.Permutation [pa; pb; pc; pd; pe] [a; b; c; d; e] ->
    exists d0, 0 < d0 /\ forall t, 0 < t < d0 -> insphere_s o3 isp a b c d e =
      Some (sgn (det_list P (fun i => dot (P i) (P i) - t ^ S i) [a; b; c; d; e]))).
  { intros a b c d e Pm. apply insphere_s_correct; auto.
    - eapply Permutation.Permutation_NoDup; eauto.
    - intros i j Hi Hj. apply Inj; eapply Permutation.Permutation_in; try (symmetry; exact Pm); auto. }
  destruct (Go pa pb pc pd pe) as (d1 & P1 & H1); [reflexivity|].
  destruct (Go pb pa pc pd pe) as (d2 & P2 & H2); [constructor|].
  destruct (Go pa pc pb pd pe) as (d3 & P3 & H3); [repeat constructor|].
  destruct (Go pa pb pd pc pe) as (d4 & P4 & H4); [repeat constructor|].
  destruct (Go pa pb pc pe pd) as (d5 & P5 & H5); [repeat constructor|].
  set (m := Rmin d1 (Rmin d2 (Rmin d3 (Rmin d4 d5)))).
  assert (M : 0 < m /\ m <= d1 /\ m <= d2 /\ m <= d3 /\ m <= d4 /\ m <= d5).
  { unfold m. pose proof (Rmin_l d1 (Rmin d2 (Rmin d3 (Rmin d4 d5)))). pose proof (Rmin_r d1 (Rmin d2 (Rmin d3 (Rmin d4 d5)))).
    pose proof (Rmin_l d2 (Rmin d3 (Rmin d4 d5))). pose proof (Rmin_r d2 (Rmin d3 (Rmin d4 d5))).
    pose proof (Rmin_l d3 (Rmin d4 d5)). pose proof (Rmin_r d3 (Rmin d4 d5)). pose proof (Rmin_l d4 d5). pose proof (Rmin_r d4 d5).
    split; [repeat apply Rmin_pos; auto|]. lra. }
  rewrite (H1 (m / 2)), (H2 (m / 2)), (H3 (m / 2)), (H4 (m / 2)), (H5 (m / 2)) by lra.
  eexists. split; [reflexivity|]. rewrite <- sgn_opp. set (w := fun i => dot (P i) (P i) - (m / 2) ^ S i).
  rewrite (det_list_alt P w [] pb pa [pc; pd; pe] : det_list P w [pb; pa; pc; pd; pe] = _).
  rewrite (det_list_alt P w [pa] pc pb [pd; pe] : det_list P w [pa; pc; pb; pd; pe] = _).
  rewrite (det_list_alt P w [pa; pb] pd pc [pe] : det_list P w [pa; pb; pd; pc; pe] = _).
  rewrite (det_list_alt P w [pa; pb; pc] pe pd [] : det_list P w [pa; pb; pc; pe; pd] = _).
  cbn [app]. auto.
Qed.

(** The hypotheses hold for the corners of a cube, where the plain test is zero. *)
Definition cube (i : nat) : vec3 :=
  match i with
  | 0%nat => V3 0 0 0 | 1%nat => V3 1 0 0 | 2%nat => V3 0 1 0 | 3%nat => V3 0 0 1 | 4%nat => V3 1 1 1
  | _ => V3 (INR i) 0 0
  end.
Example C44_cube :
  (forall i j, In i [0; 1; 2; 3; 4]%nat -> In j [0; 1; 2; 3; 4]%nat -> cube i = cube j -> i = j) /\
  insphere_det (cube 0) (cube 1) (cube 2) (cube 3) (cube 4) = 0 /\
  orient3 (cube 0) (cube 1) (cube 2) (cube 3) <> 0 /\
  insphere_s (fun a b c d => sgn (orient3 (cube a) (cube b) (cube c) (cube d)))
    (fun a b c d e => sgn (insphere_det (cube a) (cube b) (cube c) (cube d) (cube e))) 0 1 2 3 4 =
  Some (sgn (orient3 (cube 1) (cube 2) (cube 3) (cube 4))).
Proof.
  assert (Z : insphere_det (cube 0) (cube 1) (cube 2) (cube 3) (cube 4) = 0)
    by (unfold insphere_det, cube; unf; ring).
  split; [|split; [exact Z|split]].
  - intros i j Hi Hj; cbn in Hi, Hj.
    repeat (destruct Hi as [<-|Hi]; [repeat (destruct Hj as [<-|Hj]; [cbn; intros E; auto; exfalso; inversion E; lra|]); destruct Hj|]).
    destruct Hi.
  - unf. cbn. lra.
  - unfold insphere_s. rewrite Z, sgn_zero. cbn [Z.eqb negb bubble_sort bubble Nat.ltb Nat.leb Nat.eqb].
    assert (E : orient3 (cube 1) (cube 2) (cube 3) (cube 4) <> 0) by (unf; cbn; lra).
    destruct (Z.eqb_spec (sgn (orient3 (cube 1) (cube 2) (cube 3) (cube 4))) 0) as [E'|_].
    + apply sgn_zero_inv in E'. contradiction.
    + cbn [Nat.odd Nat.even negb]. rewrite sgn_sgn. reflexivity.
Qed.

Print Assumptions C44_symbolic_perturbation.
Print Assumptions C44_decides.
Print Assumptions C44_alternating.
Print Assumptions C44_sphere.
Print Assumptions C44_determinant.
