(** C49: which edges get a virtual constraint, and which triangle it is. *)
From Coq Require Import Reals Lra Psatz List Arith Bool Lia Permutation Sorted.
From Verif Require Import Lib Geo Dispatch Orient PointTests Prop_Dispatch Prop_PointTests Clip Prop_Clip Virtual.
Import ListNotations.

(** * Specification *)
(** The half-edge [(tid, i)] runs from corner [i] to corner [i + 1] of triangle [tid]. *)
Definition is_half (tris : list tri3) (h : nat * nat) (va vb : nat) : Prop :=
  exists t, nth_error tris (fst h) = Some t /\ (snd h < 3)%nat /\ corner t (snd h) = va /\ corner t (S (snd h)) = vb.
(** It lies on the undirected edge [k]. *)
Definition on_edge (tris : list tri3) (h : nat * nat) (k : key) : Prop :=
  exists va vb, is_half tris h va vb /\ (va = fst k /\ vb = snd k \/ va = snd k /\ vb = fst k) /\ (fst k <= snd k)%nat.
Definition before (a b : nat * nat) : Prop := (fst a < fst b)%nat \/ fst a = fst b /\ (snd a < snd b)%nat.
(** All half-edges on the edge leave the same end. *)
Definition one_way (tris : list tri3) (k : key) : Prop :=
  exists v, forall h va vb, on_edge tris h k -> is_half tris h va vb -> va = v.

(** * The edge map *)
Definition entry (k : key) (H : list (key * (nat * nat))) : list (nat * nat) := map snd (filter (fun x => key_eqb k (fst x)) H).
Definition rep (m : emap) (H : list (key * (nat * nat))) : Prop :=
  NoDup (map fst m) /\ (forall k l, In (k, l) m -> l = entry k H /\ l <> []) /\ (forall k, In k (map fst H) -> In k (map fst m)).
Lemma key_eqb_spec a b : reflect (a = b) (key_eqb a b).
Proof.
  destruct a as (a1 & a2), b as (b1 & b2). unfold key_eqb. cbn.
  destruct (Nat.eqb_spec a1 b1), (Nat.eqb_spec a2 b2); cbn; constructor; congruence.
Qed.
Lemma entry_app k H x h : entry k (H ++ [(x, h)]) = entry k H ++ (if key_eqb k x then [h] else []).
Proof. unfold entry. rewrite filter_app, map_app. cbn. now destruct (key_eqb k x). Qed.
Lemma push_keys m k h : map fst (push_key m k h) = map fst m \/ ~ In k (map fst m) /\ map fst (push_key m k h) = map fst m ++ [k].
Proof.
  induction m as [|(k' & l) t IH]; cbn; [right; split; auto|].
  destruct (key_eqb_spec k k') as [->|N]; cbn; [now left|]. destruct IH as [->|(A & ->)]; [now left|right].
  split; [|reflexivity]. intros [E|E]; [congruence|now apply A].
Qed.
Lemma push_in m k h : NoDup (map fst m) -> forall k' l, In (k', l) (push_key m k h) ->
  (k' <> k /\ In (k', l) m) \/ (k' = k /\ exists l0, In (k, l0) m /\ l = l0 ++ [h]) \/ (k' = k /\ ~ In k (map fst m) /\ l = [h]).
Proof.
  induction m as [|(k1 & l1) t IH]; cbn; intros N k' l Hi.
  - destruct Hi as [E|[]]. injection E as <- <-. right; right; auto.
  - inversion N as [|? ? N1 N2]; subst. destruct (key_eqb_spec k k1) as [->|Nk].
    + destruct Hi as [E|Hi].
      * injection E as <- <-. right; left. split; [reflexivity|]. exists l1. auto.
      * left. split; [|auto]. intros ->. apply N1. apply in_map_iff. exists (k1, l). auto.
    + destruct Hi as [E|Hi].
      * injection E as <- <-. left. split; [congruence|auto].
      * destruct (IH N2 k' l Hi) as [(A & B)|[(A & l0 & B & C)|(A & B & C)]].
        -- left; auto.
        -- right; left. split; [auto|]. exists l0. auto.
        -- right; right. split; [auto|]. split; [|auto]. intros [E|E]; [congruence|now apply B].
Qed.
Lemma push_rep m H k h : rep m H -> rep (push_key m k h) (H ++ [(k, h)]).
Proof.
  intros (N & E & C). split; [|split].
  - destruct (push_keys m k h) as [->|(A & ->)]; [auto|]. eapply Permutation_NoDup; [apply Permutation_cons_append|]. now constructor.
  - intros k' l Hi. destruct (push_in m k h N k' l Hi) as [(A & B)|[(A & l0 & B & D)|(A & B & D)]].
    + destruct (E _ _ B) as (-> & L). split; [|auto]. rewrite entry_app. destruct (key_eqb_spec k' k); [congruence|]. now rewrite app_nil_r.
    + subst. destruct (E _ _ B) as (-> & L). rewrite entry_app. destruct (key_eqb_spec k k); [|congruence]. split; [auto|]. now destruct (entry k H).
    + subst. rewrite entry_app. destruct (key_eqb_spec k k); [|congruence]. split; [|easy].
      unfold entry. replace (filter (fun x => key_eqb k (fst x)) H) with (@nil (key * (nat * nat))); [reflexivity|].
      symmetry. destruct (filter (fun x => key_eqb k (fst x)) H) as [|x r] eqn:F; [reflexivity|exfalso].
      assert (Hx : In x (x :: r)) by now left. rewrite <- F in Hx. apply filter_In in Hx. destruct Hx as (X1 & X2).
      destruct (key_eqb_spec k (fst x)) as [Ek|]; [|easy]. apply B, C. rewrite Ek. now apply in_map.
  - intros k' Hk. rewrite map_app in Hk. apply in_app_iff in Hk. destruct (push_keys m k h) as [Eq|(A & Eq)].
    + rewrite Eq. destruct Hk as [Hk|[<-|[]]]; [auto|]. cbn. rewrite <- Eq. clear. induction m as [|(k1 & l1) t IH]; cbn; [now left|].
      destruct (key_eqb_spec k k1) as [->|]; cbn; auto.
    + rewrite Eq. apply in_app_iff. destruct Hk as [Hk|Hk]; [left; auto|right; exact Hk].
Qed.
(** The half-edges with their keys, in the order the code meets them. *)
Fixpoint keyed (idx : nat) (l : list tri3) : list (key * (nat * nat)) :=
  match l with
  | [] => []
  | (a, b, c) :: r => [(key_of a b, (idx, 0)); (key_of b c, (idx, 1)); (key_of c a, (idx, 2))] ++ keyed (S idx) r
  end%nat.
Lemma rep_tris l : forall m idx H, rep m H -> rep (push_tris m idx l) (H ++ keyed idx l).
Proof.
  induction l as [|((a & b) & c) r IH]; intros m idx H Hr; [cbn; now rewrite app_nil_r|].
  cbn [push_tris keyed push_tri]. rewrite app_assoc. apply IH.
  change [(key_of a b, (idx, 0%nat)); (key_of b c, (idx, 1%nat)); (key_of c a, (idx, 2%nat))] with ([(key_of a b, (idx, 0%nat))] ++ [(key_of b c, (idx, 1%nat))] ++ [(key_of c a, (idx, 2%nat))]).
  rewrite !app_assoc. repeat apply push_rep. exact Hr.
Qed.
Lemma rep_edges tris : rep (edge_map tris) (keyed 0 tris).
Proof. apply (rep_tris tris [] 0%nat []). split; [constructor|split; [intros ? ? []|intros ? []]]. Qed.
Lemma keyed_in l : forall idx k h, In (k, h) (keyed idx l) <->
  exists t, nth_error l (fst h - idx) = Some t /\ (idx <= fst h)%nat /\ (snd h < 3)%nat /\ k = key_of (corner t (snd h)) (corner t (S (snd h))).
Proof.
  induction l as [|((a & b) & c) r IH]; intros idx k (tid & i).
  - cbn. split; [easy|]. intros (t & E & _). now destruct (tid - idx)%nat.
  - cbn [keyed fst snd]. rewrite in_app_iff, IH. cbn [fst snd]. split.
    + intros [[E|[E|[E|[]]]]|(t & A & B & C & D)].
      1-3: injection E as <- <- <-; exists (a, b, c); rewrite Nat.sub_diag; repeat split; auto; lia.
      exists t. replace (tid - idx)%nat with (S (tid - S idx)) by lia. repeat split; auto; lia.
    + intros (t & A & B & C & D). destruct (Nat.eq_dec tid idx) as [->|N].
      * left. rewrite Nat.sub_diag in A. injection A as <-. subst k. destruct i as [|[|[|i]]]; [| | |lia]; cbn; auto.
      * right. exists t. replace (tid - idx)%nat with (S (tid - S idx)) in A by lia. repeat split; auto; lia.
Qed.
Lemma keyed_sorted l : forall idx, StronglySorted before (map snd (keyed idx l)) /\ forall h, In h (map snd (keyed idx l)) -> (idx <= fst h)%nat.
Proof.
  induction l as [|((a & b) & c) r IH]; intros idx; [cbn; split; [constructor|easy]|].
  destruct (IH (S idx)) as (A & B). cbn [keyed app map snd]. unfold before in *. split.
  - assert (Fa : forall i, Forall (fun h => (idx < fst h \/ idx = fst h /\ i < snd h)%nat) (map snd (keyed (S idx) r))).
    { intros i. apply Forall_forall. intros h Hh. specialize (B h Hh). lia. }
    apply SSorted_cons; [apply SSorted_cons; [apply SSorted_cons; [exact A|apply Fa]|]|].
    + apply Forall_cons; [cbn; lia|apply Fa].
    + apply Forall_cons; [cbn; lia|apply Forall_cons; [cbn; lia|apply Fa]].
  - intros h [<-|[<-|[<-|Hh]]]; cbn; try lia. specialize (B h Hh). lia.
Qed.
Lemma filter_sorted {A} (R : A -> A -> Prop) {B} (g : B -> A) (f : B -> bool) l : StronglySorted R (map g l) -> StronglySorted R (map g (filter f l)).
Proof.
  induction l as [|x t IH]; cbn; [auto|]. intros S. inversion S as [|? ? S1 S2]; subst. destruct (f x); cbn; [constructor|]; auto.
  rewrite Forall_forall in *. intros y Hy. apply S2. apply in_map_iff in Hy. destruct Hy as (z & <- & Hz). apply in_map. apply filter_In in Hz. tauto.
Qed.
Lemma key_of_spec k va vb : k = key_of va vb <-> (va = fst k /\ vb = snd k \/ va = snd k /\ vb = fst k) /\ (fst k <= snd k)%nat.
Proof.
  destruct k as (x & y). unfold key_of. cbn [fst snd]. destruct (Nat.ltb_spec va vb); split.
  - intros E; injection E as -> ->. lia.
  - intros ([(-> & ->)|(-> & ->)] & L); [reflexivity|lia].
  - intros E; injection E as -> ->. lia.
  - intros ([(-> & ->)|(-> & ->)] & L); [|reflexivity]. f_equal; lia.
Qed.
Lemma keyed_edge tris k h : In (k, h) (keyed 0 tris) <-> on_edge tris h k.
Proof.
  rewrite keyed_in, Nat.sub_0_r. unfold on_edge, is_half. split.
  - intros (t & A & _ & B & C). exists (corner t (snd h)), (corner t (S (snd h))). apply key_of_spec in C. destruct C. split; [|tauto]. exists t. auto.
  - intros (va & vb & (t & A & B & C & D) & E). exists t. split; [auto|]. split; [lia|]. split; [auto|]. subst va vb. apply key_of_spec. exact E.
Qed.
Lemma entry_in tris k h : In h (entry k (keyed 0 tris)) <-> on_edge tris h k.
Proof.
  unfold entry. rewrite in_map_iff, <- keyed_edge. split.
  - intros ((k' & h') & <- & Hi). apply filter_In in Hi. destruct Hi as (Hi & E). cbn in E. destruct (key_eqb_spec k k'); [|easy]. now subst.
  - intros Hi. exists (k, h). split; [reflexivity|]. apply filter_In. split; [auto|]. cbn. now destruct (key_eqb_spec k k).
Qed.
(** The map has one list for every edge of the soup, and it holds exactly the
    half-edges on that edge, each once, in the order of the soup. *)
Theorem C49_edge_map tris :
  NoDup (map fst (edge_map tris)) /\
  (forall k, In k (map fst (edge_map tris)) <-> exists h, on_edge tris h k) /\
  (forall k l, In (k, l) (edge_map tris) -> StronglySorted before l /\ forall h, In h l <-> on_edge tris h k).
Proof.
  destruct (rep_edges tris) as (N & E & C). split; [auto|]. split.
  - intros k. split.
    + intros Hk. apply in_map_iff in Hk. destruct Hk as ((k' & l) & <- & Hi). cbn. destruct (E _ _ Hi) as (-> & L).
      destruct (entry k' (keyed 0 tris)) as [|h r] eqn:F; [easy|]. exists h. apply entry_in. rewrite F. now left.
    + intros (h & Hh). apply C. apply in_map_iff. exists (k, h). split; [reflexivity|]. now apply keyed_edge.
  - intros k l Hi. destruct (E _ _ Hi) as (-> & L). split; [|intros; apply entry_in].
    unfold entry. apply filter_sorted. apply keyed_sorted.
Qed.

(** * The decision *)
Local Open Scope R_scope.
Lemma corner_mod t i : corner t (i mod 3) = corner t i.
Proof. destruct t as ((a & b) & c). unfold corner. now rewrite Nat.mod_mod. Qed.
Lemma corner_in t i : let '(a, b, c) := t in corner t i = a \/ corner t i = b \/ corner t i = c.
Proof. destruct t as ((a & b) & c). cbn [corner]. destruct (i mod 3)%nat as [|[|n]]; auto. Qed.
Lemma three i : (i < 3)%nat -> (i = 0 \/ i = 1 \/ i = 2)%nat. Proof. lia. Qed.

Section Dec.
Variable (pos : nat -> vec3) (axis_of : tri3 -> nat) (p2t_data : nat -> option (nat * nat * nat * nat)).

(** The axis keeps the triangle an area (C37). *)
Definition axis_good (t : tri3) : Prop := let '(a, b, c) := t in Prop_Dispatch.o2 (axis_of t) (pos a) (pos b) (pos c) <> 0.
(** p2t gives a tetrahedron with a volume. *)
Definition tet_good (d : nat * nat * nat * nat) : Prop := let '(a, b, c, e) := d in orient3 (pos a) (pos b) (pos c) (pos e) <> 0.

Lemma coplanar_corner t i : coplanar pos (corner t i) t = true.
Proof.
  pose proof (corner_in t i) as C. destruct t as ((a & b) & c). unfold coplanar, s3. apply ori_eqb_zero.
  destruct C as [->|[->| ->]]; geo; ring.
Qed.
Lemma coplanar_zero a t : coplanar pos a t = true <-> (let '(x, y, z) := t in orient3 (pos a) (pos x) (pos y) (pos z) = 0).
Proof. destruct t as ((x & y) & z). apply ori_eqb_zero. Qed.
Lemma all_coplanar_true tris k va vb hs : (va = fst k /\ vb = snd k \/ va = snd k /\ vb = fst k) ->
  (forall h, In h hs -> on_edge tris h k) -> all_coplanar pos tris va hs = Some true.
Proof.
  intros K. induction hs as [|(tid & i) r IH]; intros A; [reflexivity|]. cbn [all_coplanar].
  destruct (A (tid, i)) as (a & b & (t & T & L & C1 & C2) & D & _); [now left|]. cbn [fst snd] in *. rewrite T.
  assert (E : va = corner t i \/ va = corner t (S i)). { destruct K as [(-> & ->)|(-> & ->)], D as [(D1 & D2)|(D1 & D2)]; subst; auto. }
  assert (Q : coplanar pos va t = true) by (destruct E as [->| ->]; apply coplanar_corner). rewrite Q. apply IH. intros; apply A; now right.
Qed.
Lemma area_rot t i : axis_good t -> (i < 3)%nat -> Prop_Dispatch.o2 (axis_of t) (pos (corner t (i + 1))) (pos (corner t (i + 2))) (pos (corner t i)) <> 0.
Proof.
  destruct t as ((a & b) & c). unfold axis_good. intros G L.
  assert (E : forall ax x y z, Prop_Dispatch.o2 ax x y z = Prop_Dispatch.o2 ax y z x).
  { intros. unfold Prop_Dispatch.o2, orient2. ring. }
  destruct (three i L) as [->|[->| ->]]; cbn [corner Nat.add Nat.modulo Nat.divmod fst snd Nat.sub].
  - now rewrite <- E.
  - now rewrite <- E, <- E.
  - exact G.
Qed.
Lemma same_side_iff tris t0 i0 k : axis_good t0 -> (i0 < 3)%nat ->
  (corner t0 i0 = fst k /\ corner t0 (S i0) = snd k \/ corner t0 i0 = snd k /\ corner t0 (S i0) = fst k) ->
  forall hs, (forall h, In h hs -> on_edge tris h k) ->
  exists b, all_same_side pos tris (axis_of t0) (corner t0 (i0 + 1)) (corner t0 (i0 + 2))
    (ori2 pos (axis_of t0) (corner t0 (i0 + 1)) (corner t0 (i0 + 2)) (corner t0 i0)) hs = Some b /\
  (b = true <-> forall h va vb, In h hs -> is_half tris h va vb -> va = corner t0 i0).
Proof.
  intros G L K. assert (Z := area_rot t0 i0 G L). induction hs as [|(tid & i) r IH]; intros A.
  { exists true. split; [reflexivity|]. split; [intros _ h va vb []|auto]. }
  destruct IH as (b & Eb & Hb); [intros; apply A; now right|]. cbn [all_same_side].
  destruct (A (tid, i)) as (a & b' & (t & T & Li & C1 & C2) & D & _); [now left|]. cbn [fst snd] in *. rewrite T.
  assert (S0 : forall va vb, is_half tris (tid, i) va vb -> va = corner t i). { intros va vb (t' & T' & _ & <- & _). cbn in *. congruence. }
  destruct (Nat.eq_dec (corner t i) (corner t0 i0)) as [Es|Ns].
  - rewrite Es. destruct (ori_eqb_spec (ori2 pos (axis_of t0) (corner t0 (i0 + 1)) (corner t0 (i0 + 2)) (corner t0 i0)) (ori2 pos (axis_of t0) (corner t0 (i0 + 1)) (corner t0 (i0 + 2)) (corner t0 i0))); [|congruence].
    exists b. split; [exact Eb|]. rewrite Hb. split.
    + intros H h va vb [<-|Hi] Hh; [rewrite (S0 _ _ Hh); exact Es|now apply (H h va vb)].
    + intros H h va vb Hi. apply H. now right.
  - assert (Es : corner t i = corner t0 (i0 + 1)). { rewrite Nat.add_1_r. destruct K as [(K1 & K2)|(K1 & K2)], D as [(D1 & D2)|(D1 & D2)]; congruence. }
    rewrite Es. unfold ori2 at 1. replace (Prop_Dispatch.o2 (axis_of t0) (pos (corner t0 (i0 + 1))) (pos (corner t0 (i0 + 2))) (pos (corner t0 (i0 + 1)))) with 0 by (unfold Prop_Dispatch.o2, orient2; ring).
    rewrite ori_zero. destruct (ori_eqb_spec Zero (ori2 pos (axis_of t0) (corner t0 (i0 + 1)) (corner t0 (i0 + 2)) (corner t0 i0))) as [X|X].
    { symmetry in X. apply ori_eq_zero in X. contradiction. }
    exists false. split; [reflexivity|]. split; [easy|]. intros H. exfalso. apply Ns.
    apply (H (tid, i) (corner t i) (corner t (S i))); [now left|]. exists t. auto.
Qed.
Lemma nrm_area a b c ax : Prop_Dispatch.o2 ax a b c <> 0 -> nrm a b c <> vzero.
Proof.
  intros H E. apply H. unfold nrm, cross, vsub, vzero in E. cbn [vx vy vz] in E. injection E as E1 E2 E3. unfold Prop_Dispatch.o2, orient2, proj.
  destruct ax as [|[|n]]; cbn [fst snd]; lra.
Qed.
Lemma four_coplanar n u v w : n <> vzero -> dot n u = 0 -> dot n v = 0 -> dot n w = 0 -> det3 u v w = 0.
Proof.
  intros N U V W. destruct n as [n1 n2 n3], u as [u1 u2 u3], v as [v1 v2 v3], w as [w1 w2 w3].
  unfold dot in U, V, W. unfold det3, dot, cross. cbn [vx vy vz] in *.
  set (D := u1 * (v2 * w3 - v3 * w2) + u2 * (v3 * w1 - v1 * w3) + u3 * (v1 * w2 - v2 * w1)).
  assert (D * n1 = 0). { transitivity ((n1*u1+n2*u2+n3*u3) * (v2*w3-v3*w2) + (n1*v1+n2*v2+n3*v3) * (w2*u3-w3*u2) + (n1*w1+n2*w2+n3*w3) * (u2*v3-u3*v2)); [unfold D; ring|rewrite U, V, W; ring]. }
  assert (D * n2 = 0). { transitivity ((n1*u1+n2*u2+n3*u3) * (v3*w1-v1*w3) + (n1*v1+n2*v2+n3*v3) * (w3*u1-w1*u3) + (n1*w1+n2*w2+n3*w3) * (u3*v1-u1*v3)); [unfold D; ring|rewrite U, V, W; ring]. }
  assert (D * n3 = 0). { transitivity ((n1*u1+n2*u2+n3*u3) * (v1*w2-v2*w1) + (n1*v1+n2*v2+n3*v3) * (w1*u2-w2*u1) + (n1*w1+n2*w2+n3*w3) * (u1*v2-u2*v1)); [unfold D; ring|rewrite U, V, W; ring]. }
  destruct (Req_dec D 0) as [|Nd]; [auto|]. exfalso. apply N. unfold vzero. f_equal; (apply Rmult_integral in H; apply Rmult_integral in H0; apply Rmult_integral in H1; tauto).
Qed.
(** The apex chosen lies off the plane of the triangle. *)
Lemma apex_off d t : axis_good t -> tet_good d -> coplanar pos (choose_apex pos d t) t = false.
Proof.
  intros G Td. destruct (coplanar pos (choose_apex pos d t) t) eqn:E; [exfalso|reflexivity].
  destruct d as (((d0 & d1) & d2) & d3). cbn [choose_apex] in E.
  assert (B : forall x, bad_apex pos x t = true -> coplanar pos x t = true).
  { intros x. destruct t as ((a & b) & c). unfold bad_apex. rewrite !orb_true_iff, !Nat.eqb_eq. intros [[[->| ->]| ->]|]; auto.
    - exact (coplanar_corner (a, b, c) 0).
    - exact (coplanar_corner (a, b, c) 1).
    - exact (coplanar_corner (a, b, c) 2). }
  assert (NB : forall x, bad_apex pos x t = false -> coplanar pos x t = true -> False).
  { intros x. destruct t as ((a & b) & c). unfold bad_apex. rewrite !orb_false_iff. intros (_ & ->). easy. }
  destruct (bad_apex pos d0 t) eqn:B0; [|eauto]. destruct (bad_apex pos d1 t) eqn:B1; [|eauto]. destruct (bad_apex pos d2 t) eqn:B2; [|eauto].
  apply B in B0, B1, B2. destruct t as ((a & b) & c). cbn beta iota in G. pose proof (nrm_area _ _ _ _ G) as N.
  apply (coplanar_zero d0 (a, b, c)) in B0. apply (coplanar_zero d1 (a, b, c)) in B1. apply (coplanar_zero d2 (a, b, c)) in B2. apply (coplanar_zero d3 (a, b, c)) in E.
  assert (Q : forall x, orient3 x (pos a) (pos b) (pos c) = 0 -> dot (nrm (pos a) (pos b) (pos c)) (vsub x (pos a)) = 0).
  { intros x H. rewrite <- H. unfold nrm. geo. ring. }
  apply Q in B0, B1, B2, E. apply Td. unfold orient3. apply (four_coplanar _ _ _ _ N).
  - replace (dot (nrm (pos a) (pos b) (pos c)) (vsub (pos d0) (pos d3))) with (dot (nrm (pos a) (pos b) (pos c)) (vsub (pos d0) (pos a)) - dot (nrm (pos a) (pos b) (pos c)) (vsub (pos d3) (pos a))); [lra|unfold dot, vsub; cbn [vx vy vz]; ring].
  - replace (dot (nrm (pos a) (pos b) (pos c)) (vsub (pos d1) (pos d3))) with (dot (nrm (pos a) (pos b) (pos c)) (vsub (pos d1) (pos a)) - dot (nrm (pos a) (pos b) (pos c)) (vsub (pos d3) (pos a))); [lra|unfold dot, vsub; cbn [vx vy vz]; ring].
  - replace (dot (nrm (pos a) (pos b) (pos c)) (vsub (pos d2) (pos d3))) with (dot (nrm (pos a) (pos b) (pos c)) (vsub (pos d2) (pos a)) - dot (nrm (pos a) (pos b) (pos c)) (vsub (pos d3) (pos a))); [lra|unfold dot, vsub; cbn [vx vy vz]; ring].
Qed.

(** What one edge contributes. *)
Definition made_for (tris : list tri3) (k : key) (c : tri3) : Prop :=
  exists tid i t x, on_edge tris (tid, i) k /\ nth_error tris tid = Some t /\
    c = (corner t (i + 1), corner t (i + 2), x) /\ coplanar pos x t = false /\
    ~ on_plane (pos (corner t (i + 1))) (pos (corner t (i + 2))) (pos x) (pos (corner t i)).
Lemma off_plane t i x : (i < 3)%nat -> coplanar pos x t = false -> ~ on_plane (pos (corner t (i + 1))) (pos (corner t (i + 2))) (pos x) (pos (corner t i)).
Proof.
  intros L C H. assert (coplanar pos x t = true); [|congruence]. destruct t as ((a & b) & c). apply (coplanar_zero x (a, b, c)). unfold on_plane in H.
  destruct (three i L) as [->|[->| ->]]; cbn [corner Nat.add Nat.modulo Nat.divmod fst snd Nat.sub] in H; revert H; geo; intros; lra.
Qed.
Lemma decision tris k l : (forall h, In h l <-> on_edge tris h k) -> l <> [] ->
  (forall t, In t tris -> axis_good t) -> (forall t, In t tris -> exists d, p2t_data (corner t 0) = Some d /\ tet_good d) ->
  exists new, add_virtual_constraint pos axis_of p2t_data tris l = Some new /\
    ((new = [] /\ ~ one_way tris k) \/ (one_way tris k /\ exists c, new = [c] /\ made_for tris k c)).
Proof.
  intros Hl Ne G P. destruct l as [|(tid & i) rest]; [easy|]. cbn [add_virtual_constraint].
  assert (H0 : on_edge tris (tid, i) k) by (apply Hl; now left).
  destruct H0 as (va & vb & (t & T & L & C1 & C2) & K & O). cbn [fst snd] in *. rewrite T.
  assert (Gt : axis_good t) by (apply G; eapply nth_error_In; eauto).
  assert (Hr : forall h, In h rest -> on_edge tris h k) by (intros; apply Hl; now right).
  rewrite (all_coplanar_true tris k (corner t i) (corner t (S i)) rest); [|rewrite C1, C2; exact K|exact Hr]. cbn [negb].
  rewrite <- C1, <- C2 in K. destruct (same_side_iff tris t i k Gt L K rest Hr) as (b & Eb & Hb).
  destruct (P t) as (d & Pd & Td); [eapply nth_error_In; eauto|].
  assert (Here : forall a b, is_half tris (tid, i) a b -> a = corner t i). { intros a b' (t' & T' & _ & <- & _). cbn in *. congruence. }
  assert (OW : one_way tris k <-> b = true).
  { rewrite Hb. split.
    - intros (v & V) h a b' Hi Hh. rewrite (V h a b' (Hr h Hi) Hh). symmetry. apply (V (tid, i) _ (corner t (S i))).
      + apply Hl. now left.
      + exists t. auto.
    - intros V. exists (corner t i). intros h a b' Hh Hf. apply Hl in Hh. destruct Hh as [<-|Hi]; [eapply Here; eauto|eapply V; eauto]. }
  assert (Made : exists c, [(corner t (i + 1), corner t (i + 2), choose_apex pos d t)] = [c] /\ made_for tris k c).
  { eexists. split; [reflexivity|]. exists tid, i, t, (choose_apex pos d t). pose proof (apex_off d t Gt Td). repeat split; auto.
    - apply Hl. now left.
    - now apply off_plane. }
  destruct rest as [|h r].
  - cbn in Eb. injection Eb as <-. cbn [length Nat.ltb Nat.leb negb]. rewrite Pd. eexists. split; [reflexivity|]. right. split; [now apply OW|exact Made].
  - replace (1 <? length ((tid, i) :: h :: r))%nat with true by reflexivity. rewrite Eb.
    destruct b; cbn [negb].
    + rewrite Pd. eexists. split; [reflexivity|]. right. split; [now apply OW|exact Made].
    + eexists. split; [reflexivity|]. left. split; [reflexivity|]. intros H. apply OW in H. easy.
Qed.
(** Triangles already pushed do not matter to the edges still to come. *)
Lemma coplanar_ext tris more apex hs : (forall h, In h hs -> (fst h < length tris)%nat) -> all_coplanar pos (tris ++ more) apex hs = all_coplanar pos tris apex hs.
Proof.
  induction hs as [|(tid & i) r IH]; intros A; [reflexivity|]. cbn [all_coplanar]. rewrite nth_error_app1 by (apply (A (tid, i)); now left).
  destruct (nth_error tris tid); [|reflexivity]. destruct coplanar; [|reflexivity]. apply IH. intros; apply A; now right.
Qed.
Lemma same_side_ext tris more ax pa pb base hs : (forall h, In h hs -> (fst h < length tris)%nat) -> all_same_side pos (tris ++ more) ax pa pb base hs = all_same_side pos tris ax pa pb base hs.
Proof.
  induction hs as [|(tid & i) r IH]; intros A; [reflexivity|]. cbn [all_same_side]. rewrite nth_error_app1 by (apply (A (tid, i)); now left).
  destruct (nth_error tris tid); [|reflexivity]. destruct ori_eqb; [|reflexivity]. apply IH. intros; apply A; now right.
Qed.
Lemma add_ext tris more hs : (forall h, In h hs -> (fst h < length tris)%nat) -> add_virtual_constraint pos axis_of p2t_data (tris ++ more) hs = add_virtual_constraint pos axis_of p2t_data tris hs.
Proof.
  intros A. destruct hs as [|(tid & i) rest]; [reflexivity|]. cbn [add_virtual_constraint]. rewrite nth_error_app1 by (apply (A (tid, i)); now left).
  destruct (nth_error tris tid) as [t|]; [|reflexivity]. rewrite coplanar_ext by (intros; apply A; now right). destruct all_coplanar as [b|]; [|reflexivity].
  destruct (negb b); [reflexivity|]. now rewrite same_side_ext by (intros; apply A; now right).
Qed.
Lemma add_all_spec tris : (forall t, In t tris -> axis_good t) -> (forall t, In t tris -> exists d, p2t_data (corner t 0) = Some d /\ tet_good d) ->
  forall m more, (forall k l, In (k, l) m -> l <> [] /\ forall h, In h l <-> on_edge tris h k) ->
  exists adds, add_all pos axis_of p2t_data (tris ++ more) (map snd m) = Some (tris ++ more ++ map snd adds) /\
    (NoDup (map fst m) -> NoDup (map fst adds)) /\
    (forall k, In k (map fst adds) <-> In k (map fst m) /\ one_way tris k) /\
    (forall k c, In (k, c) adds -> made_for tris k c).
Proof.
  intros G P. induction m as [|(k & l) r IH]; intros more Hm.
  - exists []. cbn. rewrite app_nil_r. repeat split; easy.
  - cbn [map snd add_all]. destruct (Hm k l) as (Ne & Hl); [now left|].
    rewrite add_ext. 2: { intros h Hh. apply Hl in Hh. destruct Hh as (? & ? & (t & T & _) & _). apply nth_error_Some. congruence. }
    destruct (decision tris k l Hl Ne G P) as (new & -> & D). rewrite <- app_assoc.
    destruct (IH (more ++ new)) as (adds & E & N & K & M); [intros; apply Hm; now right|]. rewrite E.
    destruct D as [(-> & W)|(W & c & -> & Md)].
    + exists adds. rewrite app_nil_r. split; [reflexivity|]. split; [|split; [|exact M]].
      * intros ND. inversion ND; auto.
      * intros k'. rewrite K. cbn. split; [tauto|]. intros ([<-|Q] & Q2); [contradiction|tauto].
    + exists ((k, c) :: adds). split; [cbn; now rewrite <- !app_assoc|]. split; [|split].
      * intros ND. inversion ND as [|? ? N1 N2]; subst. cbn. constructor; [|auto]. intros Q. apply K in Q. now apply N1.
      * intros k'. cbn. rewrite K. split; [intros [<-|]; tauto|]. intros ([<-|Q] & Q2); tauto.
      * intros k' c' [Q|Q]; [injection Q as <- <-; exact Md|eauto].
Qed.
(** The call never fails; it keeps the triangles and appends exactly one
    triangle for every edge all of whose half-edges leave the same end,
    whatever the geometry.  That triangle holds the other two corners of a
    triangle of the edge, and its plane misses an end of the edge itself. *)
Theorem C49_placed_partial walk tris : (forall m, Permutation (walk m) m) ->
  (forall t, In t tris -> axis_good t) -> (forall t, In t tris -> exists d, p2t_data (corner t 0) = Some d /\ tet_good d) ->
  exists adds : list (key * tri3), place_virtual_constraints pos axis_of p2t_data walk tris = Some (tris ++ map snd adds) /\
    NoDup (map fst adds) /\
    (forall k, In k (map fst adds) <-> (exists h, on_edge tris h k) /\ one_way tris k) /\
    (forall k c, In (k, c) adds -> made_for tris k c).
Proof.
  intros Wk G P. destruct (C49_edge_map tris) as (N & K & E). unfold place_virtual_constraints.
  destruct (rep_edges tris) as (_ & E' & _).
  destruct (add_all_spec tris G P (walk (edge_map tris)) []) as (adds & R & R1 & R2 & R3).
  { intros k l Hi. apply (Permutation_in _ (Wk _)) in Hi. split; [exact (proj2 (E' _ _ Hi))|exact (proj2 (E _ _ Hi))]. }
  exists adds. rewrite app_nil_r in R. split; [exact R|]. split; [|split; [|exact R3]].
  - apply R1. eapply Permutation_NoDup; [|exact N]. apply Permutation_map. symmetry. apply Wk.
  - intros k. rewrite R2, <- K. assert (In k (map fst (walk (edge_map tris))) <-> In k (map fst (edge_map tris))); [|tauto].
    split; apply Permutation_in; apply Permutation_map; [|symmetry]; apply Wk.
Qed.
End Dec.

(** * What the constraints are for *)
(** An edge needs support when all triangles at it lie in one plane and on one
    side of it. *)
Definition needs_support (pos : nat -> vec3) (tris : list tri3) (k : key) : Prop :=
  (exists h, on_edge tris h k) /\
  forall h h' t t', on_edge tris h k -> on_edge tris h' k -> nth_error tris (fst h) = Some t -> nth_error tris (fst h') = Some t' ->
  let p := pos (fst k) in let e := vsub (pos (snd k)) p in
  let n := cross e (vsub (pos (corner t (snd h + 2))) p) in
  let n' := cross e (vsub (pos (corner t' (snd h' + 2))) p) in
  cross n n' = vzero /\ 0 < dot n n'.
(** It has support when an appended triangle holds both its ends. *)
Definition supported (tris out : list tri3) (k : key) : Prop :=
  exists c, In c (skipn (length tris) out) /\ (exists i, corner c i = fst k) /\ (exists j, corner c j = snd k).

Definition sq_pos (v : nat) : vec3 :=
  match v with 0 => V3 0 0 0 | 1 => V3 1 0 0 | 2 => V3 0 1 0 | 3 => V3 1 (-1) 0 | _ => V3 0 0 1 end%nat.
Definition sq : list tri3 := [(0, 1, 2); (1, 0, 3)]%nat.
Definition sq_tet (v : nat) : option (nat * nat * nat * nat) := Some (0, 1, 2, 4)%nat.
Lemma sq_axis t : In t sq -> axis_good sq_pos (fun _ => 2%nat) t.
Proof. intros [<-|[<-|[]]]; unfold axis_good, Prop_Dispatch.o2, orient2, proj; cbn; lra. Qed.
Lemma sq_tets t : In t sq -> exists d, sq_tet (corner t 0) = Some d /\ tet_good sq_pos d.
Proof. intros _. eexists. split; [reflexivity|]. unfold tet_good, orient3, det3, dot, cross, vsub. cbn. lra. Qed.
Ltac half t := exists t; cbn; repeat split; auto; lia.
Lemma sq_half h va vb : is_half sq h va vb -> h = (0, 0)%nat /\ va = 0%nat /\ vb = 1%nat \/ h = (0, 1)%nat /\ va = 1%nat /\ vb = 2%nat \/ h = (0, 2)%nat /\ va = 2%nat /\ vb = 0%nat \/
  h = (1, 0)%nat /\ va = 1%nat /\ vb = 0%nat \/ h = (1, 1)%nat /\ va = 0%nat /\ vb = 3%nat \/ h = (1, 2)%nat /\ va = 3%nat /\ vb = 1%nat.
Proof.
  destruct h as (tid & i). intros (t & T & L & A & B). cbn [fst snd] in *.
  destruct tid as [|[|tid]]; [| |now destruct tid]; cbn in T; injection T as <-; destruct (three i L) as [->|[->| ->]]; cbn in A, B; subst; tauto.
Qed.
Lemma sq_edge h k : on_edge sq h k -> h = (0, 0)%nat /\ k = (0, 1)%nat \/ h = (0, 1)%nat /\ k = (1, 2)%nat \/ h = (0, 2)%nat /\ k = (0, 2)%nat \/
  h = (1, 0)%nat /\ k = (0, 1)%nat \/ h = (1, 1)%nat /\ k = (0, 3)%nat \/ h = (1, 2)%nat /\ k = (1, 3)%nat.
Proof.
  destruct k as (x & y). intros (va & vb & H & K & L). cbn [fst snd] in *. apply sq_half in H.
  destruct H as [(-> & -> & ->)|[(-> & -> & ->)|[(-> & -> & ->)|[(-> & -> & ->)|[(-> & -> & ->)|(-> & -> & ->)]]]]]; destruct K as [(<- & <-)|(<- & <-)]; try lia; tauto.
Qed.
Lemma sq_twoway : ~ one_way sq (0, 1)%nat.
Proof.
  intros (v & V). assert (A : is_half sq (0, 0)%nat 0 1) by (half (0, 1, 2)%nat). assert (B : is_half sq (1, 0)%nat 1 0) by (half (1, 0, 3)%nat).
  assert (0 = v)%nat by (apply (V (0, 0)%nat 0%nat 1%nat); [exists 0%nat, 1%nat; split; [exact A|cbn; lia]|exact A]). assert (1 = v)%nat by (apply (V (1, 0)%nat 1%nat 0%nat); [exists 1%nat, 0%nat; split; [exact B|cbn; lia]|exact B]). lia.
Qed.
(** Two triangles making a flat square: the boundary edge (1, 2) needs support
    and gets none, the inner edge (0, 1) does not need it and gets it. *)
Theorem C49_support_refuted : exists out,
  place_virtual_constraints sq_pos (fun _ => 2%nat) sq_tet (fun m => m) sq = Some out /\
  needs_support sq_pos sq (1, 2)%nat /\ ~ supported sq out (1, 2)%nat /\
  ~ needs_support sq_pos sq (0, 1)%nat /\ supported sq out (0, 1)%nat.
Proof.
  destruct (C49_placed_partial sq_pos (fun _ => 2%nat) sq_tet (fun m => m) sq (fun m => Permutation_refl m) sq_axis sq_tets) as (adds & E & _ & K & M).
  exists (sq ++ map snd adds). split; [exact E|]. split; [|split; [|split]].
  - split; [exists (0, 1)%nat, 1%nat, 2%nat; split; [half (0, 1, 2)%nat|cbn; lia]|].
    intros h h' t t' H H' T T'. apply sq_edge in H, H'.
    assert (h = (0, 1)%nat) by (destruct H as [(_ & Q)|[(-> & _)|[(_ & Q)|[(_ & Q)|[(_ & Q)|(_ & Q)]]]]]; congruence).
    assert (h' = (0, 1)%nat) by (destruct H' as [(_ & Q)|[(-> & _)|[(_ & Q)|[(_ & Q)|[(_ & Q)|(_ & Q)]]]]]; congruence).
    subst. cbn in T, T'. injection T as <-. injection T' as <-. cbn. split; [unfold cross, vsub, vzero; cbn; f_equal; ring|unfold dot, cross, vsub; cbn; lra].
  - intros (c & Hc & (i & I) & (j & J)). rewrite skipn_app, skipn_all, Nat.sub_diag in Hc. cbn in Hc. apply in_map_iff in Hc. destruct Hc as ((k & c') & Ec & Hc). cbn in Ec. subst c'.
    destruct (M _ _ Hc) as (tid & ii & t & x & Oe & T & -> & Nc & _).
    assert (W : one_way sq k). { apply (proj1 (K k)). apply in_map_iff. exists (k, (corner t (ii + 1), corner t (ii + 2), x)). auto. }
    cbn [fst snd] in I, J. pose proof (corner_in (corner t (ii + 1), corner t (ii + 2), x) i) as Ci. pose proof (corner_in (corner t (ii + 1), corner t (ii + 2), x) j) as Cj.
    cbv beta iota in Ci, Cj. rewrite I in Ci. rewrite J in Cj.
    assert (X : x <> 0%nat /\ x <> 1%nat /\ x <> 2%nat).
    { assert (Z : forall v, (v = 0 \/ v = 1 \/ v = 2)%nat -> coplanar sq_pos v t = true).
      { intros v Hv. apply coplanar_zero. apply sq_edge in Oe.
        assert (Ht : t = (0, 1, 2)%nat \/ t = (1, 0, 3)%nat). { apply nth_error_In in T. destruct T as [<-|[<-|[]]]; auto. }
        destruct Ht as [-> | ->]; destruct Hv as [->|[->| ->]]; unfold orient3, det3, dot, cross, vsub; cbn; ring. }
      repeat split; intros ->; rewrite Z in Nc by auto; easy. }
    apply sq_edge in Oe. destruct Oe as [(H & Hk)|[(H & Hk)|[(H & Hk)|[(H & Hk)|[(H & Hk)|(H & Hk)]]]]]; subst k; injection H as -> ->; cbn in T; injection T as <-; cbn in Ci, Cj; try (now apply sq_twoway in W); lia.
  - intros (_ & Q). specialize (Q (0, 0)%nat (1, 0)%nat (0, 1, 2)%nat (1, 0, 3)%nat).
    destruct Q as (_ & Q); try reflexivity.
    + exists 0%nat, 1%nat. split; [half (0, 1, 2)%nat|cbn; lia].
    + exists 1%nat, 0%nat. split; [half (1, 0, 3)%nat|cbn; lia].
    + revert Q. unfold dot, cross, vsub. cbn. lra.
  - assert (W : In (0, 2)%nat (map fst adds)).
    { apply K. split; [exists (0, 2)%nat, 2%nat, 0%nat; split; [half (0, 1, 2)%nat|cbn; lia]|].
      exists 2%nat. intros h va vb H Hh. apply sq_edge in H. assert (h = (0, 2)%nat) by (destruct H as [(_ & Q)|[(_ & Q)|[(-> & _)|[(_ & Q)|[(_ & Q)|(_ & Q)]]]]]; congruence). subst.
      apply sq_half in Hh. destruct Hh as [(Q & _)|[(Q & _)|[(_ & -> & _)|[(Q & _)|[(Q & _)|(Q & _)]]]]]; congruence. }
    apply in_map_iff in W. destruct W as ((k & c) & Ek & Hc). cbn in Ek. subst k. exists c. split.
    { rewrite skipn_app, skipn_all, Nat.sub_diag. cbn. apply in_map_iff. exists ((0, 2)%nat, c). auto. }
    destruct (M _ _ Hc) as (tid & ii & t & x & Oe & T & -> & _). apply sq_edge in Oe.
    assert (Q : (tid, ii) = (0, 2)%nat) by (destruct Oe as [(_ & Q)|[(_ & Q)|[(Q & _)|[(_ & Q)|[(_ & Q)|(_ & Q)]]]]]; congruence).
    injection Q as -> ->. cbn in T. injection T as <-. cbn [fst snd]. split; [exists 0%nat|exists 1%nat]; reflexivity.
Qed.
(** The hypotheses of [C49_placed_partial] are met by the square: four edges of
    it get a triangle. *)
Example C49_case : exists adds, place_virtual_constraints sq_pos (fun _ => 2%nat) sq_tet (fun m => m) sq = Some (sq ++ map snd adds) /\
  map fst (edge_map sq) = [(0, 1); (1, 2); (0, 2); (0, 3); (1, 3)]%nat /\ In ((0, 1)%nat, [(0, 0); (1, 0)]%nat) (edge_map sq) /\ ~ In (0, 1)%nat (map fst adds).
Proof.
  destruct (C49_placed_partial sq_pos (fun _ => 2%nat) sq_tet (fun m => m) sq (fun m => Permutation_refl m) sq_axis sq_tets) as (adds & E & _ & K & _).
  exists adds. split; [exact E|]. split; [reflexivity|]. split; [cbn; auto|]. intros H. apply K in H. now apply sq_twoway.
Qed.
Print Assumptions C49_edge_map.
Print Assumptions C49_placed_partial.
Print Assumptions C49_support_refuted.
