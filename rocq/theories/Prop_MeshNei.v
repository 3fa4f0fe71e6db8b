(** Property C54: the edges and the neighbours of a vertex
    (src/mesh/element/vertex.rs). *)
From Coq Require Import List Arith Bool Lia Permutation.
From Verif Require Import Lib Mesh MeshSpec MeshFacts MeshProofs MeshAddFace MeshSplitFace MeshSplitEdge MeshNei Prop_Mesh.
Import ListNotations.
Local Open Scope opt_scope.

Definition canb (m : mesh) (h : nat) : bool := match canonical m h with Some b => b | None => false end.

Lemma canb_ok m h : well_formed m -> h < n_h m ->
  canonical m h = Some (canb m h) /\
  (canb m h = true <-> exists e, rd (he_edge m) h = Some e /\ rd (e_he m) e = Some h).
Proof.
  intros W B. unfold canb, canonical. destruct (wf_hedge _ W h B) as (e & Be & Ee).
  destruct (wf_edge _ W e Be) as ((c & Ec & _) & _). rewrite Ee, Ec. split; auto.
  rewrite Nat.eqb_eq. split; [intros ->; eauto|]. intros (e' & [= <-] & E). congruence.
Qed.

Definition step (m : mesh) (b : bool) : ids := if b then in_next m else out_next m.
Definition cross (m : mesh) (b : bool) (h : nat) : option nat := if b then rd (he_next m) h else he_prev m h.
Definition filt (m : mesh) (l : list nat) : list nat := filter (canb m) l.
Definition tag (b : bool) (f : nat) (l : list nat) : list nei := map (fun h => Nei h b f) l.

Lemma next_step m h b f : nei_next m (Nei h b f) =
  (h' <- rd (step m b) h ;;
   if h' =? f then h'' <- cross m b h' ;; Some (Nei h'' (negb b) h'') else Some (Nei h' b f)).
Proof. unfold nei_next, step, cross. simpl. destruct b; reflexivity. Qed.

(** One phase: going around one of the two cycles. *)
Lemma walk_phase m start b f g k R : well_formed m ->
  forall t cur, path (rd (step m b)) cur t f -> (forall x, In x t -> x <> f) ->
  (forall x, In x t -> x < n_h m) -> (forall x, In x t -> nei_same (Nei x b f) start = false) ->
  cross m b f = Some g ->
  (if nei_same (Nei g (negb b) g) start then Some [] else
   c <- canonical m g ;; r <- nei_walk m start (Nei g (negb b) g) k ;;
   Some (if c then Nei g (negb b) g :: r else r)) = Some R ->
  nei_walk m start (Nei cur b f) (length t + S k) = Some (tag b f (filt m t) ++ R).
Proof.
  intros W. induction t as [|x t IH]; intros cur P Nf Bt Ns Hg HR.
  - cbn [length plus nei_walk]. rewrite next_step. simpl in P. rewrite P, Nat.eqb_refl, Hg.
    cbn [nei_he tag filt filter map app]. exact HR.
  - destruct P as [E P]. cbn [length plus nei_walk]. rewrite next_step, E.
    rewrite (proj2 (Nat.eqb_neq x f)) by (apply Nf; now left). rewrite Ns by now left.
    cbn [nei_he]. rewrite (proj1 (canb_ok m x W (Bt x (or_introl eq_refl)))).
    rewrite (IH x); auto; try (intros; apply Nf || apply Bt || apply Ns; now right).
    unfold filt. cbn [filter]. destruct (canb m x); reflexivity.
Qed.

(** Looking for the first canonical halfedge. *)
Lemma seek_phase m b f g k : well_formed m ->
  forall t cur, path (rd (step m b)) cur t f -> (forall x, In x t -> x <> f) ->
  (forall x, In x (cur :: t) -> x < n_h m) -> cross m b f = Some g ->
  (exists z, In z (cur :: t) /\ canb m z = true /\
     nei_seek m (Nei cur b f) (length t + S k) = Some (Nei z b z)) \/
  ((forall z, In z (cur :: t) -> canb m z = false) /\
     nei_seek m (Nei cur b f) (length t + S k) = nei_seek m (Nei g (negb b) g) k).
Proof.
  intros W. induction t as [|x t IH]; intros cur P Nf Bt Hg.
  - cbn [length plus nei_seek nei_he nei_in]. rewrite (proj1 (canb_ok m cur W (Bt cur (or_introl eq_refl)))).
    destruct (canb m cur) eqn:C.
    + left. exists cur. simpl. auto.
    + right. split; [intros z [<-|[]]; auto|]. rewrite next_step. simpl in P. rewrite P, Nat.eqb_refl, Hg. reflexivity.
  - destruct P as [E P]. cbn [length plus nei_seek nei_he nei_in].
    rewrite (proj1 (canb_ok m cur W (Bt cur (or_introl eq_refl)))). destruct (canb m cur) eqn:C.
    + left. exists cur. simpl. auto.
    + rewrite next_step, E. rewrite (proj2 (Nat.eqb_neq x f)) by (apply Nf; now left).
      destruct (IH x) as [(z & Hz & Cz & Ez)|[Hz Ez]]; auto.
      { intros; apply Nf; now right. } { intros; apply Bt; now right. }
      * left. exists z. split; [now right|auto].
      * right. split; auto. intros z [<-|Hz']; auto.
Qed.

(** Being at a vertex: starting there ([false]) or ending there ([true]). *)
Definition touches (m : mesh) (b : bool) (v h : nat) : Prop :=
  if b then tip m h = Some v else rd (he_vert m) h = Some v.

Lemma around m b v h : well_formed m -> touches m b v h ->
  exists t g, cycle (rd (step m b)) (touches m b v) (h :: t) /\ cross m b h = Some g /\
    touches m (negb b) v g /\ cross m (negb b) g = Some h /\ (forall x, In x (h :: t) -> x < n_h m) /\ g < n_h m.
Proof.
  intros W T. destruct (wf_parts m W) as (PF & _ & PO & PI).
  destruct (wf_lengths _ W) as (Lv & _ & Lf & Li & Lo & _).
  assert (NP : forall x n, x < n_h m -> rd (he_next m) x = Some n -> he_prev m n = Some x).
  { intros x n Bx Hn. 
    assert (Q : forall y, rd (he_next m) y = Some n -> y < n_h m -> he_prev m n = Some y).
    { intros y Hy By. destruct (wf_next m y W By) as (n' & Bn & En & Ef).
      assert (n' = n) by congruence. subst n'. 
      destruct (he_prev_ok m n W Bn) as (p & Ep & Hp & Hf & Bp). rewrite Ep. f_equal.
      destruct (wf_hface _ W y By) as (f & Bf & Eh).
      destruct (PF y f Eh) as [l C]. destruct (cycle_from _ _ _ n C) as [t (_ & D & LK & I)]; [congruence|].
      assert (U : forall t a z, path (rd (he_next m)) a t z -> NoDup (a :: t) -> ~ In z t ->
        forall x, In x (a :: t) -> rd (he_next m) x = Some z -> x = last (a :: t) 0).
      { clear. induction t as [|b t IH]; intros a z P D Nz x Hx Ex.
        - destruct Hx as [->|[]]. reflexivity.
        - destruct P as [E P]. inversion_clear D as [|? ? Na D']. destruct Hx as [->|Hx].
          + exfalso. apply Nz. left. congruence.
          + change (last (a :: b :: t) 0) with (last (b :: t) 0). apply (IH b z P D'); auto.
            intros K. apply Nz. now right. }
      inversion_clear D as [|? ? Nn D'].
      rewrite (U t n n LK ltac:(constructor; auto) Nn y ltac:(apply I; exact Eh) Hy).
      apply (U t n n LK ltac:(constructor; auto) Nn p ltac:(apply I; congruence) Hp). }
    apply Q; auto. }
  destruct b; unfold touches, step, cross in *; cbn [negb] in *.
  - destruct (PI h v T) as [l C]. destruct (cycle_from _ _ _ h C T) as [t Ct].
    assert (Bh : h < n_h m). { unfold tip in T. destruct (rd (he_next m) h) eqn:E; [|discriminate]. apply rd_lt in E.
      destruct (wf_counts _ W) as (_ & _ & _ & L). lia. }
    destruct (wf_next m h W Bh) as (n & Bn & En & _). exists t, n. split; [exact Ct|]. split; [exact En|].
    split; [unfold tip in T; rewrite En in T; exact T|]. split; [apply NP; auto|]. split; [|exact Bn].
    intros x Hx. destruct Ct as (_ & _ & LK & _). pose proof (linked_lt _ _ LK x Hx). lia.
  - destruct (PO h v T) as [l C]. destruct (cycle_from _ _ _ h C T) as [t Ct].
    assert (Bh : h < n_h m) by (apply rd_lt in T; lia).
    destruct (he_prev_ok m h W Bh) as (p & Ep & Hp & _ & Bp). exists t, p. split; [exact Ct|]. split; [exact Ep|].
    split; [unfold tip; rewrite Hp; exact T|]. split; [exact Hp|]. split; [|exact Bp].
    intros x Hx. destruct Ct as (_ & _ & LK & _). pose proof (linked_lt _ _ LK x Hx). lia.
Qed.

Lemma walk_mono m start k : forall s r, nei_walk m start s k = Some r -> nei_walk m start s (S k) = Some r.
Proof.
  induction k as [|k IH]; intros s r H; [discriminate|].
  change (nei_walk m start s (S (S k))) with
    (s' <- nei_next m s ;; if nei_same s' start then Some [] else
     b <- canonical m (nei_he s') ;; r <- nei_walk m start s' (S k) ;; Some (if b then s' :: r else r)).
  cbn [nei_walk] in H. destruct (nei_next m s) as [s'|]; [|discriminate]. destruct (nei_same s' start); auto.
  destruct (canonical m (nei_he s')); [|discriminate].
  destruct (nei_walk m start s' k) eqn:E; [|discriminate]. rewrite (IH _ _ E). exact H.
Qed.
Lemma walk_le m start s r k k' : k <= k' -> nei_walk m start s k = Some r -> nei_walk m start s k' = Some r.
Proof. induction 1; auto. intros H'. apply walk_mono. auto. Qed.

Lemma seek_mono m k : forall s r, nei_seek m s k = Some r -> nei_seek m s (S k) = Some r.
Proof.
  induction k as [|k IH]; intros s r H; [discriminate|].
  change (nei_seek m s (S (S k))) with
    (b <- canonical m (nei_he s) ;;
     if b then Some (Nei (nei_he s) (nei_in s) (nei_he s)) else s' <- nei_next m s ;; nei_seek m s' (S k)).
  cbn [nei_seek] in H. destruct (canonical m (nei_he s)) as [[|]|]; auto.
  destruct (nei_next m s); [|discriminate]. auto.
Qed.
Lemma seek_le m s r k k' : k <= k' -> nei_seek m s k = Some r -> nei_seek m s k' = Some r.
Proof. induction 1; auto. intros H'. apply seek_mono. auto. Qed.

Lemma cycle_len m b v h t : cycle (rd (step m b)) (touches m b v) (h :: t) -> (forall x, In x (h :: t) -> x < n_h m) ->
  length t < n_h m.
Proof. intros (_ & D & _ & _) B. pose proof (NoDup_bound _ _ D B) as K. simpl in K. lia. Qed.

Lemma path_of_cycle f S h t : cycle f S (h :: t) -> path f h t h /\ (forall x, In x t -> x <> h).
Proof.
  intros (_ & D & LK & _). split; [exact LK|]. intros x Hx ->. inversion D; contradiction.
Qed.

(** All states of the iterator. *)
Lemma nei_states_ok m v h0 : well_formed m -> rd (v_he m) v = Some h0 ->
  exists b z l1 l2, nei_states m v = Some (tag b z l1 ++ l2) /\ (exists g, l2 = tag (negb b) g (map nei_he l2)) /\
    NoDup l1 /\ NoDup (map nei_he l2) /\
    (forall h, In h l1 <-> touches m b v h /\ canb m h = true) /\
    (forall h, In h (map nei_he l2) <-> touches m (negb b) v h /\ canb m h = true).
Proof.
  intros W E0.
  assert (T0 : touches m false v h0).
  { pose proof (rd_lt _ _ _ E0) as B. destruct (wf_counts _ W) as (Lv & _). rewrite <- Lv in B.
    destruct (wf_vertex _ W v B) as [(N & _)|((h & E1 & E2) & _)]; [congruence|]. assert (h = h0) by congruence. subst. exact E2. }
  destruct (around m false v h0 W T0) as (t & p & C1 & X1 & T1 & X2 & B1 & Bp).
  destruct (around m true v p W T1) as (s & n & C2 & X3 & T2 & X4 & B2 & Bn).
  destruct (path_of_cycle _ _ _ _ C1) as [P1 N1]. destruct (path_of_cycle _ _ _ _ C2) as [P2 N2].
  pose proof (cycle_len _ _ _ _ _ C1 B1) as L1. pose proof (cycle_len _ _ _ _ _ C2 B2) as L2.
  (* a canonical halfedge at v *)
  assert (exists c b, touches m b v c /\ canb m c = true) as (c & bc & Tc & Cc).
  { assert (B0 : h0 < n_h m) by (apply B1; now left). destruct (wf_hedge _ W h0 B0) as (e & Be & Ee).
    destruct (wf_edge _ W e Be) as ((c & Ec & Hc) & _). destruct (wf_ends _ W e Be) as (a & b & J).
    assert (Bc : c < n_h m) by (apply rd_lt in Hc; destruct (wf_lengths _ W) as (_ & L & _); lia).
    assert (Cc : canb m c = true) by (apply (canb_ok m c W Bc); eauto).
    unfold touches in T0. pose proof (J h0 Ee) as J1. pose proof (J c Hc) as J2. unfold joins, goes in *.
    destruct J1 as [[J1 _]|[J1 _]], J2 as [[J2 J3]|[J2 J3]]; rewrite T0 in J1; inversion J1; subst.
    - exists c, false. auto. - exists c, true. auto. - exists c, true. auto. - exists c, false. auto. }
  assert (exists z b, nei_new m v = Some (Nei z b z) /\ touches m b v z /\ canb m z = true) as (z & b & Enew & Tz & Cz).
  { unfold nei_new. rewrite E0.
    destruct (seek_phase m false h0 p (n_h m + 1) W t h0 P1 N1 B1 X1) as [(z & Hz & Cz & Ez)|[Hz Ez]].
    - exists z, false. split; [|split; auto]. { eapply seek_le; [|exact Ez]. lia. } apply C1. exact Hz.
    - destruct (seek_phase m true p n (n_h m - length s) W s p P2 N2 B2 X3) as [(z & Hz' & Cz & Ez')|[Hz' Ez']].
      + exists z, true. split; [|split; auto].
        * eapply seek_le with (k := length t + S (n_h m + 1)); [lia|]. rewrite Ez. cbn [negb].
          replace (n_h m + 1) with (length s + S (n_h m - length s)) by lia. exact Ez'.
        * apply C2. exact Hz'.
      + exfalso. destruct bc.
        * apply C2 in Tc. apply Hz' in Tc. congruence.
        * apply C1 in Tc. apply Hz in Tc. congruence. }
  clear t p s n C1 X1 T1 X2 B1 Bp C2 X3 T2 X4 B2 Bn P1 N1 P2 N2 L1 L2 c bc Tc Cc.
  destruct (around m b v z W Tz) as (t & p & C1 & X1 & T1 & X2 & B1 & Bp).
  destruct (around m (negb b) v p W T1) as (s & n & C2 & X3 & T2 & X4 & B2 & Bn).
  assert (n = z) by congruence. subst n.
  destruct (path_of_cycle _ _ _ _ C1) as [P1 N1]. destruct (path_of_cycle _ _ _ _ C2) as [P2 N2].
  pose proof (cycle_len _ _ _ _ _ C1 B1) as L1. pose proof (cycle_len _ _ _ _ _ C2 B2) as L2.
  set (start := Nei z b z).
  assert (W2 : nei_walk m start (Nei p (negb b) p) (length s + S 0) = Some (tag (negb b) p (filt m s) ++ [])).
  { apply walk_phase with (g := z); auto.
    - intros x Hx. apply B2. now right.
    - intros x Hx. unfold nei_same, start. simpl. destruct b; simpl; apply andb_false_r.
    - rewrite negb_involutive. unfold nei_same, start. simpl. rewrite Nat.eqb_refl, eqb_reflx. reflexivity. }
  assert (W1 : nei_walk m start start (length t + S (length s + 1)) =
     Some (tag b z (filt m t) ++ tag (negb b) p (filt m (p :: s)))).
  { unfold start at 2. apply walk_phase with (g := p); auto.
    - intros x Hx. apply B1. now right.
    - intros x Hx. unfold nei_same, start. simpl. rewrite (proj2 (Nat.eqb_neq x z)) by auto. reflexivity.
    - assert (S1 : nei_same (Nei p (negb b) p) start = false) by (unfold nei_same, start; simpl; destruct b; apply andb_false_r).
      rewrite S1. rewrite (proj1 (canb_ok m p W Bp)). rewrite W2. unfold filt. cbn [filter]. rewrite app_nil_r.
      destruct (canb m p); reflexivity. }
  exists b, z, (filt m (z :: t)), (tag (negb b) p (filt m (p :: s))).
  assert (MN : map nei_he (tag (negb b) p (filt m (p :: s))) = filt m (p :: s)).
  { unfold tag. rewrite map_map. simpl. apply map_id. }
  split; [|split; [|split; [|split; [|split]]]].
  - unfold nei_states. rewrite Enew. fold start. rewrite (walk_le _ _ _ _ (length t + S (length s + 1)) (2 * n_h m + 2) ltac:(lia) W1).
    unfold filt. cbn [filter]. rewrite Cz. reflexivity.
  - exists p. rewrite MN. reflexivity.
  - apply NoDup_filter. apply C1.
  - rewrite MN. apply NoDup_filter. apply C2.
  - intros h. unfold filt. rewrite filter_In. destruct C1 as (_ & _ & _ & I). rewrite I. tauto.
  - intros h. rewrite MN. unfold filt. rewrite filter_In. destruct C2 as (_ & _ & _ & I). rewrite I. tauto.
Qed.

(** ** C54 *)

(** The edges of a vertex are yielded once each, and the neighbours are the
    other endpoints of these edges in the same order. *)
Theorem C54_vertex_edges order m v h0 :
  any_order order -> reached order m -> rd (v_he m) v = Some h0 -> (forall h, ~ goes m h v v) ->
  exists es vs, vertex_edges m v = Some es /\ vertex_vertices m v = Some vs /\
    lists es (fun e => exists h, rd (he_edge m) h = Some e /\ (rd (he_vert m) h = Some v \/ tip m h = Some v)) /\
    length vs = length es /\
    forall i e w h, nth_error es i = Some e -> nth_error vs i = Some w -> rd (he_edge m) h = Some e -> joins m h v w.
Proof.
  intros HO R E0 NL. pose proof (reached_wf _ _ HO R) as W.
  destruct (nei_states_ok m v h0 W E0) as (b & z & l1 & l2 & ES & (g & G2) & D1 & D2 & I1 & I2).
  set (L := tag b z l1 ++ l2) in *.
  assert (IL : forall s, In s L -> touches m (nei_in s) v (nei_he s) /\ canb m (nei_he s) = true).
  { intros s Hs. apply in_app_iff in Hs. destruct Hs as [Hs|Hs].
    - unfold tag in Hs. apply in_map_iff in Hs. destruct Hs as (h & <- & Hh). simpl. apply I1. exact Hh.
    - assert (Hb : nei_in s = negb b).
      { rewrite G2 in Hs. unfold tag in Hs. apply in_map_iff in Hs. destruct Hs as (h & <- & _). reflexivity. }
      rewrite Hb. apply I2. apply in_map. exact Hs. }
  assert (TB : forall b' h, touches m b' v h -> h < n_h m).
  { intros [|] h T; unfold touches in T.
    - unfold tip in T. destruct (rd (he_next m) h) eqn:E; [|discriminate]. apply rd_lt in E.
      destruct (wf_counts _ W) as (_ & _ & _ & LL). lia.
    - apply rd_lt in T. destruct (wf_lengths _ W) as (LL & _). lia. }
  assert (DL : NoDup (map nei_he L)).
  { unfold L. rewrite map_app. apply NoDup_app_disj; auto.
    - unfold tag. rewrite map_map. simpl. rewrite map_id. exact D1.
    - intros x Hx Hy. unfold tag in Hx. rewrite map_map in Hx. simpl in Hx. rewrite map_id in Hx.
      apply I1 in Hx. apply I2 in Hy. destruct Hx as [Hx _], Hy as [Hy _]. apply (NL x).
      unfold touches in Hx, Hy. unfold goes. destruct b; simpl in *; auto. }
  destruct (omap_total (fun s => rd (he_edge m) (nei_he s)) L) as [es Hes].
  { intros s Hs. destruct (IL s Hs) as [T _]. destruct (wf_hedge _ W _ (TB _ _ T)) as (e & _ & ?). eauto. }
  destruct (omap_total (fun s => if nei_in s then rd (he_vert m) (nei_he s) else tip m (nei_he s)) L) as [vs Hvs].
  { intros s Hs. destruct (IL s Hs) as [T _]. pose proof (TB _ _ T) as Bs.
    destruct (nei_in s); [destruct (wf_vert _ W _ Bs) as (x & _ & ?)|destruct (wf_tip m _ W Bs) as (x & _ & ?)]; eauto. }
  destruct (omap_nth_inv _ _ _ Hes) as [Le Qe]. destruct (omap_nth_inv _ _ _ Hvs) as [Lv Qv].
  exists es, vs. unfold vertex_edges, vertex_vertices. rewrite ES. split; [exact Hes|]. split; [exact Hvs|].
  split; [split|split; [lia|]].
  - apply NoDup_nth_error. intros i j Hi Hij.
    destruct (nth_error es i) as [e|] eqn:Ei; [|apply nth_error_None in Ei; lia]. symmetry in Hij.
    assert (Hj : j < length es) by (apply nth_error_Some; congruence).
    destruct (nth_error_ex L i) as [s1 S1]; [lia|]. destruct (nth_error_ex L j) as [s2 S2]; [lia|].
    pose proof (Qe i s1 e S1 Ei) as K1. pose proof (Qe j s2 e S2 Hij) as K2.
    destruct (IL s1 (nth_error_In _ _ S1)) as [T1 C1]. destruct (IL s2 (nth_error_In _ _ S2)) as [T2 C2].
    apply (canb_ok m _ W (TB _ _ T1)) in C1. apply (canb_ok m _ W (TB _ _ T2)) in C2.
    destruct C1 as (e1 & A1 & B1), C2 as (e2 & A2 & B2).
    assert (nei_he s1 = nei_he s2) by congruence.
    apply (proj1 (NoDup_nth_error (map nei_he L)) DL i j).
    + rewrite map_length. lia.
    + rewrite !nth_error_map, S1, S2. simpl. congruence.
  - intros e. split.
    + intros He. apply In_nth_error in He. destruct He as [i Hi]. 
      assert (i < length es) by (apply nth_error_Some; congruence).
      destruct (nth_error_ex L i) as [s S1]; [lia|]. exists (nei_he s). split; [apply (Qe i s e S1 Hi)|].
      destruct (IL s (nth_error_In _ _ S1)) as [T _]. unfold touches in T. destruct (nei_in s); auto.
    + intros (h & Eh & Th). assert (Bh : h < n_h m) by (apply rd_lt in Eh; destruct (wf_lengths _ W) as (_ & LL & _); lia).
      destruct (wf_hedge _ W h Bh) as (e' & Be & Ee). assert (e' = e) by congruence. subst e'.
      destruct (wf_edge _ W e Be) as ((c & Ec & Hc) & _). destruct (wf_ends _ W e Be) as (x & y & J).
      assert (Bc : c < n_h m) by (apply rd_lt in Hc; destruct (wf_lengths _ W) as (_ & LL & _); lia).
      assert (Cc : canb m c = true) by (apply (canb_ok m c W Bc); eauto).
      assert (Tc : touches m b v c \/ touches m (negb b) v c).
      { assert (Q : rd (he_vert m) c = Some v \/ tip m c = Some v).
        { pose proof (J h Eh) as J1. pose proof (J c Hc) as J2. unfold joins, goes in *.
          destruct Th as [Th|Th]; destruct J1 as [[J1 J1']|[J1 J1']], J2 as [[J2 J3]|[J2 J3]];
          first [rewrite Th in J1; inversion J1; subst; tauto|rewrite Th in J1'; inversion J1'; subst; tauto]. }
        unfold touches. destruct b; simpl; tauto. }
      assert (In c (map nei_he L)).
      { unfold L. rewrite map_app. apply in_app_iff. destruct Tc as [Tc|Tc].
        - left. unfold tag. rewrite map_map. simpl. rewrite map_id. apply I1. auto.
        - right. apply I2. auto. }
      apply in_map_iff in H. destruct H as (s & Hs & Is). apply In_nth_error in Is. destruct Is as [i Hi].
      destruct (nth_error_ex es i) as [e2 He2]; [rewrite Le; apply nth_error_Some; congruence|].
      pose proof (Qe i s e2 Hi He2) as K. rewrite Hs in K. assert (e2 = e) by congruence. subst. eapply nth_error_In; eauto.
  - intros i e w h He Hw Eh. assert (i < length es) by (apply nth_error_Some; congruence).
    destruct (nth_error_ex L i) as [s S1]; [lia|]. pose proof (Qe i s e S1 He) as K1. pose proof (Qv i s w S1 Hw) as K2.
    destruct (IL s (nth_error_In _ _ S1)) as [T _]. pose proof (TB _ _ T) as Bs.
    destruct (wf_hedge _ W _ Bs) as (e' & Be & Ee). assert (e' = e) by congruence. subst e'.
    destruct (wf_ends _ W e Be) as (x & y & J).
    pose proof (J _ K1) as J1. pose proof (J _ Eh) as J2. 
    assert (J3 : joins m (nei_he s) v w) by (unfold joins, goes, touches in *; destruct (nei_in s); tauto).
    unfold joins, goes in *.
    assert (Q : forall a c : nat, Some a = Some c -> a = c) by congruence.
    destruct J1 as [[A1 A2]|[A1 A2]], J3 as [[A3 A4]|[A3 A4]];
      pose proof (Q _ _ (eq_trans (eq_sym A1) A3)); pose proof (Q _ _ (eq_trans (eq_sym A2) A4)); subst; tauto.
Qed.

Example C54_vertex2 : vertex_edges m4 2 = Some [6; 2; 1; 4] /\ vertex_vertices m4 2 = Some [4; 0; 1; 3] /\
  rd (v_he m4) 2 = Some 11.
Proof. vm_compute. auto. Qed.
Example C54_vertex2_no_loop : forall h, ~ goes m4 h 2 2.
Proof.
  intros h [H1 H2]. assert (B : h < 13) by (apply rd_lt in H1; exact H1).
  do 13 (destruct h as [|h]; [vm_compute in H1, H2; discriminate|]). lia.
Qed.
Check (C54_vertex_edges (@rev nat) m4 2 11 order_rev m4_reached eq_refl C54_vertex2_no_loop).

(** The edge of a polygon with two equal consecutive corners is yielded twice. *)
Theorem C54_self_loop_refuted : reached (@rev nat) m_loop /\ vertex_edges m_loop 0 = Some [1; 0; 0].
Proof. split; [apply (r_new _ [[0; 0; 1]]); vm_compute; reflexivity|vm_compute; reflexivity]. Qed.

Print Assumptions C54_vertex_edges.
Print Assumptions C54_self_loop_refuted.
