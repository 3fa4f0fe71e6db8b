(** The loops of all groups: runs of straight halfedges, seen from both sides. *)
From Coq Require Import List Arith Bool Lia Permutation Relations.
From Verif Require Import Lib Tet Bsp BspSpec BspCut BspGlue BspSplit Outline OutlineSpec OutlineWalk OutlineTurn OutlineMerge.
Import ListNotations.

(** * Lists *)
Fixpoint pairwise {A} (J : A -> A -> Prop) (l : list A) : Prop :=
  match l with [] => True | r :: t => match t with [] => True | r' :: _ => J r r' end /\ pairwise J t end.
Lemma pairwise_cons {A} (J : A -> A -> Prop) r r' t : pairwise J (r :: r' :: t) <-> J r r' /\ pairwise J (r' :: t).
Proof. reflexivity. Qed.
Lemma breaks_pairwise col gs : breaks col gs <-> pairwise (breaks_at col) gs.
Proof. induction gs as [|r t IH]; cbn; [tauto|]. now rewrite IH. Qed.
Lemma pairwise_snoc {A} (J : A -> A -> Prop) l x y : pairwise J (l ++ [x]) -> J x y -> pairwise J (l ++ [x; y]).
Proof. induction l as [|r [|r' t] IH]; cbn in *; [tauto| |]; intros [H1 H2] H3; auto. Qed.
Lemma pairwise_next {A} (J : A -> A -> Prop) l z : pairwise J (l ++ [z]) -> forall x, In x l -> exists y, In y (l ++ [z]) /\ J x y.
Proof.
  induction l as [|r [|r' t] IH]; intros H x; [easy| |].
  - intros [<- |[]]. exists z. cbn in *. tauto.
  - cbn [app] in *. destruct H as [H1 H2]. intros [<- |Hx].
    + exists r'. cbn. auto.
    + destruct (IH H2 x Hx) as (y & Hy & Jy). exists y. split; [now right|exact Jy].
Qed.
Lemma pairwise_prev {A} (J : A -> A -> Prop) l : forall a, pairwise J (a :: l) -> forall x, In x l -> exists y, In y (a :: l) /\ J y x.
Proof.
  induction l as [|r t IH]; intros a H x; [easy|]. destruct H as [H1 H2]. intros [<- |Hx].
  - exists a. cbn. auto.
  - destruct (IH r H2 x Hx) as (y & Hy & Jy). exists y. split; [now right|exact Jy].
Qed.
Lemma nodup_concat_nth {A} (ll : list (list A)) : NoDup (concat ll) -> forall i j a b x,
  nth_error ll i = Some a -> nth_error ll j = Some b -> In x a -> In x b -> i = j.
Proof.
  induction ll as [|l t IH]; intros N i j a b x Hi Hj Ha Hb; [now destruct i|]. cbn in N.
  assert (Nt : NoDup (concat t)). { clear - N. induction l; [exact N|]. inversion N. auto. }
  assert (X : forall y, In y l -> ~ In y (concat t)).
  { clear - N. induction l as [|c l IH]; intros y; [easy|]. cbn in N. inversion N as [|? ? H1 H2]; subst. intros [<- |H].
    - rewrite in_app_iff in H1. tauto.
    - now apply IH. }
  destruct i as [|i], j as [|j]; cbn in Hi, Hj.
  - reflexivity.
  - injection Hi as ->. exfalso. apply (X x Ha). apply in_concat. exists b. split; [eapply nth_error_In; eauto|exact Hb].
  - injection Hj as ->. exfalso. apply (X x Hb). apply in_concat. exists a. split; [eapply nth_error_In; eauto|exact Ha].
  - f_equal. eapply IH; eauto.
Qed.
Lemma nodup_concat_filter {A B} (g : A -> list B) (p : A -> bool) l : NoDup (concat (map g l)) -> NoDup (concat (map (fun x => if p x then g x else []) l)).
Proof.
  induction l as [|a t IH]; cbn; intros N; [constructor|].
  assert (Nt : NoDup (concat (map g t))). { clear - N. induction (g a); [exact N|]. inversion N. auto. }
  destruct (p a); [|now apply IH]. apply NoDup_app_intro.
  - clear - N. induction (g a) as [|c l IH]; [constructor|]. cbn in N. inversion N; subst. rewrite in_app_iff in H1. constructor; [tauto|auto].
  - now apply IH.
  - intros x Hx Hc. assert (Hx' : In x (concat (map g t))).
    { clear - Hc. apply in_concat in Hc as (l & Hl & Hx). apply in_map_iff in Hl as (b & <- & Hb). apply in_concat. destruct (p b); [|easy].
      exists (g b). split; [now apply in_map|exact Hx]. }
    revert N Hx Hx'. clear. induction (g a) as [|c l IH]; [easy|]. cbn. intros N. inversion N as [|? ? H1 H2]; subst. rewrite in_app_iff in H1.
    intros [<- |H] H'; [tauto|]. now apply IH.
Qed.
Lemma seq_nth_concat {A} (k : nat -> kface -> list A) fs :
  concat (map (fun i => match nth_error fs i with Some f => k i f | None => [] end) (seq 0 (length fs))) = concat (map (fun p => k (fst p) (snd p)) (combine (seq 0 (length fs)) fs)).
Proof.
  assert (G : forall t n pre, length pre = n -> concat (map (fun i => match nth_error (pre ++ t) i with Some f => k i f | None => [] end) (seq n (length t)))
    = concat (map (fun p => k (fst p) (snd p)) (combine (seq n (length t)) t))).
  { induction t as [|f t IH]; intros n pre L; [reflexivity|]. cbn [length seq map concat combine fst snd].
    rewrite nth_error_app2, L, Nat.sub_diag by lia. cbn [nth_error]. f_equal.
    replace (pre ++ f :: t) with ((pre ++ [f]) ++ t) by now rewrite <- app_assoc. apply IH. rewrite app_length. cbn. lia. }
  exact (G fs 0 [] eq_refl).
Qed.

(** * The faces of a group *)
Section Faces.
Variables (fs : list kface) (grp : nat -> nat).
Lemma group_faces_in g f : In f (group_faces fs grp g) <-> exists i, nth_error fs i = Some f /\ grp i = g.
Proof.
  unfold group_faces. rewrite in_concat. split.
  - intros (l & Hl & Hf). apply in_map_iff in Hl as (i & <- & _). destruct (nth_error fs i) as [f'|] eqn:E; [|easy].
    destruct (Nat.eqb_spec (grp i) g); [|easy]. destruct Hf as [<- |[]]. eauto.
  - intros (i & E & Hg). exists [f]. split; [|now left]. apply in_map_iff. exists i. rewrite E.
    apply Nat.eqb_eq in Hg. rewrite Hg. split; [reflexivity|]. apply in_seq. assert (i < length fs) by (apply nth_error_Some; congruence). lia.
Qed.
Lemma group_edges_in g e : In e (turned_edges (group_faces fs grp g)) <-> exists i f, nth_error fs i = Some f /\ grp i = g /\ In e (outward (kpos f) (kcycle f)).
Proof.
  unfold turned_edges. rewrite in_flat_map. split.
  - intros (f & Hf & He). apply group_faces_in in Hf as (i & Hi & Hg). eauto.
  - intros (i & f & Hi & Hg & He). exists f. split; [apply group_faces_in; eauto|exact He].
Qed.
Lemma all_edges_in e : In e (turned_edges fs) <-> exists i f, nth_error fs i = Some f /\ In e (outward (kpos f) (kcycle f)).
Proof.
  unfold turned_edges. rewrite in_flat_map. split.
  - intros (f & Hf & He). apply In_nth_error in Hf as (i & Hi). eauto.
  - intros (i & f & Hi & He). exists f. split; [eapply nth_error_In; eauto|exact He].
Qed.
Hypothesis ND : NoDup (turned_edges fs).
Lemma group_disjoint g g' e : In e (turned_edges (group_faces fs grp g)) -> In e (turned_edges (group_faces fs grp g')) -> g = g'.
Proof using ND.
  rewrite !group_edges_in. intros (i & f & Hi & <- & He) (j & f' & Hj & <- & He'). f_equal.
  unfold turned_edges in ND. rewrite flat_map_concat_map in ND.
  apply (nodup_concat_nth _ ND i j _ _ e (map_nth_error _ _ _ Hi) (map_nth_error _ _ _ Hj) He He').
Qed.
Lemma group_nodup g : NoDup (turned_edges (group_faces fs grp g)).
Proof using ND.
  assert (E : turned_edges (group_faces fs grp g) = concat (map (fun p => if grp (fst p) =? g then outward (kpos (snd p)) (kcycle (snd p)) else []) (combine (seq 0 (length fs)) fs))).
  { rewrite <- (seq_nth_concat (fun i f => if grp i =? g then outward (kpos f) (kcycle f) else [])). unfold turned_edges, group_faces.
    rewrite flat_map_concat_map. induction (seq 0 (length fs)) as [|i t IH]; [reflexivity|]. cbn [map concat]. rewrite map_app, concat_app, IH. f_equal.
    destruct (nth_error fs i); [|reflexivity]. destruct (grp i =? g); [|reflexivity]. cbn. apply app_nil_r. }
  rewrite E. apply (nodup_concat_filter (fun p : nat * kface => outward (kpos (snd p)) (kcycle (snd p))) (fun p => grp (fst p) =? g)).
  replace (map (fun p : nat * kface => outward (kpos (snd p)) (kcycle (snd p))) (combine (seq 0 (length fs)) fs)) with (map (fun f => outward (kpos f) (kcycle f)) fs).
  { unfold turned_edges in ND. now rewrite flat_map_concat_map in ND. }
  rewrite <- (map_snd_combine (seq 0 (length fs)) fs) at 1 by now rewrite seq_length. now rewrite map_map.
Qed.

(** edge_face_groups *)
Lemma insert_group_in x l y : In y (insert_group x l) <-> y = x \/ In y l.
Proof.
  induction l as [|z t IH]; cbn [insert_group].
  - cbn. intuition congruence.
  - destruct (x <? z); [cbn; intuition congruence|]. destruct (Nat.eqb_spec x z) as [->|D]; [cbn; intuition congruence|].
    cbn [In]. rewrite IH. tauto.
Qed.
Lemma edge_of_face e f : existsb (edge_eqb e) (hes (kcycle f)) = true <-> In e (outward (kpos f) (kcycle f)) \/ In (swap e) (outward (kpos f) (kcycle f)).
Proof.
  rewrite existsb_exists. unfold outward. assert (M : forall l a, In a (map swap l) <-> In (swap a) l).
  { intros l a. rewrite in_map_iff. split; [intros (b & <- & H); now rewrite swap_swap|]. intros H. exists (swap a). now rewrite swap_swap. }
  split.
  - intros (x & Hx & E). apply edge_eqb_true in E as [-> | ->]; destruct (kpos f); rewrite ?M, ?swap_swap; tauto.
  - destruct (kpos f); rewrite ?M, ?swap_swap; intros [H|H]; eexists; (split; [exact H|]); apply edge_eqb_true; rewrite ?swap_swap; tauto.
Qed.
Lemma edge_face_groups_in e g : In g (edge_face_groups fs grp e) <->
  In e (turned_edges (group_faces fs grp g)) \/ In (swap e) (turned_edges (group_faces fs grp g)).
Proof.
  rewrite !group_edges_in. unfold edge_face_groups.
  set (F := fun l i => match nth_error fs i with Some f => if existsb (edge_eqb e) (hes (kcycle f)) then insert_group (grp i) l else l | None => l end).
  assert (G : forall s l, In g (fold_left F s l) <-> In g l \/ exists i f, In i s /\ nth_error fs i = Some f /\ grp i = g /\ existsb (edge_eqb e) (hes (kcycle f)) = true).
  { induction s as [|i s IH]; intros l; cbn [fold_left].
    - split; [now left|]. intros [H|(i & f & [] & _)]. exact H.
    - rewrite IH. unfold F. destruct (nth_error fs i) as [f|] eqn:E.
      + destruct (existsb (edge_eqb e) (hes (kcycle f))) eqn:Ex.
        * rewrite insert_group_in. split.
          -- intros [[-> |H]|(j & f' & Hj & H)]; [right; exists i, f; cbn; auto|now left|right; exists j, f'; cbn; tauto].
          -- intros [H|(j & f' & [<- |Hj] & H1 & H2 & H3)]; [tauto|left; left; congruence|right; eauto 8].
        * split.
          -- intros [H|(j & f' & Hj & H)]; [now left|right; exists j, f'; cbn; tauto].
          -- intros [H|(j & f' & [<- |Hj] & H1 & H2 & H3)]; [now left|congruence|right; eauto 8].
      + split.
        * intros [H|(j & f' & Hj & H)]; [now left|right; exists j, f'; cbn; tauto].
        * intros [H|(j & f' & [<- |Hj] & H1 & H2 & H3)]; [now left|congruence|right; eauto 8]. }
  rewrite G. split.
  - intros [[]|(i & f & _ & Hi & Hg & Hx)]. apply edge_of_face in Hx as [Hx|Hx]; eauto 8.
  - intros H. right. assert (X : exists i f, nth_error fs i = Some f /\ grp i = g /\ (In e (outward (kpos f) (kcycle f)) \/ In (swap e) (outward (kpos f) (kcycle f)))).
    { destruct H as [(i & f & H1 & H2 & H3)|(i & f & H1 & H2 & H3)]; exists i, f; auto. }
    destruct X as (i & f & Hi & Hg & Hx). exists i, f. split; [|split; [exact Hi|split; [exact Hg|now apply edge_of_face]]].
    apply in_seq. assert (i < length fs) by (apply nth_error_Some; congruence). lia.
Qed.
Lemma edge_face_groups_swap e : edge_face_groups fs grp (swap e) = edge_face_groups fs grp e.
Proof.
  unfold edge_face_groups. generalize (@nil nat). induction (seq 0 (length fs)) as [|i t IH]; intros l; [reflexivity|]. cbn [fold_left].
  destruct (nth_error fs i) as [f|]; [|apply IH].
  assert (existsb (edge_eqb (swap e)) (hes (kcycle f)) = existsb (edge_eqb e) (hes (kcycle f))) as ->.
  { induction (hes (kcycle f)) as [|a r IHr]; [reflexivity|]. cbn [existsb]. now rewrite IHr, edge_eqb_swap. }
  apply IH.
Qed.
End Faces.
Lemma list_eqb_true a b : list_eqb a b = true <-> a = b.
Proof.
  revert b. induction a as [|x a IH]; intros [|y b]; cbn; try easy. rewrite andb_true_iff, Nat.eqb_eq, IH. split; [intros [-> ->]; reflexivity|intros [= -> ->]; auto].
Qed.

(** * Links between halfedges *)
Section Groups.
Variables (fs : list kface) (grp : nat -> nat) (line : nat -> nat -> nat -> nat -> bool) (aligned : nat -> nat -> nat -> bool).
Hypothesis TS : two_sided fs.
Hypothesis NP : forall g v, ~ pinch (group_faces fs grp g) v.
Hypothesis EL : exact_line fs grp line aligned.
Notation D g := (turned_edges (group_faces fs grp g)).
Notation H g := (on_outline (group_faces fs grp g)).
Notation col g := (colinear fs grp (line g)).

Lemma H_group g g' e : H g e -> H g' e -> g = g'.
Proof using TS. intros [A _] [B _]. exact (group_disjoint fs grp (proj1 TS) g g' e A B). Qed.
Lemma H_out g x y : H g x -> H g y -> fst x = fst y -> x = y.
Proof using NP.
  destruct x as [u a], y as [u' b]. cbn. intros A B <-. destruct (Nat.eq_dec a b) as [->|D]; [reflexivity|].
  exfalso. apply (NP g u). exists a, b. auto.
Qed.
Lemma H_in g x y : H g x -> H g y -> snd x = snd y -> x = y.
Proof using TS NP.
  intros A B E. pose proof (group_nodup fs grp (proj1 TS) g) as ND.
  destruct (outline_halfedges_spec (group_faces fs grp g) ND) as [Nh Ih].
  destruct (steps_fst (group_faces fs grp g) ND) as [F1 F2]. destruct (steps_snd (group_faces fs grp g) ND) as [S1 S2].
  pose proof (paired_ex _ _ _ S1 F2 S2 Ih) as PE.
  destruct (PE x) as (p & Hp); [now apply Ih|]. destruct (PE y) as (q & Hq); [now apply Ih|].
  pose proof (paired_out _ _ _ S2 (steps_joined _) Ih _ _ Hp) as Op. pose proof (paired_out _ _ _ S2 (steps_joined _) Ih _ _ Hq) as Oq.
  apply outs_in in Op as [Ip Fp], Oq as [Iq Fq]. apply Ih in Ip, Iq.
  assert (p = q) as <- by (apply (H_out g); congruence).
  apply (paired_inj _ _ _ S1 S2 Ih x y p); auto; now apply Ih.
Qed.
Lemma H_swap g e : H g e -> exists g', g' <> g /\ H g' (swap e).
Proof using TS.
  intros [A B]. assert (C : In (swap e) (turned_edges fs)).
  { apply (proj2 TS). apply all_edges_in. apply group_edges_in in A as (i & f & Hi & _ & He). eauto. }
  apply all_edges_in in C as (i & f & Hi & He). exists (grp i).
  assert (C : In (swap e) (D (grp i))) by (apply group_edges_in; eauto 8).
  assert (N : grp i <> g) by (intros <-; contradiction).
  split; [exact N|]. split; [exact C|]. rewrite swap_swap. intros X. apply N. exact (group_disjoint fs grp (proj1 TS) _ _ e X A).
Qed.

Definition link (x y : nat * nat) : Prop := exists g, H g x /\ H g y /\ fst y = snd x /\ col g x y = true.
Lemma link_fun x y z : link x y -> link x z -> y = z.
Proof using TS NP.
  intros (g & A & B & C & _) (g' & A' & B' & C' & _). assert (g' = g) as -> by exact (H_group _ _ _ A' A).
  apply (H_out g); congruence.
Qed.
Lemma link_inj x y z : link x z -> link y z -> x = y.
Proof using TS NP.
  intros (g & A & B & C & _) (g' & A' & B' & C' & _). assert (g' = g) as -> by exact (H_group _ _ _ B' B).
  apply (H_in g); congruence.
Qed.
Lemma link_swap x y : link x y -> link (swap y) (swap x).
Proof using TS EL.
  intros (g & A & B & C & E). destruct (H_swap g x A) as (g' & N & A'). exists g'.
  unfold colinear in E. apply andb_true_iff in E as [E1 E2]. apply list_eqb_true in E1.
  assert (I : In g' (edge_face_groups fs grp y)).
  { rewrite <- E1. apply edge_face_groups_in. right. apply A'. }
  apply edge_face_groups_in in I as [I|I].
  { exfalso. apply N. exact (group_disjoint fs grp (proj1 TS) _ _ y I (proj1 B)). }
  assert (B' : H g' (swap y)).
  { split; [exact I|]. rewrite swap_swap. intros X. apply N. exact (group_disjoint fs grp (proj1 TS) _ _ y X (proj1 B)). }
  split; [exact B'|]. split; [exact A'|]. split; [cbn; congruence|].
  unfold colinear. apply andb_true_iff. split.
  { apply list_eqb_true. now rewrite !edge_face_groups_swap. }
  apply orb_true_iff. right. destruct x as [a b], y as [b' c]. cbn in C. subst b'. cbn [swap fst snd] in *.
  destruct EL as [Sy EL']. rewrite (EL' g' c b a B' A'), Sy. rewrite <- (EL' g a b c A B).
  apply orb_true_iff in E2 as [E2|E2]; [|exact E2]. exfalso. apply edge_eqb_true in E2 as [E2|E2].
  - injection E2 as -> ->. destruct A as [A1 A2]. exact (A2 A1).
  - cbn in E2. injection E2 as -> . destruct A as [A1 A2], B as [B1 B2]. exact (A2 B1).
Qed.

(** * Maximal runs *)
Definition maxrun (r : list (nat * nat)) : Prop :=
  r <> [] /\ pairwise link r /\ (forall x, In x r -> exists g, H g x) /\
  (forall x y, last_error r = Some x -> ~ link x y) /\ (forall x y, hd_error r = Some x -> ~ link y x).
Definition flip (r : list (nat * nat)) : list (nat * nat) := rev (map swap r).
Lemma flip_flip r : flip (flip r) = r.
Proof.
  unfold flip. rewrite map_rev, rev_involutive, map_map. rewrite <- (map_id r) at 2. apply map_ext. intros a. apply swap_swap.
Qed.
Lemma pairwise_flip r : pairwise link r -> pairwise link (flip r).
Proof using TS EL.
  induction r as [|x [|y t] IH]; [easy|easy|]. intros [A B]. specialize (IH B). unfold flip in *. cbn [map rev] in *. rewrite <- app_assoc. cbn [app].
  apply pairwise_snoc; [exact IH|]. now apply link_swap.
Qed.
Lemma last_flip r : last_error (flip r) = option_map swap (hd_error r).
Proof. unfold flip, last_error. rewrite rev_involutive. now destruct r. Qed.
Lemma hd_flip r : hd_error (flip r) = option_map swap (last_error r).
Proof. unfold flip, last_error. rewrite <- map_rev. now destruct (rev r). Qed.
Lemma maxrun_flip r : maxrun r -> maxrun (flip r).
Proof using TS EL.
  intros (A & B & C & E & F). split; [|split; [|split; [|split]]].
  - intros X. apply A. rewrite <- (flip_flip r), X. reflexivity.
  - now apply pairwise_flip.
  - intros x Hx. unfold flip in Hx. apply in_rev in Hx. apply in_map_iff in Hx as (e & <- & He). destruct (C e He) as (g & Hg).
    destruct (H_swap g e Hg) as (g' & _ & H'). eauto.
  - intros x y. rewrite last_flip. destruct (hd_error r) as [h|] eqn:Eh; [|easy]. intros [= <-] L. apply link_swap in L. rewrite swap_swap in L. exact (F h (swap y) eq_refl L).
  - intros x y. rewrite hd_flip. destruct (last_error r) as [h|] eqn:Eh; [|easy]. intros [= <-] L. apply link_swap in L. rewrite swap_swap in L. exact (E h (swap y) eq_refl L).
Qed.
Lemma maxrun_eq x : forall t t', pairwise link (x :: t) -> pairwise link (x :: t') ->
  (forall a y, last_error (x :: t) = Some a -> ~ link a y) -> (forall a y, last_error (x :: t') = Some a -> ~ link a y) -> t = t'.
Proof using TS NP.
  intros t. revert x. induction t as [|y t IH]; intros x [|y' t'] P P' L L'.
  - reflexivity.
  - exfalso. exact (L x y' eq_refl (proj1 P')).
  - exfalso. exact (L' x y eq_refl (proj1 P)).
  - destruct P as [P1 P2], P' as [P1' P2']. pose proof (link_fun _ _ _ P1 P1') as <-. f_equal. apply (IH y); [exact P2|exact P2'| |].
    + intros a z Ha. apply (L a z). rewrite <- Ha. apply (last_error_app [x] (y :: t)). easy.
    + intros a z Ha. apply (L' a z). rewrite <- Ha. apply (last_error_app [x] (y :: t')). easy.
Qed.
Lemma maxrun_unique r m x : maxrun r -> maxrun m -> hd_error m = Some x -> In x r -> r = m.
Proof using TS NP.
  intros (A & B & C & E & F) (A' & B' & C' & E' & F') Hm Hx. destruct m as [|x' m]; [easy|]. cbn in Hm. injection Hm as ->.
  destruct r as [|h r]; [easy|]. destruct Hx as [->|Hx].
  - f_equal. now apply (maxrun_eq x).
  - exfalso. destruct (pairwise_prev _ _ _ B x Hx) as (y & _ & L). exact (F' x y eq_refl L).
Qed.

(** * The runs of one outline *)
Definition run_end (r : list (nat * nat)) : nat := match r with [] => 0 | x :: t => snd (last t x) end.
Definition run_ends (r : list (nat * nat)) : nat * nat := match r with [] => (0, 0) | x :: t => (fst x, snd (last t x)) end.
Lemma linked_app e r x s z : linked e (r ++ x :: s) z <-> linked e r (fst x) /\ linked x s z.
Proof. revert e. induction r as [|y r IH]; intros e; cbn; [intuition|]. rewrite IH. tauto. Qed.
Lemma closed_linked x t : closed_walk (x :: t) <-> linked x t (fst x).
Proof.
  unfold closed_walk. cbn [map hes]. split.
  - intros [_ E]. assert (G : forall r e z, path_edges (fst e) (map fst r) z = e :: r -> linked e r z).
    { clear. induction r as [|y r IH]; intros [a b] z; cbn.
      - congruence.
      - intros E. injection E as E1 E2. split; [exact E1|]. apply IH. exact E2. }
    now apply G.
  - intros L. split; [easy|]. now apply path_linked.
Qed.
Lemma closed_turned l l' : turned l l' -> closed_walk l -> closed_walk l'.
Proof.
  intros (a & b & -> & ->). destruct a as [|x a]; [rewrite app_nil_r; trivial|]. destruct b as [|y b]; [rewrite app_nil_r; trivial|].
  cbn [app]. rewrite !closed_linked, !linked_app. tauto.
Qed.
Definition follows (r r' : list (nat * nat)) : Prop := forall x y, last_error r = Some x -> hd_error r' = Some y -> fst y = snd x.
Definition inner_linked (r : list (nat * nat)) : Prop := pairwise (fun x y => fst y = snd x) r.
Lemma linked_inner e r z : linked e r z -> inner_linked (e :: r) /\ snd (last r e) = z.
Proof.
  revert e. induction r as [|y r IH]; intros e; [cbn; tauto|]. intros [A B]. rewrite last_cons. destruct (IH y B) as [C E]. split; [|exact E].
  split; [exact A|exact C].
Qed.
Lemma runs_follow c R y : hd_error R = Some y -> forall rs, rs <> [] -> Forall (run c) rs -> 
  match concat rs with [] => False | x :: t => linked x t (fst y) end -> pairwise follows (rs ++ [R]) /\ Forall inner_linked rs.
Proof.
  intros HR. induction rs as [|r rs IH]; intros N F L; [easy|]. inversion F as [|? ? Fr Ft]; subst. destruct r as [|e r]; [easy|].
  destruct rs as [|r' rs].
  - cbn [concat] in L. rewrite app_nil_r in L. destruct (linked_inner _ _ _ L) as [L1 L2]. split; [|constructor; [exact L1|constructor]].
    cbn [app]. split; [|cbn; auto]. intros a b. rewrite last_error_cons, HR. congruence.
  - inversion Ft as [|? ? Fr' _]; subst. destruct r' as [|e' r']; [easy|]. cbn [concat app] in L.
    apply linked_app in L as [La Lb]. destruct IH as [IH1 IH2]; [easy|exact Ft|exact Lb|].
    destruct (linked_inner _ _ _ La) as [L1 L2]. split; [|constructor; assumption].
    cbn [app] in *. split; [|exact IH1]. intros a b. rewrite last_error_cons. cbn. congruence.
Qed.
Lemma path_runs : forall t r R, Forall (fun r => r <> []) (r :: t ++ [R]) -> pairwise follows (r :: t ++ [R]) ->
  path_edges (run_end r) (map run_end t) (run_end R) = map run_ends (t ++ [R]).
Proof.
  assert (E : forall r r', r <> [] -> r' <> [] -> follows r r' -> (run_end r, run_end r') = run_ends r').
  { intros [|x r] [|y r']; try easy. intros _ _ F. cbn. f_equal. symmetry. apply (F (last r x) y); [apply last_error_cons|reflexivity]. }
  induction t as [|r' t IH]; intros r R N P; inversion N as [|? ? N1 N2]; subst; destruct P as [P1 P2].
  - cbn in *. inversion N2; subst. now rewrite E.
  - cbn [app map path_edges] in *. inversion N2; subst. rewrite IH by assumption. now rewrite E.
Qed.
Lemma ends_loop rs loop : Forall (fun r => r <> []) rs -> omap (fun g => option_map snd (last_error g)) rs = Some loop -> loop = map run_end rs.
Proof.
  revert loop. induction rs as [|r rs IH]; cbn; intros loop N; [congruence|]. inversion N; subst. destruct r as [|x r]; [easy|]. rewrite last_error_cons. cbn.
  destruct (omap _ rs) as [l|]; [|easy]. intros [= <-]. f_equal. now apply IH.
Qed.
Lemma chained_pairs c x t : chained c x t -> pairwise (fun x y => c x y = true) (x :: t).
Proof. revert x. induction t as [|y t IH]; intros x; cbn [chained]; [cbn; auto|]. intros [A B]. split; [exact A|now apply IH]. Qed.

Lemma outline_runs g l loop : closed_walk l -> (forall e, In e l -> H g e) -> merge_colinear (col g) l = Some loop ->
  exists rs, Forall maxrun rs /\ Permutation (concat rs) l /\ Permutation (hes loop) (map run_ends rs).
Proof using TS NP.
  intros CW HI M. unfold merge_colinear in M. destruct (colinear_groups (col g) l) as [rs|] eqn:Eg; [|easy].
  destruct (colinear_groups_ok _ _ _ Eg) as (N & F & B & T).
  assert (NE : Forall (fun r => r <> []) rs) by (eapply Forall_impl; [|exact F]; intros [|]; easy).
  pose proof (ends_loop _ _ NE M) as ->. clear M Eg.
  assert (P : Permutation (concat rs) l) by (destruct T as (a & b & -> & ->); apply Permutation_app_comm).
  assert (CW' : closed_walk (concat rs)).
  { apply (closed_turned l); [|exact CW]. destruct T as (a & b & -> & ->). exists b, a. auto. }
  assert (HI' : forall e, In e (concat rs) -> H g e) by (intros e He; apply HI; eapply Permutation_in; eauto).
  destruct rs as [|r1 rs]; [easy|]. inversion F as [|? ? F1 Ft]; subst. destruct r1 as [|x0 r0]; [easy|].
  destruct (runs_follow (col g) (x0 :: r0) x0 eq_refl ((x0 :: r0) :: rs) N F) as [PF IL].
  { cbn [concat app]. cbn [concat app] in CW'. now apply closed_linked. }
  exists ((x0 :: r0) :: rs). split; [|split; [exact P|]].
  - unfold cyclic_breaks in B. apply breaks_pairwise in B. rewrite app_comm_cons in B.
    apply Forall_forall. intros r Hr.
    assert (HR : forall e, In e r -> H g e) by (intros e He; apply HI'; apply in_concat; eauto).
    rewrite Forall_forall in F, IL, NE. pose proof (F r Hr) as Fr. pose proof (IL r Hr) as Ir. destruct r as [|x t]; [easy|].
    assert (IN : forall r', In r' (((x0 :: r0) :: rs) ++ [x0 :: r0]) -> In r' ((x0 :: r0) :: rs)).
    { intros r' Hi. apply in_app_or in Hi as [Hi|[<- |[]]]; [exact Hi|now left]. }
    assert (PB : pairwise (fun r r' => follows r r' /\ breaks_at (col g) r r') (((x0 :: r0) :: rs) ++ [x0 :: r0])).
    { clear - PF B. induction (((x0 :: r0) :: rs) ++ [x0 :: r0]) as [|a [|b t] IH]; [exact I|split; exact I|].
      destruct PF as [P1 P2], B as [B1 B2]. split; [now split|now apply IH]. }
    split; [easy|]. split; [|split; [|split]].
    + apply chained_pairs in Fr. clear - Fr Ir HR. revert Fr Ir HR. generalize (x :: t). clear. intros l.
      induction l as [|a [|b l] IH]; [easy|easy|]. intros [A1 A2] [B1 B2] HR. split; [|apply IH; auto; intros; apply HR; now right].
      exists g. split; [apply HR; now left|]. split; [apply HR; right; now left|]. auto.
    + intros e He. exists g. auto.
    + intros a y Ha (g' & G1 & G2 & G3 & G4).
      destruct (pairwise_next _ _ _ PB _ Hr) as (r' & Hr' & J1 & J2). apply IN in Hr'.
      destruct r' as [|y' r']; [exact (NE _ Hr' eq_refl)|].
      assert (Hy' : H g y') by (apply HI'; apply in_concat; exists (y' :: r'); split; [exact Hr'|now left]).
      assert (Hga : H g a). { apply HR. rewrite last_error_cons in Ha. injection Ha as <-. clear. revert x. induction t as [|b t IH]; intros x; [now left|]. right. rewrite last_cons. apply IH. }
      assert (g' = g) as -> by exact (H_group _ _ _ G1 Hga).
      assert (y = y') as -> by (apply (H_out g); auto; rewrite G3; symmetry; now apply (J1 a y' Ha)).
      rewrite (J2 a y' Ha eq_refl) in G4. easy.
    + intros a y Ha (g' & G1 & G2 & G3 & G4). cbn in Ha. injection Ha as <-.
      assert (Hr2 : In (x :: t) (rs ++ [x0 :: r0])).
      { destruct Hr as [<- |Hr]; apply in_or_app; [right; now left|now left]. }
      destruct (pairwise_prev _ _ _ PB _ Hr2) as (r' & Hr' & J1 & J2). apply IN in Hr'.
      destruct r' as [|y' r']; [exact (NE _ Hr' eq_refl)|].
      assert (Hx : H g x) by (apply HR; now left). assert (g' = g) as -> by exact (H_group _ _ _ G2 Hx).
      assert (Hy' : H g (last r' y')). { apply HI'. apply in_concat. exists (y' :: r'). split; [exact Hr'|]. clear. revert y'. induction r' as [|b t IH]; intros y'; [now left|]. right. rewrite last_cons. apply IH. }
      assert (E : fst x = snd (last r' y')) by (apply J1; [apply last_error_cons|reflexivity]).
      assert (y = last r' y') as -> by (apply (H_in g); congruence).
      rewrite (J2 (last r' y') x (last_error_cons _ _) eq_refl) in G4. easy.
  - cbn [map hes]. rewrite path_runs.
    + rewrite map_app. cbn [map]. symmetry. apply Permutation_cons_append.
    + cbn [app] in *. rewrite app_comm_cons. apply Forall_app. split; [exact NE|]. constructor; [easy|constructor].
    + exact PF.
Qed.

(** * All groups *)
Variables (order : nat -> list (nat * nat)) (tf : nat).
Hypothesis ORD : forall g, Permutation (order g) (outline_halfedges (group_faces fs grp g)).
Hypothesis FUEL : length (turned_edges fs) < tf.

Lemma order_spec g : NoDup (order g) /\ forall e, In e (order g) <-> H g e.
Proof using TS ORD.
  destruct (outline_halfedges_spec _ (group_nodup fs grp (proj1 TS) g)) as [N I]. split.
  - eapply Permutation_NoDup; [symmetry; apply ORD|exact N].
  - intros e. rewrite <- I. split; apply Permutation_in; [|symmetry]; apply ORD.
Qed.
Lemma group_extract g : exists ol, extract_outlines (group_faces fs grp g) (order g) tf = Some ol /\ Forall closed_walk ol /\ Permutation (concat ol) (order g).
Proof using TS NP ORD FUEL.
  destruct (order_spec g) as [N I]. apply extract_ok.
  - exact (group_nodup fs grp (proj1 TS) g).
  - intros u v _ _ P _. exact (NP g u P).
  - exact N.
  - exact I.
  - eapply Nat.le_lt_trans; [|exact FUEL]. apply NoDup_incl_length; [exact (group_nodup fs grp (proj1 TS) g)|].
    intros e He. apply group_edges_in in He as (i & f & Hi & _ & He). apply all_edges_in. eauto.
Qed.
Lemma group_runs g ol loops : Forall closed_walk ol -> (forall e, In e (concat ol) -> H g e) -> omap (merge_colinear (col g)) ol = Some loops ->
  exists rs, Forall maxrun rs /\ Permutation (concat rs) (concat ol) /\ Permutation (flat_map hes loops) (map run_ends rs).
Proof using TS NP.
  revert loops. induction ol as [|l ol IH]; cbn [omap concat]; intros loops C I E.
  - injection E as <-. exists []. cbn. auto.
  - inversion C; subst. destruct (merge_colinear (col g) l) as [lp|] eqn:El; [|easy]. destruct (omap (merge_colinear (col g)) ol) as [lps|] eqn:Eo; [|easy].
    injection E as <-. destruct (outline_runs g l lp) as (r1 & A1 & A2 & A3); [assumption|intros; apply I; apply in_or_app; now left|exact El|].
    destruct (IH lps) as (r2 & B1 & B2 & B3); [assumption|intros; apply I; apply in_or_app; now right|reflexivity|].
    exists (r1 ++ r2). split; [now apply Forall_app|]. split.
    + rewrite concat_app. now apply Permutation_app.
    + cbn [flat_map]. rewrite map_app. now apply Permutation_app.
Qed.
Lemma all_runs gs R : merge_groups fs grp line order tf gs = Some R ->
  exists rs, Forall maxrun rs /\ Permutation (concat rs) (flat_map order gs) /\ Permutation (loop_edges R) (map run_ends rs).
Proof using TS NP ORD FUEL.
  revert R. induction gs as [|g gs IH]; cbn [merge_groups flat_map]; intros R E.
  - injection E as <-. exists []. cbn. auto.
  - destruct (group_extract g) as (ol & E1 & C & P). rewrite E1 in E. destruct (omap (merge_colinear (col g)) ol) as [lps|] eqn:Eo; [|easy].
    destruct (merge_groups fs grp line order tf gs) as [r|]; [|easy]. injection E as <-.
    destruct (IH r eq_refl) as (r2 & B1 & B2 & B3).
    destruct (group_runs g ol lps C) as (r1 & A1 & A2 & A3); [|exact Eo|].
    { intros e He. apply order_spec. eapply Permutation_in; [exact P|exact He]. }
    exists (r1 ++ r2). split; [now apply Forall_app|]. split.
    + rewrite concat_app. apply Permutation_app; [now rewrite A2|exact B2].
    + unfold loop_edges. cbn [concat]. rewrite flat_map_app, map_app. now apply Permutation_app.
Qed.
Lemma order_nodup gs : NoDup gs -> NoDup (flat_map order gs).
Proof using TS ORD.
  induction 1 as [|g gs N Ng IH]; cbn; [constructor|]. apply NoDup_app_intro; [apply order_spec|exact IH|].
  intros e He Hi. apply order_spec in He. apply in_flat_map in Hi as (g' & Hg' & Hi). apply order_spec in Hi. apply N. now rewrite (H_group _ _ _ He Hi).
Qed.
Lemma nodup_runs (rs : list (list (nat * nat))) : Forall (fun r => r <> []) rs -> NoDup (concat rs) -> NoDup rs.
Proof.
  induction 1 as [|r rs Nr F IH]; cbn; intros N; [constructor|]. constructor.
  - intros Hi. destruct r as [|x r]; [easy|]. cbn in N. inversion N as [|? ? N1 _]; subst. apply N1. apply in_or_app. right. apply in_concat. exists (x :: r). split; [exact Hi|now left].
  - apply IH. clear - N. induction r; [exact N|]. inversion N. auto.
Qed.
Lemma run_ends_flip r : r <> [] -> run_ends (flip r) = swap (run_ends r).
Proof.
  intros N. assert (E : forall l a b, hd_error l = Some a -> last_error l = Some b -> run_ends l = (fst a, snd b)).
  { intros [|x t] a b; [easy|]. rewrite last_error_cons. cbn. congruence. }
  destruct r as [|x t]; [easy|]. rewrite (E (flip (x :: t)) (swap (last t x)) (swap x)).
  - reflexivity.
  - rewrite hd_flip, last_error_cons. reflexivity.
  - rewrite last_flip. reflexivity.
Qed.
Theorem loops_balanced gs R : NoDup gs -> (forall i, i < length fs -> In (grp i) gs) -> merge_groups fs grp line order tf gs = Some R -> balanced (loop_edges R).
Proof using TS NP EL ORD FUEL.
  intros N A E. destruct (all_runs gs R E) as (rs & M & P & Q).
  assert (NE : Forall (fun r => r <> []) rs) by (eapply Forall_impl; [|exact M]; intros r Hr; apply Hr).
  assert (Nr : NoDup rs). { apply nodup_runs; [exact NE|]. eapply Permutation_NoDup; [symmetry; exact P|]. now apply order_nodup. }
  rewrite Forall_forall in M, NE.
  assert (IN : forall r, In r rs -> In (flip r) rs).
  { intros r Hr. pose proof (maxrun_flip r (M r Hr)) as Mf. pose proof Mf as (F1 & _ & F3 & _).
    destruct (flip r) as [|h t] eqn:Ef; [easy|]. destruct (F3 h (or_introl eq_refl)) as (g & Hg).
    assert (Gg : In g gs).
    { destruct Hg as [Hg _]. apply group_edges_in in Hg as (i & f & Hi & <- & _). apply A. apply nth_error_Some. congruence. }
    assert (Hh : In h (concat rs)).
    { eapply Permutation_in; [symmetry; exact P|]. apply in_flat_map. exists g. split; [exact Gg|]. now apply order_spec. }
    apply in_concat in Hh as (r' & Hr' & Hh). rewrite <- (maxrun_unique r' (h :: t) h (M r' Hr') Mf eq_refl Hh). exact Hr'. }
  assert (PF : Permutation (map flip rs) rs).
  { apply NoDup_Permutation.
    - assert (K : forall l, NoDup l -> NoDup (map flip l)).
      { induction 1 as [|a l Na Nl IH]; cbn; constructor; [|exact IH]. intros Hi. apply in_map_iff in Hi as (b & Eb & Hb). apply Na. rewrite <- (flip_flip a), <- Eb, flip_flip. exact Hb. }
      now apply K.
    - exact Nr.
    - intros r. rewrite in_map_iff. split.
      + intros (b & <- & Hb). now apply IN.
      + intros Hr. exists (flip r). split; [apply flip_flip|now apply IN]. }
  intros u v. rewrite !(times_perm _ _ _ Q). rewrite <- (times_perm _ _ (u, v) (Permutation_map run_ends PF)), map_map.
  rewrite (map_ext_in _ (fun r => swap (run_ends r))) by (intros r Hr; apply run_ends_flip; auto).
  rewrite <- (map_map run_ends swap). apply times_swap.
Qed.
End Groups.
