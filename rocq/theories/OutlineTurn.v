(** The map of the next halfedges, turning around a pinched vertex, and the
    outlines of one group of faces. *)
From Coq Require Import List Arith Bool Lia Permutation Relations.
From Verif Require Import Lib Tet Bsp BspSpec BspCut BspGlue Outline OutlineSpec OutlineWalk.
Import ListNotations.

Lemma map_fst_combine {A B} (l : list A) (l' : list B) : length l = length l' -> map fst (combine l l') = l.
Proof. revert l'; induction l as [|a t IH]; intros [|b t']; cbn; intros H; try easy. f_equal. apply IH. lia. Qed.
Lemma map_snd_combine {A B} (l : list A) (l' : list B) : length l = length l' -> map snd (combine l l') = l'.
Proof. revert l'; induction l as [|a t IH]; intros [|b t']; cbn; intros H; try easy. f_equal. apply IH. lia. Qed.
Lemma path_joined t : forall x y z a b, In (a, b) (combine (path_edges x t y) (tl (path_edges x t y) ++ [(y, z)])) -> snd a = fst b.
Proof.
  induction t as [|c r IH]; intros x y z a b; cbn.
  - intros [H|[]]. injection H as <- <-. reflexivity.
  - assert (E : exists w, hd_error (path_edges c r y) = Some (c, w)) by (destruct r; cbn; eauto).
    destruct E as (w & E). destruct (path_edges c r y) as [|q l] eqn:P; [easy|]. cbn in E. injection E as ->.
    cbn. intros [H|H]; [injection H as <- <-; reflexivity|]. apply (IH c y z). rewrite P. exact H.
Qed.
Lemma he_nexts_fst l : map fst (he_nexts l) = hes l.
Proof. unfold he_nexts. destruct (hes l) as [|h t]; [reflexivity|]. apply map_fst_combine. rewrite app_length. cbn. lia. Qed.
Lemma he_nexts_snd l : Permutation (map snd (he_nexts l)) (hes l).
Proof.
  unfold he_nexts. destruct (hes l) as [|h t]; [reflexivity|]. rewrite map_snd_combine by (rewrite app_length; cbn; lia).
  symmetry. apply Permutation_cons_append.
Qed.
Lemma he_nexts_joined l a b : In (a, b) (he_nexts l) -> snd a = fst b.
Proof.
  unfold he_nexts. destruct l as [|x t]; [easy|]. cbn [hes].
  assert (E : exists w l, path_edges x t x = (x, w) :: l) by (destruct t; cbn; eauto).
  destruct E as (w & l & E). intros H. apply (path_joined t x x w). rewrite E in *. exact H.
Qed.

(** The steps of a face, turned by its sign. *)
Definition ksteps (f : kface) : list ((nat * nat) * (nat * nat)) :=
  map (fun p : (nat * nat) * (nat * nat) => let '(ha, hb) := p in if kpos f then (ha, hb) else (swap hb, swap ha)) (he_nexts (kcycle f)).
Definition steps (fs : list kface) := concat (map ksteps fs).
Lemma ksteps_fst f : Permutation (map fst (ksteps f)) (kedges f).
Proof.
  unfold ksteps, kedges. rewrite map_map. destruct (kpos f).
  - erewrite map_ext; [rewrite he_nexts_fst; reflexivity|]. now intros [a b].
  - transitivity (map swap (map snd (he_nexts (kcycle f)))); [rewrite map_map; erewrite map_ext; [reflexivity|]; now intros [a b]|].
    apply Permutation_map, he_nexts_snd.
Qed.
Lemma ksteps_snd f : Permutation (map snd (ksteps f)) (kedges f).
Proof.
  unfold ksteps, kedges. rewrite map_map. destruct (kpos f).
  - etransitivity; [|apply he_nexts_snd]. erewrite map_ext; [reflexivity|]. now intros [a b].
  - transitivity (map swap (map fst (he_nexts (kcycle f)))); [rewrite map_map; erewrite map_ext; [reflexivity|]; now intros [a b]|].
    now rewrite he_nexts_fst.
Qed.
Lemma steps_perm (p : (nat * nat) * (nat * nat) -> nat * nat) fs : (forall f, Permutation (map p (ksteps f)) (kedges f)) ->
  Permutation (map p (steps fs)) (counted fs).
Proof.
  intros H. unfold steps, counted. induction fs as [|f t IH]; cbn; [reflexivity|].
  rewrite map_app. now apply Permutation_app.
Qed.
Lemma steps_joined fs g x : In (g, x) (steps fs) -> fst x = snd g.
Proof.
  unfold steps. intros H. apply in_concat in H as (l & Hl & H). apply in_map_iff in Hl as (f & <- & _).
  apply in_map_iff in H as ([a b] & E & H). apply he_nexts_joined in H.
  destruct (kpos f); injection E as <- <-; cbn; congruence.
Qed.
Lemma insertions_steps fs hs : insertions fs hs = filter (fun p => multi hs (snd (fst p))) (steps fs).
Proof.
  unfold insertions, steps. induction fs as [|f t IH]; [reflexivity|]. cbn [map concat]. rewrite filter_app, <- IH. f_equal.
  unfold ksteps. pose proof (he_nexts_joined (kcycle f)) as J. induction (he_nexts (kcycle f)) as [|[a b] r IH']; [reflexivity|].
  cbn [map concat filter]. rewrite IH' by (intros; apply J; now right).
  assert (snd a = fst b) as E by (apply J; now left).
  destruct (kpos f); cbn [fst snd swap]; [|rewrite <- E]; destruct (multi hs (snd a)); reflexivity.
Qed.
Lemma counted_turned fs : counted fs = turned_edges fs.
Proof. unfold counted, turned_edges. now rewrite flat_map_concat_map. Qed.

(** * The halfedges of the outline *)
Lemma once_spec l : NoDup (once l) /\ forall e, In e (once l) <-> In e l.
Proof.
  induction l as [|a t [N I]]; cbn; [split; [constructor|tauto]|].
  destruct (existsb (he_eqb a) t) eqn:E.
  - apply (visited_true t a) in E. split; [exact N|]. intros e. rewrite I. split; [now right|]. intros [<- |H]; auto.
  - apply (visited_false t a) in E. split.
    + constructor; [|exact N]. now rewrite I.
    + intros e. cbn. now rewrite I.
Qed.
Lemma count_in l e : NoDup l -> count l e = if visited l e then 1 else 0.
Proof.
  unfold count, visited. induction 1 as [|a t H N IH]; cbn; [reflexivity|].
  destruct (he_eqb_spec e a) as [->|D]; cbn; [|exact IH].
  rewrite IH. apply visited_false in H. unfold visited in H. now rewrite H.
Qed.
Lemma outline_halfedges_spec fs : NoDup (turned_edges fs) -> NoDup (outline_halfedges fs) /\ forall e, In e (outline_halfedges fs) <-> on_outline fs e.
Proof.
  intros N. unfold outline_halfedges, on_outline. rewrite <- counted_turned in *. destruct (once_spec (counted fs)) as [N' I].
  split; [now apply NoDup_filter|]. intros e. rewrite filter_In, I, !count_in by exact N.
  rewrite <- !visited_true. destruct (visited (counted fs) e), (visited (counted fs) (swap e)); cbn; intuition congruence.
Qed.

(** * Turning *)
Lemma edge_eqb_swap_r h e : edge_eqb h (swap e) = edge_eqb h e.
Proof. unfold edge_eqb. rewrite swap_swap. apply orb_comm. Qed.
Lemma lookup_swap ins e : lookup ins (swap e) = lookup ins e.
Proof.
  unfold lookup. f_equal. induction (rev ins) as [|a t IH]; cbn; [reflexivity|]. now rewrite edge_eqb_swap_r, IH.
Qed.
Lemma turn_swap ins group c f : turn ins group (swap c) f = turn ins group c f.
Proof. destruct f; cbn; [reflexivity|]. now rewrite lookup_swap. Qed.

Section Group.
Variables (fs : list kface) (hs : list (nat * nat)).
Let D := turned_edges fs.
Hypothesis ND : NoDup D.
Hypothesis AP : apart fs.
Hypothesis Nhs : NoDup hs.
Hypothesis Hhs : forall e, In e hs <-> on_outline fs e.

Lemma steps_fst : NoDup (map fst (steps fs)) /\ forall e, In e D <-> In e (map fst (steps fs)).
Proof using ND.
  pose proof (steps_perm fst fs ksteps_fst) as P. rewrite counted_turned in P. split.
  - apply (Permutation_NoDup (Permutation_sym P) ND).
  - intros e. split; apply Permutation_in; [apply Permutation_sym|]; exact P.
Qed.
Lemma steps_snd : NoDup (map snd (steps fs)) /\ forall e, In e D <-> In e (map snd (steps fs)).
Proof using ND.
  pose proof (steps_perm snd fs ksteps_snd) as P. rewrite counted_turned in P. split.
  - apply (Permutation_NoDup (Permutation_sym P) ND).
  - intros e. split; apply Permutation_in; [apply Permutation_sym|]; exact P.
Qed.
Lemma multi_pinch v : multi hs v = true -> pinch fs v.
Proof using Nhs Hhs.
  unfold multi. rewrite Nat.leb_le. intros H.
  assert (N : NoDup (outs hs v)) by now apply NoDup_filter.
  assert (I : forall e, In e (outs hs v) -> on_outline fs e /\ fst e = v) by (intros e He; apply outs_in in He as [A B]; now rewrite <- Hhs).
  destruct (outs hs v) as [|[a a'] [|[b b'] t]]; cbn in H; try lia.
  destruct (I (a, a')) as [Ia <-]; [now left|]. destruct (I (b, b')) as [Ib E]; [right; now left|]. cbn in *. subst b.
  exists a', b'. split; [|split; assumption]. intros <-. inversion N; subst. apply H2. now left.
Qed.
Lemma lookup_ok g y : In (g, y) (steps fs) -> multi hs (snd g) = true -> lookup (insertions fs hs) g = Some y.
Proof using ND AP Nhs Hhs.
  intros H M. rewrite insertions_steps. unfold lookup.
  destruct (find (fun p => edge_eqb (fst p) g) (rev (filter (fun p => multi hs (snd (fst p))) (steps fs)))) as [[g2 y2]|] eqn:E; cbn.
  - apply find_some in E as [I E]. apply in_rev in I. apply filter_In in I as [I M2]. cbn in E, M2.
    apply edge_eqb_true in E as [-> | ->].
    + f_equal. apply (pair_fst (steps fs) g); [apply steps_fst|exact I|exact H].
    + exfalso. destruct g as [u v]. cbn in *. apply (AP u v).
      * apply steps_fst. apply (in_map fst) in H. exact H.
      * apply steps_fst. apply (in_map fst) in I. exact I.
      * now apply multi_pinch.
      * now apply multi_pinch.
  - exfalso. assert (In (g, y) (rev (filter (fun p => multi hs (snd (fst p))) (steps fs)))) as I.
    { apply -> in_rev. apply filter_In. auto. }
    apply (find_none _ _ E) in I. cbn in I.
    assert (edge_eqb g g = true) by (apply edge_eqb_true; now left). congruence.
Qed.
Lemma turn_chain tf e x h : In e hs -> multi hs (snd e) = true -> In (h, x) (steps fs) -> ~ In (swap x) D ->
  forall n l g, trail (steps fs) D e l g -> clos_refl_trans_1n _ (across (steps fs) D) g h -> length D < n + length l -> n <= tf ->
  turn (insertions fs hs) (outs hs (snd e)) g n = Some x.
Proof using ND AP Nhs Hhs.
  intros He M Hx Nx. pose proof steps_fst as [F1 F2]. pose proof steps_snd as [S1 S2].
  assert (Hhs' : forall e, In e hs <-> In e D /\ ~ In (swap e) D) by exact Hhs.
  induction n as [|n IH]; intros l g T R L Le.
  { destruct (trail_nodup _ _ _ S1 S2 Hhs' _ _ _ He T) as [N I]. pose proof (NoDup_incl_length N I). cbn in L. lia. }
  assert (Sg : snd g = snd e).
  { clear - T. induction T as [|l g g' T IH A]; [reflexivity|]. apply across_snd in A; [congruence|]. intros; eapply steps_joined; eauto. }
  assert (X : forall y, In (g, y) (steps fs) -> fst y = snd e) by (intros y Hy; apply steps_joined in Hy; congruence).
  assert (Y : exists y, In (g, y) (steps fs)).
  { destruct (trail_nodup _ _ _ S1 S2 Hhs' _ _ _ He T) as [_ I].
    pose proof (I g (trail_hd _ _ _ _ _ T)) as Hg. apply F2 in Hg. apply in_map_iff in Hg as ([g0 y] & <- & Hy). eauto. }
  destruct Y as (y & Hy). cbn [turn]. rewrite (lookup_ok g y Hy) by congruence.
  assert (Dy : In y D) by (apply S2; apply (in_map snd) in Hy; exact Hy).
  destruct (find (fun h0 => edge_eqb h0 y) (outs hs (snd e))) as [q|] eqn:Ef.
  - apply find_some in Ef as [Iq Eq]. apply outs_in in Iq as [Iq Fq]. apply Hhs' in Iq as [Dq Nq].
    apply edge_eqb_true in Eq as [-> | ->]; [|rewrite swap_swap in Nq; contradiction].
    f_equal. inversion R as [|a b [A1 A2] R']; subst.
    + apply (pair_fst _ _ _ _ F1 Hy Hx).
    + exfalso. apply Nq. rewrite <- (pair_fst _ _ _ _ F1 A1 Hy). now rewrite swap_swap.
  - inversion R as [|a b [A1 A2] R']; subst.
    + exfalso. rewrite (pair_fst _ _ _ _ F1 Hy Hx) in *.
      assert (I : In x (outs hs (snd e))) by (apply outs_in; split; [apply Hhs'; split; assumption|auto]).
      apply (find_none _ _ Ef) in I. cbn in I. assert (edge_eqb x x = true) by (apply edge_eqb_true; now left). congruence.
    + assert (A : across (steps fs) D g a) by now split.
      pose proof (pair_fst _ _ _ _ F1 A1 Hy) as <-. rewrite turn_swap.
      apply (IH (a :: l) a); [econstructor 2; eauto|exact R'|cbn; lia|lia].
Qed.
Lemma turn_ok tf : length D < tf -> forall e x, In e hs -> 2 <= length (outs hs (snd e)) -> paired (steps fs) D e x ->
  turn (insertions fs hs) (outs hs (snd e)) e tf = Some x.
Proof using ND AP Nhs Hhs.
  intros Lt e x He M (h & R & I & N). eapply (turn_chain tf e x h He); eauto.
  - unfold multi. now apply Nat.leb_le.
  - constructor.
  - cbn. lia.
Qed.
Lemma extract_ok tf : length D < tf -> exists ol, extract_outlines fs hs tf = Some ol /\ Forall closed_walk ol /\ Permutation (concat ol) hs.
Proof using ND AP Nhs Hhs.
  intros Lt. pose proof steps_fst as [F1 F2]. pose proof steps_snd as [S1 S2].
  destruct (outlines_ok (steps fs) D hs S1 F2 S2 (fun g x => steps_joined fs g x) Hhs (insertions fs hs) tf Nhs (turn_ok tf Lt) hs [])
    as (ol & E & C & N & I & T).
  - easy.
  - constructor.
  - easy.
  - easy.
  - now intros w x _ [].
  - exists ol. split; [exact E|]. split; [exact C|]. rewrite app_nil_r in *.
    apply NoDup_Permutation; [exact N|exact Nhs|]. intros e. split; auto.
Qed.
End Group.
