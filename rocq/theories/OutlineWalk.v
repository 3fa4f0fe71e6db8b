(** Following the outlines: the pairing of the halfedges at a vertex, and the
    invariants of the walk. *)
From Coq Require Import List Arith Bool Lia Permutation Relations.
From Verif Require Import Lib Tet Bsp BspSpec BspCut BspGlue Outline OutlineSpec.
Import ListNotations.

Lemma pair_fst {A B} (S : list (A * B)) g x y : NoDup (map fst S) -> In (g, x) S -> In (g, y) S -> x = y.
Proof.
  induction S as [|[a b] t IH]; cbn; intros N H H'; [easy|]. inversion N; subst.
  destruct H as [H|H], H' as [H'|H'].
  - congruence.
  - injection H as -> ->. exfalso. apply H2. apply (in_map fst) in H'. exact H'.
  - injection H' as -> ->. exfalso. apply H2. apply (in_map fst) in H. exact H.
  - auto.
Qed.
Lemma pair_snd {A B} (S : list (A * B)) g h x : NoDup (map snd S) -> In (g, x) S -> In (h, x) S -> g = h.
Proof.
  induction S as [|[a b] t IH]; cbn; intros N H H'; [easy|]. inversion N; subst.
  destruct H as [H|H], H' as [H'|H'].
  - congruence.
  - injection H as -> ->. exfalso. apply H2. apply (in_map snd) in H'. exact H'.
  - injection H' as -> ->. exfalso. apply H2. apply (in_map snd) in H. exact H.
  - auto.
Qed.
Lemma visited_true V e : visited V e = true <-> In e V.
Proof.
  unfold visited. rewrite existsb_exists. split.
  - intros (x & Hx & E). destruct (he_eqb_spec e x); congruence.
  - intros H. exists e. split; [exact H|]. now destruct (he_eqb_spec e e).
Qed.
Lemma visited_false V e : visited V e = false <-> ~ In e V.
Proof. rewrite <- visited_true. destruct (visited V e); split; congruence. Qed.
Lemma outs_in hs v e : In e (outs hs v) <-> In e hs /\ fst e = v.
Proof. unfold outs. now rewrite filter_In, Nat.eqb_eq. Qed.

Lemma NoDup_app_intro {A} (a b : list A) : NoDup a -> NoDup b -> (forall x, In x a -> ~ In x b) -> NoDup (a ++ b).
Proof.
  induction a as [|y a IH]; cbn; intros Na Nb H; [exact Nb|]. inversion Na; subst. constructor.
  - rewrite in_app_iff. intros [Hi|Hi]; [contradiction|]. exact (H y (or_introl eq_refl) Hi).
  - apply IH; auto.
Qed.

Section Pairing.
Variables (S : list ((nat * nat) * (nat * nat))) (D hs : list (nat * nat)).
Hypothesis HF : NoDup (map fst S).
Hypothesis HS : NoDup (map snd S).
Hypothesis HDf : forall e, In e D <-> In e (map fst S).
Hypothesis HDs : forall e, In e D <-> In e (map snd S).
Hypothesis HJ : forall g x, In (g, x) S -> fst x = snd g.
Hypothesis Hhs : forall e, In e hs <-> In e D /\ ~ In (swap e) D.

(** One turn: across the face of [g], then to the other side of the edge. *)
Definition across (g g' : nat * nat) : Prop := In (g, swap g') S /\ In g' D.
Definition paired (e x : nat * nat) : Prop := exists h, clos_refl_trans_1n _ across e h /\ In (h, x) S /\ ~ In (swap x) D.

Lemma across_inj a b c : across a c -> across b c -> a = b.
Proof using HS. intros [H _] [H' _]. exact (pair_snd S _ _ _ HS H H'). Qed.
Lemma across_fun a b c : across a b -> across a c -> b = c.
Proof using HF.
  intros [H _] [H' _]. pose proof (pair_fst S _ _ _ HF H H') as E.
  rewrite <- (swap_swap b), E. apply swap_swap.
Qed.
Lemma across_not_start a b : across a b -> In (swap b) D.
Proof using HDs. intros [H _]. apply HDs. apply (in_map snd) in H. exact H. Qed.
Lemma across_snd a b : across a b -> snd b = snd a.
Proof using HJ. intros [H _]. apply HJ in H. exact H. Qed.

Lemma rt_comparable a b c : clos_refl_trans_n1 _ across a c -> clos_refl_trans_n1 _ across b c ->
  clos_refl_trans_n1 _ across a b \/ clos_refl_trans_n1 _ across b a.
Proof using HS.
  induction 1 as [|y z Hyz Hay IH]; intros H.
  - now right.
  - inversion H as [|y' z' Hyz' Hb]; subst.
    + left. econstructor 2; eauto.
    + rewrite (across_inj _ _ _ Hyz' Hyz) in Hb. auto.
Qed.
Lemma rt_start a b : clos_refl_trans_n1 _ across a b -> ~ In (swap b) D -> a = b.
Proof using HDs.
  intros H N. inversion H as [|y z Hyz Ha]; subst; [reflexivity|].
  exfalso. exact (N (across_not_start _ _ Hyz)).
Qed.
Lemma paired_inj a b x : In a hs -> In b hs -> paired a x -> paired b x -> a = b.
Proof using HS HDs Hhs.
  intros Ha Hb (h & R & I & N) (h' & R' & I' & N').
  rewrite <- (pair_snd S _ _ _ HS I I') in R'.
  apply clos_rt1n_rt, clos_rt_rtn1 in R, R'.
  apply Hhs in Ha as [_ Ha]. apply Hhs in Hb as [_ Hb].
  destruct (rt_comparable _ _ _ R R') as [H|H].
  - exact (rt_start _ _ H Hb).
  - symmetry. exact (rt_start _ _ H Ha).
Qed.
Lemma rt_snd a b : clos_refl_trans_1n _ across a b -> snd b = snd a.
Proof using HJ. induction 1; [reflexivity|]. apply across_snd in H. congruence. Qed.
Lemma paired_out e x : paired e x -> In x (outs hs (snd e)).
Proof using HJ HDs Hhs.
  intros (h & R & I & N). apply outs_in. split.
  - apply Hhs. split; [|exact N]. apply HDs. apply (in_map snd) in I. exact I.
  - rewrite (HJ _ _ I). now apply rt_snd.
Qed.

(** The chain of turns from [e] does not come back to a halfedge, so it ends. *)
Inductive trail (e : nat * nat) : list (nat * nat) -> nat * nat -> Prop :=
| trail_nil : trail e [e] e
| trail_step l g g' : trail e l g -> across g g' -> trail e (g' :: l) g'.
Lemma trail_in e l g : trail e l g -> forall a, In a l -> a = e \/ exists b, In b (tl l) /\ across b a.
Proof.
  induction 1 as [|l g g' T IH A]; intros a.
  - intros [<- |[]]. now left.
  - intros [<- |H].
    + right. exists g. split; [|exact A]. cbn. inversion T; subst; now left.
    + destruct (IH a H) as [->|(b & Hb & Hab)]; [now left|]. right. exists b. split; [|exact Hab].
      cbn. inversion T; subst; [destruct Hb|]. now right.
Qed.
Lemma trail_hd e l g : trail e l g -> In g l.
Proof. inversion 1; subst; now left. Qed.
Lemma trail_nodup e l g : In e hs -> trail e l g -> NoDup l /\ incl l D.
Proof using HS HDs Hhs.
  intros He. induction 1 as [|l g g' T [N I] A].
  - split; [repeat constructor; easy|]. intros a [<- |[]]. now apply Hhs.
  - split.
    + constructor; [|exact N]. intros H.
      destruct (trail_in _ _ _ T _ H) as [->|(b & Hb & Hab)].
      * apply Hhs in He as [_ He]. exact (He (across_not_start _ _ A)).
      * rewrite (across_inj _ _ _ Hab A) in Hb. inversion T; subst; cbn in Hb; [easy|].
        inversion N; subst. contradiction.
    + intros a [<- |H]; [apply A|auto].
Qed.
Lemma in_dec_D e : {In e D} + {~ In e D}.
Proof. apply in_dec. apply he_dec. Qed.
Lemma chain_ends e : In e hs -> forall n l g, trail e l g -> length D < n + length l -> exists x h,
  clos_refl_trans_1n _ across g h /\ In (h, x) S /\ ~ In (swap x) D.
Proof using HS HDf HDs Hhs.
  intros He. induction n as [|n IH]; intros l g T L.
  - destruct (trail_nodup _ _ _ He T) as [N I]. pose proof (NoDup_incl_length N I). lia.
  - destruct (trail_nodup _ _ _ He T) as [N I].
    assert (Hg : In g D) by (apply I; eapply trail_hd; eauto).
    apply HDf in Hg. apply in_map_iff in Hg as ([g0 x] & <- & Hx). cbn in *.
    destruct (in_dec_D (swap x)) as [H|H].
    + assert (A : across g0 (swap x)) by (split; [rewrite swap_swap; exact Hx|exact H]).
      destruct (IH (swap x :: l) (swap x)) as (y & h & R & Hy); [now constructor 2 with g0|cbn; lia|].
      exists y, h. split; [|exact Hy]. econstructor 2; eauto.
    + exists x, g0. split; [constructor 1|]. auto.
Qed.
Lemma paired_ex e : In e hs -> exists x, paired e x.
Proof using HS HDf HDs Hhs.
  intros He. destruct (chain_ends e He (Datatypes.S (length D)) [e] e) as (x & h & H); [constructor|cbn; lia|].
  exists x, h. exact H.
Qed.

(** There are at most as many halfedges into a vertex as out of it. *)
Definition cin (V : list (nat * nat)) w := length (filter (fun e => snd e =? w) V).
Definition cout (V : list (nat * nat)) w := length (filter (fun e => fst e =? w) V).
Lemma paired_images w l : NoDup l -> (forall e, In e l -> In e hs /\ snd e = w) ->
  exists l', NoDup l' /\ length l' = length l /\ forall x, In x l' -> In x (outs hs w) /\ exists e, In e l /\ paired e x.
Proof using HJ HS HDf HDs Hhs.
  induction l as [|e t IH]; intros N H.
  - exists []. split; [constructor|]. split; [reflexivity|]. easy.
  - inversion N; subst. destruct IH as (l' & N' & L & P); [easy|intros; apply H; now right|].
    destruct (H e (or_introl eq_refl)) as [He Hw].
    destruct (paired_ex e He) as (x & Hx).
    exists (x :: l'). split; [|split].
    + constructor; [|exact N']. intros Hi. destruct (P _ Hi) as (_ & e' & He' & Hp).
      assert (e = e') as <-; [|contradiction]. apply (paired_inj e e' x); auto. now apply H; right.
    + cbn. now rewrite L.
    + intros y [<- |Hy].
      * split; [rewrite <- Hw; now apply paired_out|]. exists e. split; [now left|exact Hx].
      * destruct (P _ Hy) as (A & e' & He' & Hp). split; [exact A|]. exists e'. split; [now right|exact Hp].
Qed.
Lemma ins_le_outs w : NoDup hs -> cin hs w <= cout hs w.
Proof using HJ HS HDf HDs Hhs.
  intros N. destruct (paired_images w (filter (fun e => snd e =? w) hs)) as (l' & N' & L & P).
  - now apply NoDup_filter.
  - intros e He. apply filter_In in He as [A B]. apply Nat.eqb_eq in B. auto.
  - unfold cin. rewrite <- L. apply NoDup_incl_length; [exact N'|]. intros x Hx. apply (P x Hx).
Qed.

(** * The walk *)
Variables (ins : list ((nat * nat) * (nat * nat))) (tf : nat).
Hypothesis Nhs : NoDup hs.
Hypothesis Hturn : forall e x, In e hs -> 2 <= length (outs hs (snd e)) -> paired e x -> turn ins (outs hs (snd e)) e tf = Some x.

Definition unvis (V : list (nat * nat)) w := filter (fun h => negb (visited V h)) (outs hs w).
Definition is1 (b : bool) : nat := if b then 1 else 0.
Definition even_walk (b e : nat * nat) V := forall w, cin V w + is1 (fst b =? w) = cout V w + is1 (snd e =? w).
Definition followed (b e : nat * nat) V := forall w x, 2 <= length (unvis V w) -> In x V -> fst x = w ->
  x = b \/ exists y, In y V /\ y <> e /\ paired y x.
Definition even V := forall w, cin V w = cout V w.
Definition all_followed V := forall w x, 2 <= length (unvis V w) -> In x V -> fst x = w -> exists y, In y V /\ paired y x.

Lemma cin_cons x V w : cin (x :: V) w = is1 (snd x =? w) + cin V w.
Proof. unfold cin. cbn. now destruct (snd x =? w). Qed.
Lemma cout_cons x V w : cout (x :: V) w = is1 (fst x =? w) + cout V w.
Proof. unfold cout. cbn. now destruct (fst x =? w). Qed.
Lemma NoDup_filter_le (f : nat * nat -> bool) V W : NoDup V -> incl V W -> length (filter f V) <= length (filter f W).
Proof.
  intros N I. apply NoDup_incl_length; [now apply NoDup_filter|].
  intros x Hx. apply filter_In in Hx as [A B]. apply filter_In. auto.
Qed.
Lemma unvis_split V w : NoDup V -> incl V hs -> length (unvis V w) + cout V w = cout hs w.
Proof using Nhs.
  intros N I.
  assert (E : Permutation (unvis V w ++ filter (fun e => fst e =? w) V) (outs hs w)).
  { apply NoDup_Permutation.
    - apply NoDup_app_intro.
      + apply NoDup_filter, NoDup_filter. exact Nhs.
      + now apply NoDup_filter.
      + intros x Hx Hy. apply filter_In in Hx as [_ Hx], Hy as [Hy _].
        apply visited_true in Hy. rewrite Hy in Hx. easy.
    - now apply NoDup_filter.
    - intros x. rewrite in_app_iff. unfold unvis. rewrite !filter_In, outs_in. split.
      + intros [[H _]|[H E]]; [exact H|]. apply Nat.eqb_eq in E. auto.
      + intros [H E]. destruct (visited V x) eqn:Ev.
        * right. apply visited_true in Ev. apply Nat.eqb_eq in E. auto.
        * now left. }
  apply Permutation_length in E. rewrite app_length in E. exact E.
Qed.
Lemma unvis_cons V x : ~ In x V -> In x hs -> length (unvis V (fst x)) = 1 + length (unvis (x :: V) (fst x)).
Proof using Nhs.
  intros N I. unfold unvis.
  assert (G : forall l, NoDup l -> In x l -> length (filter (fun h => negb (visited V h)) l) = 1 + length (filter (fun h => negb (visited (x :: V) h)) l)).
  { assert (K : forall l, ~ In x l -> filter (fun h => negb (visited (x :: V) h)) l = filter (fun h => negb (visited V h)) l).
    { intros l Hl. apply filter_ext_in. intros a Ha. f_equal. unfold visited. cbn.
      destruct (he_eqb_spec a x); [subst; contradiction|reflexivity]. }
    induction l as [|a t IH]; [easy|]. intros Nl [->|H]; inversion Nl; subst.
    - cbn -[visited]. rewrite K by easy. apply visited_false in N. rewrite N.
      assert (visited (x :: V) x = true) as -> by (apply visited_true; now left). reflexivity.
    - cbn -[visited]. assert (a <> x) by congruence.
      assert (visited (x :: V) a = visited V a) as ->.
      { unfold visited. cbn. destruct (he_eqb_spec a x); [congruence|reflexivity]. }
      destruct (negb (visited V a)); cbn; rewrite IH by easy; reflexivity. }
  apply G; [now apply NoDup_filter|]. apply outs_in. auto.
Qed.
Lemma unvis_mono V x w : length (unvis (x :: V) w) <= length (unvis V w).
Proof.
  unfold unvis. induction (outs hs w) as [|a t IH]; cbn -[visited]; [lia|].
  assert (visited V a = true -> visited (x :: V) a = true) by (rewrite !visited_true; now right).
  destruct (visited V a).
  - rewrite (H eq_refl). exact IH.
  - destruct (visited (x :: V) a); cbn [negb length]; lia.
Qed.

(** The choice of the next halfedge: it leaves the vertex, and while two more
    are left it is the paired one. *)
Definition next_choice V e :=
  match outs hs (snd e) with
  | [] => None
  | [h] => Some h
  | _ => match filter (fun h => negb (visited V h)) (outs hs (snd e)) with
         | [h] => Some h
         | _ => turn ins (outs hs (snd e)) e tf
         end
  end.
Lemma next_choice_ok V e : In e hs -> exists x, next_choice V e = Some x /\ In x (outs hs (snd e)) /\
  (1 <= length (unvis V (snd e)) -> In x V -> paired e x /\ 2 <= length (unvis V (snd e))) /\
  (2 <= length (unvis V (snd e)) -> paired e x).
Proof using HS HDf HDs HJ Hhs Hturn.
  intros He. destruct (paired_ex e He) as (p & Hp). pose proof (paired_out _ _ Hp) as Op.
  pose proof (fun L => Hturn e p He L Hp) as T.
  unfold next_choice, unvis in *. destruct (outs hs (snd e)) as [|a [|b t]] eqn:E; [destruct Op| |].
  - exists a. split; [reflexivity|]. split; [now left|].
    cbn. destruct (visited V a) eqn:Ea; cbn.
    + split; [lia|lia].
    + split; [|lia]. intros _ H. apply visited_true in H. congruence.
  - rewrite T in * by (cbn; lia). clear T.
    destruct (filter (fun h => negb (visited V h)) (a :: b :: t)) as [|h [|h' t']] eqn:Ef.
    + exists p. cbn. split; [reflexivity|]. split; [exact Op|]. split; lia.
    + exists h. assert (Hh : In h (filter (fun h => negb (visited V h)) (a :: b :: t))) by (rewrite Ef; now left).
      apply filter_In in Hh as [Hh Hv]. split; [reflexivity|]. split; [exact Hh|]. split; [|cbn; lia].
      intros _ H. apply visited_true in H. rewrite H in Hv. easy.
    + exists p. split; [reflexivity|]. split; [exact Op|]. split; [|auto]. intros _ _. split; [exact Hp|cbn; lia].
Qed.

Fixpoint linked (e : nat * nat) (r : list (nat * nat)) (z : nat) : Prop :=
  match r with [] => snd e = z | x :: t => fst x = snd e /\ linked x t z end.
Lemma walk_ok : forall fuel V b e, NoDup V -> incl V hs -> In b V -> In e V -> even_walk b e V -> followed b e V ->
  length hs < fuel + length V ->
  exists r, walk ins hs V e tf fuel = Some (rev r ++ V, r) /\ NoDup (rev r ++ V) /\ incl (rev r ++ V) hs /\
    linked e r (fst b) /\ even (rev r ++ V) /\ all_followed (rev r ++ V).
Proof using HS HDf HDs HJ Hhs Nhs Hturn.
  induction fuel as [|k IH]; intros V b e N I Hb He EV FO L.
  { pose proof (NoDup_incl_length N I). lia. }
  cbn -[outs]. fold (next_choice V e).
  destruct (next_choice_ok V e (I _ He)) as (x & -> & Ox & Hv & Hp).
  apply outs_in in Ox as [Hx Fx].
  destruct (visited V x) eqn:Ev.
  - apply visited_true in Ev. exists []. cbn [rev app].
    assert (C : snd e = fst b).
    { destruct (Nat.eq_dec (snd e) (fst b)) as [|C]; [assumption|exfalso].
      specialize (EV (snd e)). rewrite Nat.eqb_refl in EV.
      destruct (Nat.eqb_spec (fst b) (snd e)); [congruence|]. cbn in EV.
      assert (cin V (snd e) <= cin hs (snd e)) by (apply NoDup_filter_le; assumption).
      pose proof (ins_le_outs (snd e) Nhs). pose proof (unvis_split V (snd e) N I).
      destruct Hv as [Hv H2]; [lia|exact Ev|].
      destruct (FO (snd e) x H2 Ev Fx) as [->|(y & Hy & Ny & Py)]; [congruence|].
      apply Ny. apply (paired_inj y e x); auto. }
    split; [reflexivity|]. split; [exact N|]. split; [exact I|]. split; [exact C|]. split.
    + intros w. specialize (EV w). rewrite C in EV. lia.
    + intros w y H2 Hy Fy. destruct (FO w y H2 Hy Fy) as [->|(z & Hz & _ & Pz)]; [|eauto].
      rewrite <- Fy, <- C in H2. specialize (Hp H2).
      destruct (FO (snd e) x H2 Ev Fx) as [->|(z & Hz & Nz & Pz)]; [eauto|].
      exfalso. apply Nz. apply (paired_inj z e x); auto.
  - apply visited_false in Ev.
    destruct (IH (x :: V) b x) as (r & -> & N' & I' & Lk & E' & F').
    + now constructor.
    + intros y [<- |Hy]; auto.
    + now right.
    + now left.
    + intros w. specialize (EV w). rewrite cin_cons, cout_cons, Fx. lia.
    + intros w y H2 Hy Fy. pose proof (unvis_mono V x w) as M. destruct Hy as [<- |Hy].
      * right. exists e. split; [now right|]. split; [congruence|]. apply Hp.
        rewrite <- Fx. pose proof (unvis_cons V x Ev Hx). subst w. lia.
      * destruct (FO w y ltac:(lia) Hy Fy) as [->|(z & Hz & _ & Pz)]; [now left|].
        right. exists z. split; [now right|]. split; [congruence|exact Pz].
    + cbn. lia.
    + exists (x :: r). cbn [rev]. rewrite <- app_assoc. cbn [app].
      split; [reflexivity|]. split; [exact N'|]. split; [exact I'|]. split; [|split; assumption].
      cbn. auto.
Qed.

Lemma path_linked e r z : linked e r z -> path_edges (fst e) (map fst r) z = e :: r.
Proof.
  revert e; induction r as [|x t IH]; intros [a b]; cbn.
  - now intros <-.
  - intros [<- H]. f_equal. now apply IH.
Qed.
Lemma outlines_ok : forall todo V, incl todo hs -> NoDup V -> incl V hs -> even V -> all_followed V ->
  exists ol, outlines ins hs V todo tf = Some ol /\ Forall closed_walk ol /\
    NoDup (concat ol ++ V) /\ incl (concat ol) hs /\ incl todo (concat ol ++ V).
Proof using HS HDf HDs HJ Hhs Nhs Hturn.
  induction todo as [|h t IH]; intros V IT N I EV FO; cbn -[walk].
  - exists []. split; [reflexivity|]. split; [constructor|]. split; [exact N|]. split; easy.
  - assert (It : incl t hs) by (intros a Ha; apply IT; now right).
    destruct (visited V h) eqn:Ev.
    + destruct (IH V It N I EV FO) as (ol & -> & A & B & C & E). exists ol.
      split; [reflexivity|]. split; [exact A|]. split; [exact B|]. split; [exact C|].
      intros a [<- |Ha]; [|auto]. apply in_or_app. right. now apply visited_true.
    + apply visited_false in Ev.
      destruct (walk_ok (Datatypes.S (length hs)) (h :: V) h h) as (r & -> & N' & I' & Lk & E' & F').
      * now constructor.
      * intros y [<- |Hy]; auto. apply IT. now left.
      * now left.
      * now left.
      * intros w. rewrite cin_cons, cout_cons. specialize (EV w). lia.
      * intros w y H2 Hy Fy. pose proof (unvis_mono V h w). destruct Hy as [<- |Hy]; [now left|]. right.
        destruct (FO w y ltac:(lia) Hy Fy) as (z & Hz & Pz). exists z.
        split; [now right|]. split; [congruence|exact Pz].
      * cbn. lia.
      * destruct (IH (rev r ++ h :: V) It N' I' E' F') as (ol & -> & A & B & C & E). exists ((h :: r) :: ol).
        split; [reflexivity|]. split; [|split; [|split]].
        -- constructor; [|exact A]. split; [easy|]. cbn [map hes]. now apply path_linked.
        -- cbn [concat]. eapply Permutation_NoDup; [|exact B].
           cbn [app]. rewrite <- app_assoc.
           etransitivity; [apply Permutation_app_head; apply Permutation_app_tail; symmetry; apply Permutation_rev|].
           etransitivity; [apply Permutation_app_swap_app|].
           change (h :: r ++ concat ol ++ V) with ((h :: r) ++ concat ol ++ V).
           etransitivity; [apply Permutation_app_head, Permutation_app_head|].
           { change (h :: V) with ([h] ++ V). reflexivity. }
           etransitivity; [|apply Permutation_app_tail; apply (Permutation_app_comm r [h])].
           rewrite <- app_assoc. apply Permutation_app_head.
           etransitivity; [apply Permutation_app_swap_app|]. reflexivity.
        -- cbn [concat]. intros a Ha. apply in_app_or in Ha as [Ha|Ha]; [|auto].
           apply I'. apply in_or_app. destruct Ha as [<- |Ha]; [right; now left|]. left. now apply -> in_rev.
        -- cbn [concat]. intros a [<- |Ha]; [now left|]. apply E in Ha.
           rewrite !in_app_iff in *. cbn in *. rewrite <- in_rev in Ha. tauto.
Qed.
End Pairing.
