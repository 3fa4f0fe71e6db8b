(** Merging the halfedges that go on straight. *)
From Coq Require Import List Arith Bool Lia Permutation.
From Verif Require Import Lib Tet Bsp BspSpec BspCut BspGlue Outline OutlineSpec.
Import ListNotations.

Lemma last_error_snoc {A} (l : list A) a : last_error (l ++ [a]) = Some a.
Proof. unfold last_error. rewrite rev_app_distr. reflexivity. Qed.
Lemma last_error_cons {A} (x : A) r : last_error (x :: r) = Some (last r x).
Proof.
  destruct r as [|y t] using rev_ind; [reflexivity|].
  rewrite app_comm_cons, last_error_snoc, last_last. reflexivity.
Qed.
Lemma last_error_app {A} (l r : list A) : r <> [] -> last_error (l ++ r) = last_error r.
Proof. destruct r as [|y t] using rev_ind; [easy|]. intros _. now rewrite app_assoc, !last_error_snoc. Qed.
Lemma hd_error_app {A} (l r : list A) : l <> [] -> hd_error (l ++ r) = hd_error l.
Proof. now destruct l. Qed.

Section Merge.
Variable col : nat * nat -> nat * nat -> bool.

Fixpoint chained (p : nat * nat) (r : list (nat * nat)) : Prop :=
  match r with [] => True | h :: t => col p h = true /\ chained h t end.
Definition run (r : list (nat * nat)) : Prop := match r with [] => False | x :: t => chained x t end.
Definition breaks_at (r r' : list (nat * nat)) : Prop := forall x y, last_error r = Some x -> hd_error r' = Some y -> col x y = false.
Fixpoint breaks (gs : list (list (nat * nat))) : Prop :=
  match gs with [] => True | r :: t => match t with [] => True | r' :: _ => breaks_at r r' end /\ breaks t end.
Definition cyclic_breaks (gs : list (list (nat * nat))) : Prop := match gs with [] => True | r :: t => breaks (r :: t ++ [r]) end.

Lemma last_cons {A} (x : A) t d : last (x :: t) d = last t x.
Proof.
  revert x d; induction t as [|y t IH]; intros x d; [reflexivity|].
  change (last (y :: t) d = last (y :: t) x). now rewrite !IH.
Qed.
Lemma chained_app p r h t : chained p (r ++ h :: t) <-> chained p r /\ col (last r p) h = true /\ chained h t.
Proof.
  revert p. induction r as [|x r IH]; intros p; cbn [app chained]; [cbn; tauto|]. rewrite IH, last_cons. tauto.
Qed.
Lemma chained_snoc p r h : chained p r -> col (last r p) h = true -> chained p (r ++ [h]).
Proof. intros A B. apply chained_app. cbn. auto. Qed.
Lemma run_app r r' : run r -> run r' -> (forall x y, last_error r = Some x -> hd_error r' = Some y -> col x y = true) -> run (r ++ r').
Proof.
  destruct r as [|x t], r' as [|y t']; cbn; try easy. intros A B C. apply chained_app. split; [exact A|]. split; [|exact B].
  apply C; [apply last_error_cons|reflexivity].
Qed.
Lemma breaks_snoc a x y : breaks (a ++ [x]) -> breaks_at x y -> breaks (a ++ [x; y]).
Proof.
  induction a as [|r [|r' t] IH]; cbn in *; [tauto| |]; intros [A B] C; auto.
Qed.
Lemma breaks_last a x x' : breaks (a ++ [x]) -> hd_error x' = hd_error x -> breaks (a ++ [x']).
Proof.
  intros H E. induction a as [|r [|r' t] IH]; cbn in *; [tauto| |].
  - destruct H as [A _]. split; [|tauto]. intros u v Hu Hv. apply (A u v Hu). congruence.
  - destruct H as [A B]. auto.
Qed.
Lemma group_edges_ok : forall l G cur, cur <> [] -> Forall run (G ++ [cur]) -> breaks (G ++ [cur]) ->
  exists G' C', group_edges col l G cur = (G', C') /\ C' <> [] /\ Forall run (G' ++ [C']) /\ breaks (G' ++ [C']) /\
    concat (G' ++ [C']) = concat (G ++ [cur]) ++ l.
Proof.
  induction l as [|he t IH]; intros G cur Nc F B; cbn [group_edges].
  - exists G, cur. rewrite app_nil_r. auto.
  - destruct cur as [|c0 cr]; [easy|]. rewrite last_error_cons.
    pose proof (proj1 (Forall_app _ _ _) F) as [FG Fc]. inversion Fc as [|? ? Rc _]; subst.
    destruct (col (last cr c0) he) eqn:E.
    + destruct (IH G ((c0 :: cr) ++ [he])) as (G' & C' & H1 & H2 & H3 & H4 & H5).
      * easy.
      * apply Forall_app. split; [exact FG|]. constructor; [|constructor]. cbn. now apply chained_snoc.
      * eapply breaks_last; [exact B|reflexivity].
      * exists G', C'. split; [exact H1|]. split; [exact H2|]. split; [exact H3|]. split; [exact H4|].
        rewrite H5, !concat_app. cbn [concat]. rewrite !app_nil_r, <- !app_assoc. reflexivity.
    + destruct (IH (G ++ [c0 :: cr]) [he]) as (G' & C' & H1 & H2 & H3 & H4 & H5).
      * easy.
      * apply Forall_app. split; [exact F|]. constructor; [exact I|constructor].
      * rewrite <- app_assoc. apply breaks_snoc; [exact B|]. intros x y. rewrite last_error_cons. cbn. congruence.
      * exists G', C'. split; [exact H1|]. split; [exact H2|]. split; [exact H3|]. split; [exact H4|].
        rewrite H5, !concat_app. cbn [concat]. rewrite !app_nil_r, <- !app_assoc. reflexivity.
Qed.

(** The parts of [colinear_groups]. *)
Lemma colinear_groups_parts l : l <> [] -> exists G C, group_edges col l [] [] = (G, C) /\ C <> [] /\
  Forall run (G ++ [C]) /\ breaks (G ++ [C]) /\ concat (G ++ [C]) = l.
Proof.
  destruct l as [|x t]; [easy|]. intros _. cbn [group_edges last_error rev hd_error app].
  destruct (group_edges_ok t [] [x]) as (G & C & H1 & H2 & H3 & H4 & H5); [easy| | |].
  - repeat constructor.
  - cbn. auto.
  - exists G, C. auto.
Qed.
Lemma colinear_groups_ok l gs : colinear_groups col l = Some gs ->
  gs <> [] /\ Forall run gs /\ cyclic_breaks gs /\ turned (concat gs) l.
Proof.
  intros H. assert (Nl : l <> []) by now destruct l.
  destruct (colinear_groups_parts l Nl) as (G & C & E1 & NC & F & B & Ec).
  unfold colinear_groups in H. destruct l as [|x0 t0] eqn:El; [easy|]. rewrite <- El in *.
  rewrite E1 in H. destruct C as [|c0 cr]; [easy|]. rewrite last_error_cons in H.
  destruct G as [|[|f0 fr] tl]; cbn [hd_error] in H; try easy. cbn [List.tl] in H.
  destruct (col (last cr c0) f0) eqn:Ecol; injection H as <-.
  - cbn [app] in F, B. inversion F as [|? ? Ff Ft]; subst. apply Forall_app in Ft as [Ft Fc]. inversion Fc; subst.
    split; [easy|]. split.
    { constructor; [|exact Ft]. apply (run_app (c0 :: cr) (f0 :: fr)); auto.
      intros x y. rewrite last_error_cons. cbn. congruence. }
    split.
    + unfold cyclic_breaks. set (R := (c0 :: cr) ++ f0 :: fr).
      assert (LR : last_error R = last_error (f0 :: fr)) by (apply last_error_app; easy).
      assert (B' : breaks (((f0 :: fr) :: tl) ++ [R])) by (apply (breaks_last _ (c0 :: cr)); [exact B|reflexivity]).
      change (breaks (R :: tl ++ [R])). destruct B' as [B1 B2]. split; [|exact B2]. change (tl ++ [R]) with (app tl [R]) in B1.
      destruct (tl ++ [R]); [exact I|]. unfold breaks_at in *. rewrite LR. exact B1.
    + exists (c0 :: cr), ((f0 :: fr) ++ concat tl). split; [cbn; now rewrite <- app_assoc|].
      rewrite <- Ec. cbn [concat app]. rewrite concat_app. cbn [concat]. rewrite app_nil_r, app_assoc. reflexivity.
  - split; [easy|]. split; [exact F|]. split; [|exists l, []; rewrite app_nil_r; split; [exact Ec|reflexivity]].
    unfold cyclic_breaks. cbn [app]. change ((f0 :: fr) :: (tl ++ [c0 :: cr]) ++ [f0 :: fr]) with (((f0 :: fr) :: tl ++ [c0 :: cr]) ++ [f0 :: fr]).
    rewrite app_comm_cons, <- app_assoc. apply breaks_snoc; [exact B|]. intros x y. rewrite last_error_cons. cbn. congruence.
Qed.

(** * The corners *)
Fixpoint cl (l : list (nat * nat)) (z : nat * nat) : list nat :=
  match l with [] => [] | x :: t => (if col x (hd z t) then [] else [snd x]) ++ cl t z end.
Lemma corners_cl x t : corners col (x :: t) = cl (x :: t) x.
Proof.
  unfold corners. cbn [tl firstn]. generalize x at 2 4. revert x. induction t as [|y t IH]; intros x z.
  - reflexivity.
  - change (combine (x :: y :: t) ((y :: t) ++ [z])) with ((x, y) :: combine (y :: t) (t ++ [z])).
    cbn [flat_map fst snd]. rewrite (IH y z). reflexivity.
Qed.
Lemma cl_app l l' z : l' <> [] -> cl (l ++ l') z = cl l (hd z l') ++ cl l' z.
Proof.
  intros N. induction l as [|x t IH]; [reflexivity|]. cbn [app cl]. rewrite IH, app_assoc. f_equal. f_equal.
  destruct t; [reflexivity|]. reflexivity.
Qed.
Lemma cl_run x r z : chained x r -> cl (x :: r) z = if col (last r x) z then [] else [snd (last r x)].
Proof.
  revert x. induction r as [|y t IH]; intros x.
  - intros _. cbn. apply app_nil_r.
  - intros [A B]. rewrite last_cons. cbn [cl hd]. rewrite A. cbn [app]. exact (IH y B).
Qed.
Lemma concat_ne {A} (gs : list (list A)) C : C <> [] -> concat (gs ++ [C]) <> [].
Proof. intros N H. rewrite concat_app in H. apply app_eq_nil in H as [_ H]. cbn in H. rewrite app_nil_r in H. contradiction. Qed.
Lemma cl_groups gs : forall C z, C <> [] -> Forall run (gs ++ [C]) -> breaks (gs ++ [C]) ->
  omap (fun g => option_map snd (last_error g)) gs = Some (cl (concat gs) (hd z (C))) /\
  cl (concat (gs ++ [C])) z = cl (concat gs) (hd z C) ++ cl C z.
Proof.
  induction gs as [|r t IH]; intros C z N F B.
  - cbn. rewrite app_nil_r. auto.
  - cbn [app] in F, B. inversion F as [|? ? Rr Rt]; subst. destruct B as [B1 B2].
    destruct (IH C z N Rt B2) as [IH1 IH2]. split.
    + cbn [omap concat]. destruct r as [|x r]; [easy|]. rewrite last_error_cons. cbn [option_map]. rewrite IH1. f_equal.
      assert (E : cl ((x :: r) ++ concat t) (hd z C) = snd (last r x) :: cl (concat t) (hd z C)); [|rewrite E; reflexivity].
      destruct t as [|r' t].
      * cbn [concat]. rewrite app_nil_r, cl_run by exact Rr. cbn in B1. rewrite (B1 (last r x) (hd z C)); [reflexivity|apply last_error_cons|].
        destruct C; [easy|reflexivity].
      * cbn [app] in B1, Rt. inversion Rt as [|? ? Rr' _]; subst. destruct r' as [|y r']; [easy|].
        rewrite cl_app by easy. rewrite cl_run by exact Rr. cbn [concat app hd].
        rewrite (B1 (last r x) y); [reflexivity|apply last_error_cons|reflexivity].
    + cbn [app concat]. rewrite cl_app by (now apply concat_ne). rewrite IH2, app_assoc. f_equal.
      destruct t as [|r' t].
      * cbn [app concat]. rewrite !app_nil_r. reflexivity.
      * cbn [app] in Rt. inversion Rt as [|? ? Rr' _]; subst. destruct r' as [|y r']; [easy|].
        cbn [app concat hd]. rewrite cl_app by easy. reflexivity.
Qed.
Lemma omap_app {A B} (f : A -> option B) a b x y : omap f a = Some x -> omap f b = Some y -> omap f (a ++ b) = Some (x ++ y).
Proof.
  revert x. induction a as [|c a IH]; cbn; intros x.
  - intros [= <-]. auto.
  - destruct (f c); [|easy]. destruct (omap f a); [|easy]. intros [= <-] H. now rewrite (IH _ eq_refl H).
Qed.
Lemma merge_colinear_corners a x y b : col x y = false -> merge_colinear col (a ++ x :: y :: b) = Some (corners col (a ++ x :: y :: b)).
Proof.
  intros Hxy. set (l := a ++ x :: y :: b). assert (Nl : l <> []) by (unfold l; now destruct a).
  destruct (colinear_groups_parts l Nl) as (G & C & E1 & NC & F & B & Ec).
  unfold merge_colinear, colinear_groups. destruct l as [|x0 t0] eqn:El; [easy|]. rewrite E1.
  destruct C as [|c0 cr]; [easy|]. rewrite last_error_cons.
  destruct G as [|f tl].
  { exfalso. cbn [app concat] in Ec. rewrite app_nil_r in Ec. inversion F as [|? ? Rc _]; subst.
    assert (l = (c0 :: cr)) as E by congruence. unfold l in E. destruct a as [|a0 a]; cbn [app] in E; injection E as -> <-.
    - destruct Rc. congruence.
    - apply chained_app in Rc as (_ & _ & R & _). congruence. }
  pose proof F as F'. cbn [app] in F'. inversion F' as [|? ? Rf Rt]; subst. destruct f as [|f0 fr]; [easy|]. cbn [hd_error List.tl].
  destruct (cl_groups ((f0 :: fr) :: tl) (c0 :: cr) x0 NC F B) as [G1 G2].
  rewrite corners_cl, <- Ec, G2. cbn [app] in Ec. cbn [concat app] in Ec. injection Ec as -> Ec.
  apply Forall_app in Rt as [_ Rt]. inversion Rt as [|? ? Rc _]; subst. rewrite (cl_run c0 cr) by exact Rc.
  destruct (col (last cr c0) x0) eqn:Ecol.
  - rewrite app_nil_r, <- G1. cbn [omap]. rewrite last_error_app by easy. reflexivity.
  - apply omap_app; [exact G1|]. cbn [omap]. rewrite last_error_cons. reflexivity.
Qed.
Lemma merge_colinear_straight x t : chained x t -> merge_colinear col (x :: t) = None.
Proof.
  intros H. unfold merge_colinear, colinear_groups. cbn [group_edges last_error rev hd_error app].
  assert (E : forall t c cr, chained (last cr c) t -> group_edges col t [] (c :: cr) = ([], c :: cr ++ t)).
  { clear. induction t as [|h t IH]; intros c cr; [rewrite app_nil_r; reflexivity|]. intros [A B]. cbn [group_edges].
    rewrite last_error_cons, A. cbn [app]. rewrite IH; [rewrite <- app_assoc; reflexivity|]. now rewrite last_last. }
  rewrite (E t x []) by exact H. cbn [app]. rewrite last_error_cons. reflexivity.
Qed.
End Merge.
