(** split_cell keeps a complex right. *)
From Coq Require Import List Arith Bool Lia Permutation Relations.
From Verif Require Import Lib Dispatch Tet Bsp BspSpec BspCut BspLoop BspGlue.
Import ListNotations.

(** * The cut when the crossed edges have received their vertices *)
Lemma edge_eqb_sym a b : edge_eqb a b = edge_eqb b a.
Proof.
  apply Bool.eq_iff_eq_true. rewrite !edge_eqb_true. split; intros [->| ->]; auto; right; now rewrite ?swap_swap.
Qed.
Lemma cut_turned s l l' r : turned l' l -> cut_face s l r -> cut_face s l' r.
Proof.
  intros T [NE A|z P TU NP SZ AP|Z N TU NN AZ AN|Z P TU LZ NP AZ AP|a P b N x y TU NP NN AP AN HX HY].
  - apply cut_positive; [|intros v Hv; apply A; now apply (turned_in _ _ _ T)].
    intros ->. apply NE, turned_nil, turned_sym. exact T.
  - eapply cut_touch_positive; eauto using turned_trans.
  - eapply cut_negative; eauto using turned_trans.
  - eapply cut_side_positive; eauto using turned_trans.
  - eapply cut_two; eauto using turned_trans.
Qed.
Lemma all_ext s s' g l : all s g l -> (forall v, In v l -> s v = s' v) -> all s' g l.
Proof. intros A H v Hv. rewrite <- H by auto. now apply A. Qed.
Lemma cut_ext s s' l r : (forall v, In v l -> s v = s' v) -> cut_face s l r -> cut_face s' l r.
Proof.
  intros H [NE A|z P TU NP SZ AP|Z N TU NN AZ AN|Z P TU LZ NP AZ AP|a P b N x y TU NP NN AP AN HX HY].
  - apply cut_positive; auto. now apply (all_ext s).
  - apply (cut_touch_positive _ _ z P); auto.
    + rewrite <- H; auto. apply (turned_in _ _ _ TU). now left.
    + apply (all_ext s); auto. intros v Hv. apply H, (turned_in _ _ _ TU). now right.
  - apply (cut_negative _ _ Z N); auto; apply (all_ext s); auto; intros v Hv; apply H, (turned_in _ _ _ TU), in_or_app; auto.
  - apply (cut_side_positive _ _ Z P); auto; apply (all_ext s); auto; intros v Hv; apply H, (turned_in _ _ _ TU), in_or_app; auto.
  - assert (HV : forall v, In v (a ++ P ++ b ++ N) -> s v = s' v) by (intros v Hv; apply H; now apply (turned_in _ _ _ TU)).
    setoid_rewrite in_app_iff in HV. setoid_rewrite in_app_iff in HV. setoid_rewrite in_app_iff in HV.
    apply (cut_two _ _ a P b N); auto.
    + apply (all_ext s); [auto|]. intros v Hv. apply HV. tauto.
    + apply (all_ext s); [auto|]. intros v Hv. apply HV. tauto.
    + destruct HX as [(z & -> & Sz & ->)|HX]; auto. left. exists z. split; auto. split; auto. rewrite <- HV; auto. left. now left.
    + destruct HY as [(z & -> & Sz & ->)|HY]; auto. left. exists z. split; auto. split; auto. rewrite <- HV; auto. right. right. left. now left.
Qed.

Definition sub1 (e : nat * nat) (w : nat) (p : point) : point :=
  match p with PX n q => if edge_eqb (n, q) e then PV w else p | PV _ => p end.
Definition crosses (s : nat -> Orientation) (e : nat * nat) : Prop :=
  s (fst e) = Negative /\ s (snd e) = Positive \/ s (fst e) = Positive /\ s (snd e) = Negative.
Definition put (e : nat * nat) (w : nat) (h : nat * nat) : list nat := if edge_eqb h e then [fst h; w] else [fst h].
Lemma insert_put e w l : insert_vertex_in e w l = flat_map (put e w) (hes l).
Proof. unfold insert_vertex_in. now rewrite flat_map_concat_map. Qed.
Lemma crosses_sign s e a b : crosses s e -> edge_eqb (a, b) e = true -> s a = Negative /\ s b = Positive \/ s a = Positive /\ s b = Negative.
Proof. intros C E. apply edge_eqb_true in E as [<-|E]; [exact C|]. destruct e as (u, v). unfold swap in E. cbn in E. injection E as -> ->. unfold crosses in C. cbn in C. tauto. Qed.
Lemma put_run s g e w x t y : crosses s e -> all s g (x :: t) ->
  flat_map (put e w) (path_edges x t y) = (x :: t) ++ if edge_eqb (last (x :: t) 0, y) e then [w] else [].
Proof.
  intros C. revert x; induction t as [|b t IH]; intros x H.
  - cbn. unfold put. cbn. destruct (edge_eqb (x, y) e); reflexivity.
  - cbn [path_edges flat_map]. rewrite IH by (intros v Hv; apply H; now right).
    assert (E : put e w (x, b) = [x]).
    { unfold put. destruct (edge_eqb (x, b) e) eqn:E; auto. apply (crosses_sign s) in E; auto.
      rewrite (H x), (H b) in E by (cbn; auto). intuition congruence. }
    rewrite E. now rewrite (last_cons x), !(last_cons b).
Qed.
Lemma put_zero s e w z y : crosses s e -> s z = Zero -> put e w (z, y) = [z].
Proof.
  intros C H. unfold put. destruct (edge_eqb (z, y) e) eqn:E; auto. apply (crosses_sign s) in E; auto. intuition congruence.
Qed.
Lemma no_cross s e a b : crosses s e -> s b = Zero \/ s a = Zero \/ s a = s b -> edge_eqb (a, b) e = false.
Proof.
  intros C H. destruct (edge_eqb (a, b) e) eqn:E; auto. apply (crosses_sign s) in E; auto. intuition congruence.
Qed.
Lemma nodup_last (x : nat) t u : NoDup ((x :: t) ++ u) -> last (x :: t) 0 = x -> t = [].
Proof.
  destruct t as [|y t]; auto. intros N E. exfalso. cbn [app] in N. inversion N as [|? ? X Y]. apply X.
  change (last (y :: t) 0 = x) in E. rewrite <- E. apply (in_or_app (y :: t) u). left. apply last_in.
Qed.
Lemma cut_insert s e w l r : cut_face s l r -> NoDup l -> 3 <= length l -> s w = Zero -> crosses s e ->
  cut_face s (insert_vertex_in e w l) (option_map (map (sub1 e w)) r).
Proof.
  intros CF ND L W C. rewrite insert_put.
  destruct CF as [NE A|z P TU NP SZ AP|Z N TU NN AZ AN|Z P TU LZ NP AZ AP|a P b N x y TU NP NN AP AN HX HY].
  - destruct l as [|x t]; [easy|]. cbn [hes]. rewrite (put_run _ _ _ _ _ _ _ C A), (no_cross s), app_nil_r; auto.
    + apply cut_positive; auto.
    + right. right. rewrite (A x), (A (last (x :: t) 0)) by (try apply last_in; cbn; auto). reflexivity.
  - apply (cut_turned s (flat_map (put e w) (hes (z :: P)))); [now apply turned_flat_map, hes_turned|].
    destruct P as [|p P]; [easy|]. cbn [hes path_edges flat_map]. rewrite (put_run _ _ _ _ _ _ _ C AP), (put_zero s), (no_cross s), app_nil_r; auto.
    apply (cut_touch_positive _ _ z (p :: P)); auto. apply turned_refl.
  - apply (cut_turned s (flat_map (put e w) (hes (Z ++ N)))); [now apply turned_flat_map, hes_turned|].
    destruct N as [|n N]; [easy|]. destruct Z as [|z Z]; cbn [hes app].
    + rewrite (put_run _ _ _ _ _ _ _ C AN), (no_cross s), app_nil_r; auto.
      * apply (cut_negative _ _ [] (n :: N)); auto. apply turned_refl.
      * right. right. rewrite (AN n), (AN (last (n :: N) 0)) by (try apply last_in; cbn; auto). reflexivity.
    + rewrite path_edges_app, flat_map_app, (put_run _ _ _ _ _ _ _ C AN), (put_run _ _ _ _ _ _ _ C AZ).
      assert (E1 : edge_eqb (last (z :: Z) 0, n) e = false) by (apply (no_cross s); auto; right; left; apply AZ, last_in).
      assert (E2 : edge_eqb (last (n :: N) 0, z) e = false) by (apply (no_cross s); auto; left; apply AZ; now left).
      rewrite E1, E2, !app_nil_r. apply (cut_negative _ _ (z :: Z) (n :: N)); auto. apply turned_refl.
  - apply (cut_turned s (flat_map (put e w) (hes (Z ++ P)))); [now apply turned_flat_map, hes_turned|].
    destruct P as [|p P]; [easy|]. destruct Z as [|z Z]; [cbn in LZ; lia|]. cbn [hes app].
    rewrite path_edges_app, flat_map_app, (put_run _ _ _ _ _ _ _ C AP), (put_run _ _ _ _ _ _ _ C AZ).
    assert (E1 : edge_eqb (last (z :: Z) 0, p) e = false) by (apply (no_cross s); auto; right; left; apply AZ, last_in).
    assert (E2 : edge_eqb (last (p :: P) 0, z) e = false) by (apply (no_cross s); auto; left; apply AZ; now left).
    rewrite E1, E2, !app_nil_r. cbn [option_map]. assert (E : map (sub1 e w) (map PV (rev (z :: Z))) = map PV (rev (z :: Z))) by (rewrite map_map; apply map_ext; reflexivity).
    rewrite E. apply (cut_side_positive _ _ (z :: Z) (p :: P)); auto. apply turned_refl.
  - apply (cut_turned s (flat_map (put e w) (hes (a ++ P ++ b ++ N)))); [now apply turned_flat_map, hes_turned|].
    apply turned_perm in TU. rewrite (Permutation_length TU) in L. apply (Permutation_NoDup TU) in ND. clear TU.
    destruct P as [|p P]; [easy|]. destruct N as [|n N]; [easy|].
    assert (Sp : s p = Positive) by (apply AP; cbn; auto). assert (Sn : s n = Negative) by (apply AN; cbn; auto).
    assert (Sp' : s (last (p :: P) 0) = Positive) by (apply AP, last_in). assert (Sn' : s (last (n :: N) 0) = Negative) by (apply AN, last_in).
    cbn [option_map map].
    destruct HX as [(z & -> & SZ & ->)|(-> & ->)], HY as [(z' & -> & SZ' & ->)|(-> & ->)]; cbn [app hes path_edges flat_map sub1 hd];
      rewrite ?path_edges_app, !flat_map_app; cbn [app hes path_edges flat_map];
      rewrite !(put_run _ _ _ _ _ _ _ C AP), !(put_run _ _ _ _ _ _ _ C AN), ?(put_zero s _ _ _ _ C SZ), ?(put_zero s _ _ _ _ C SZ').
    + rewrite !(no_cross s), !app_nil_r; auto. apply (cut_two _ _ [z] (p :: P) [z'] (n :: N)); auto; [apply turned_refl|left; eauto|left; eauto].
    + rewrite (no_cross s e (last (n :: N) 0) z), app_nil_r; auto. change (n, last (p :: P) 0) with (swap (last (p :: P) 0, n)). rewrite edge_eqb_swap.
      destruct (edge_eqb _ e).
      * apply (cut_two _ _ [z] (p :: P) [w] (n :: N)); auto; [|left; eauto|left; eauto]. rewrite <- !app_assoc. apply turned_refl.
      * apply (cut_two _ _ [z] (p :: P) [] (n :: N)); auto; [|left; eauto]. rewrite app_nil_r. apply turned_refl.
    + rewrite (no_cross s e (last (p :: P) 0) z'), app_nil_r; auto.
      destruct (edge_eqb _ e).
      * apply (cut_two _ _ [w] (p :: P) [z'] (n :: N)); auto; [|left; eauto|left; eauto].
        apply (turned_trans _ (([w] ++ (p :: P) ++ [z'] ++ n :: N))); [|apply turned_refl].
        change ((p :: P) ++ [z'] ++ (n :: N) ++ [w]) with ((p :: P) ++ ([z'] ++ ((n :: N) ++ [w]))). rewrite !app_assoc. rewrite <- (app_assoc [w]), <- (app_assoc [w]). apply turned_app.
      * apply (cut_two _ _ [] (p :: P) [z'] (n :: N)); auto; [|left; eauto]. rewrite app_nil_r. apply turned_refl.
    + change (n, last (p :: P) 0) with (swap (last (p :: P) 0, n)). rewrite edge_eqb_swap.
      destruct (edge_eqb (last (p :: P) 0, n) e) eqn:E1, (edge_eqb (last (n :: N) 0, p) e) eqn:E2.
      * exfalso. apply edge_eqb_true in E1, E2.
        assert (Q : (last (p :: P) 0, n) = swap (last (n :: N) 0, p)).
        { clear -E1 E2 Sp Sn Sp' Sn'. revert E1 E2 Sp' Sn'. generalize (last (p :: P) 0), (last (n :: N) 0). intros lp ln E1 E2 Sp' Sn'.
          destruct e as (e1, e2). unfold swap in *. cbn [fst snd] in *.
          destruct E1 as [E1|E1], E2 as [E2|E2]; injection E1 as X1 X2; injection E2 as X3 X4; congruence. }
        assert (Q1 : last (p :: P) 0 = p) by exact (f_equal fst Q). assert (Q2 : n = last (n :: N) 0) by exact (f_equal snd Q).
        assert (P = []) by (apply (nodup_last p P (n :: N)); auto). subst P.
        assert (N = []) by (apply (nodup_last n N []); [rewrite app_nil_r; now inversion ND|auto]).
        subst N. cbn in L. lia.
      * apply (cut_two _ _ [] (p :: P) [w] (n :: N)); auto; [|left; eauto]. rewrite app_nil_r, <- app_assoc. apply turned_refl.
      * apply (cut_two _ _ [w] (p :: P) [] (n :: N)); auto; [|left; eauto]. rewrite app_nil_r. cbn [app]. exists (p :: P ++ n :: N), [w]. split; cbn; now rewrite <- ?app_assoc.
      * apply (cut_two _ _ [] (p :: P) [] (n :: N)); auto. rewrite !app_nil_r. apply turned_refl.
Qed.

Lemma insert_rev_path e w x t y :
  y :: flat_map (fun h => rev (put e w h)) (rev (path_edges x t y)) = flat_map (put e w) (rev (map swap (path_edges x t y))) ++ [x].
Proof.
  revert x; induction t as [|b t IH]; intros x; cbn [path_edges map rev app flat_map].
  - unfold put. change (edge_eqb (swap (x, y)) e) with (edge_eqb (swap (x, y)) e). rewrite edge_eqb_swap. cbn [swap fst snd].
    destruct (edge_eqb (x, y) e); reflexivity.
  - rewrite !flat_map_app. rewrite app_comm_cons, IH, <- !app_assoc. f_equal. cbn [flat_map]. unfold put. rewrite edge_eqb_swap. cbn [swap fst snd].
    destruct (edge_eqb (x, b) e); reflexivity.
Qed.
Lemma rev_flat_map {A B} (f : A -> list B) l : rev (flat_map f l) = flat_map (fun x => rev (f x)) (rev l).
Proof. induction l as [|x t IH]; [reflexivity|]. cbn. rewrite rev_app_distr, IH, flat_map_app. cbn. now rewrite app_nil_r. Qed.
Lemma insert_rev e w l : turned (insert_vertex_in e w (rev l)) (rev (insert_vertex_in e w l)).
Proof.
  rewrite !insert_put, rev_flat_map. apply (turned_trans _ (flat_map (put e w) (rev (map swap (hes l))))); [apply turned_flat_map, hes_rev|].
  destruct l as [|x t]; [apply turned_refl|]. cbn [hes]. assert (E := insert_rev_path e w x t x).
  revert E. generalize (flat_map (put e w) (rev (map swap (path_edges x t x)))), (flat_map (fun h => rev (put e w h)) (rev (path_edges x t x))).
  intros F G E. destruct F as [|y F]; cbn in E; injection E.
  - intros ->. apply turned_refl.
  - intros -> ->. exists [y], F. auto.
Qed.
Lemma insert_ok e w l : NoDup l -> 3 <= length l -> (forall v, In v l -> v < w) ->
  NoDup (insert_vertex_in e w l) /\ 3 <= length (insert_vertex_in e w l) /\ forall v, In v (insert_vertex_in e w l) -> v < S w.
Proof.
  intros N L V. destruct (insert_case e w l N L) as [->|(x & t & y & Tl & Ee & Ti)].
  - split; auto. split; auto. intros v Hv. apply V in Hv. lia.
  - assert (PT := turned_perm _ _ Ti). assert (PL := turned_perm _ _ Tl). split; [|split].
    + apply (Permutation_NoDup (Permutation_sym PT)). constructor; [|now apply (Permutation_NoDup PL)].
      intros H. apply (Permutation_in _ (Permutation_sym PL)) in H. apply V in H. lia.
    + rewrite (Permutation_length PT). cbn [length]. rewrite (Permutation_length PL) in L. cbn [length] in L. lia.
    + intros v Hv. apply (Permutation_in _ PT) in Hv. destruct Hv as [<-|Hv]; [lia|].
      apply (Permutation_in _ (Permutation_sym PL)) in Hv. apply V in Hv. lia.
Qed.
Fixpoint ins_all (l : list nat) (w : nat) (cross : list (nat * nat)) : list nat :=
  match cross with [] => l | e :: t => ins_all (insert_vertex_in e w l) (S w) t end.
Lemma split_edges_map ls w cross : split_edges ls w cross = map (fun l => ins_all l w cross) ls.
Proof.
  revert ls w; induction cross as [|e t IH]; intros ls w; cbn; [now rewrite map_id|]. rewrite IH, map_map. reflexivity.
Qed.
Lemma ins_all_turned cross : forall l l' w, turned l l' -> turned (ins_all l w cross) (ins_all l' w cross).
Proof. induction cross as [|e t IH]; intros l l' w T; cbn; auto. apply IH. now apply insert_turned. Qed.
Lemma ins_all_rev cross : forall l w, turned (ins_all (rev l) w cross) (rev (ins_all l w cross)).
Proof.
  induction cross as [|e t IH]; intros l w; cbn; [apply turned_refl|].
  apply (turned_trans _ (ins_all (rev (insert_vertex_in e w l)) (S w) t)); [apply ins_all_turned, insert_rev|apply IH].
Qed.
Lemma ins_all_nodup cross : forall l w, NoDup l -> 3 <= length l -> (forall v, In v l -> v < w) -> NoDup (ins_all l w cross) /\ 3 <= length (ins_all l w cross).
Proof.
  induction cross as [|e t IH]; intros l w N L V; cbn; auto. destruct (insert_ok e w l N L V) as (A & B & C). now apply IH.
Qed.
Definition subs (cross : list (nat * nat)) (w : nat) (p : point) : point :=
  match p with PX n q => match edge_index (n, q) cross with Some i => PV (w + i) | None => p end | PV _ => p end.
Lemma cut_ins_all s cross : forall w l r, cut_face s l r -> NoDup l -> 3 <= length l -> (forall v, In v l -> v < w) ->
  (forall v, w <= v -> s v = Zero) -> Forall (crosses s) cross ->
  cut_face s (ins_all l w cross) (option_map (map (subs cross w)) r).
Proof.
  induction cross as [|e t IH]; intros w l r C N L V Z F.
  - cbn. assert (E : option_map (map (subs [] w)) r = r); [|now rewrite E]. destruct r as [p|]; [|reflexivity]. cbn. f_equal.
    rewrite (map_ext _ (fun x => x)); [apply map_id|]. intros [v|n q]; reflexivity.
  - inversion F as [|? ? Fe Ft]. subst. cbn [ins_all]. destruct (insert_ok e w l N L V) as (N' & L' & V').
    assert (C' := cut_insert s e w l r C N L (Z w (le_n w)) Fe).
    specialize (IH (S w) _ _ C' N' L' V' (fun v H => Z v (Nat.lt_le_incl _ _ H)) Ft).
    assert (E : option_map (map (subs (e :: t) w)) r = option_map (map (subs t (S w))) (option_map (map (sub1 e w)) r)); [|now rewrite E].
    destruct r as [p|]; [|reflexivity]. cbn. f_equal. rewrite map_map. apply map_ext. intros [v|n q]; cbn [subs sub1]; auto.
    cbn [edge_index]. rewrite edge_eqb_sym. destruct (edge_eqb (n, q) e); cbn; [now rewrite Nat.add_0_r|].
    destruct (edge_index (n, q) t); cbn; auto; f_equal; lia.
Qed.
Lemma gcomplex_edges cross : forall cx cf cd, gcomplex cx cf -> gcomplex (Bsp (nverts cx + length cross) (split_edges (loops cx) (nverts cx) cross) (fdata cx) cd) cf.
Proof.
  induction cross as [|e t IH]; intros cx cf cd G; cbn [split_edges length].
  - rewrite Nat.add_0_r. now apply gcomplex_cdata.
  - apply (gcomplex_insert cx cf e cd) in G. specialize (IH _ cf cd G). cbn [nverts loops fdata] in IH.
    replace (nverts cx + S (length t)) with (S (nverts cx) + length t) by lia. exact IH.
Qed.

(** * One face *)
Lemma find_two_skip va vb P a t : ~ In va P -> ~ In vb P -> a = va \/ a = vb -> find_two va vb (P ++ a :: t) = Some (P, a, t).
Proof.
  intros A B H. induction P as [|x P IH]; cbn.
  - destruct H as [->| ->]; rewrite Nat.eqb_refl; [reflexivity|]. now rewrite orb_true_r.
  - cbn in A, B. destruct (Nat.eqb_spec x va), (Nat.eqb_spec x vb); try tauto. cbn. rewrite IH; tauto.
Qed.
Lemma app_split {A} (q p a : list A) v b : q ++ p = a ++ v :: b ->
  (exists a2, a = q ++ a2 /\ p = a2 ++ v :: b) \/ exists b1, q = a ++ v :: b1 /\ b = b1 ++ p.
Proof.
  revert q; induction a as [|x a IH]; intros q E.
  - destruct q as [|y q]; cbn in E; [left; exists []; auto|right]. injection E as -> <-. now exists q.
  - destruct q as [|y q]; cbn in E; [left; exists (x :: a); auto|]. injection E as -> E. destruct (IH q E) as [(a2 & -> & ->)|(b1 & -> & ->)]; [left; exists a2|right; exists b1]; auto.
Qed.
Lemma split_loop_ok l u A v B x y : NoDup l -> turned l (u :: A ++ v :: B) -> x = u /\ y = v \/ x = v /\ y = u ->
  split_loop l x y = Some (v :: u :: A, u :: v :: B) \/ split_loop l x y = Some (u :: v :: B, v :: u :: A).
Proof.
  intros N (p & q & -> & E) XY.
  assert (NT : NoDup (u :: A ++ v :: B)). { rewrite E. apply (Permutation_NoDup (Permutation_app_comm p q) N). }
  assert (NT' := NT). change (u :: A ++ v :: B) with ((u :: A) ++ v :: B) in NT'. apply NoDup_remove_2 in NT'.
  inversion NT as [|? ? U _]. subst. rewrite in_app_iff in U, NT'. cbn in U, NT'.
  assert (G1 : forall P R, B = R ++ P -> split_loop (P ++ u :: A ++ v :: R) x y = Some (v :: u :: A, u :: v :: B)).
  { intros P R ->. rewrite in_app_iff in *. unfold split_loop.
    rewrite find_two_skip; [|destruct XY as [(-> & ->)|(-> & ->)]; tauto|destruct XY as [(-> & ->)|(-> & ->)]; tauto|destruct XY as [(-> & ->)|(-> & ->)]; tauto].
    rewrite find_two_skip; [|destruct XY as [(-> & ->)|(-> & ->)]; tauto|destruct XY as [(-> & ->)|(-> & ->)]; tauto|destruct XY as [(-> & ->)|(-> & ->)]; tauto].
    destruct XY as [(-> & ->)|(-> & ->)]; [rewrite Nat.eqb_refl; reflexivity|]. destruct (Nat.eqb_spec u v); [subst; tauto|reflexivity]. }
  assert (G2 : forall P R, A = R ++ P -> split_loop (P ++ v :: B ++ u :: R) x y = Some (u :: v :: B, v :: u :: A)).
  { intros P R ->. rewrite in_app_iff in *. unfold split_loop.
    rewrite find_two_skip; [|destruct XY as [(-> & ->)|(-> & ->)]; tauto|destruct XY as [(-> & ->)|(-> & ->)]; tauto|destruct XY as [(-> & ->)|(-> & ->)]; tauto].
    rewrite find_two_skip; [|destruct XY as [(-> & ->)|(-> & ->)]; tauto|destruct XY as [(-> & ->)|(-> & ->)]; tauto|destruct XY as [(-> & ->)|(-> & ->)]; tauto].
    destruct XY as [(-> & ->)|(-> & ->)]; [destruct (Nat.eqb_spec v u); [subst; tauto|reflexivity]|]. rewrite Nat.eqb_refl; reflexivity. }
  destruct q as [|u' q]; cbn in E.
  - left. subst p. rewrite app_nil_r. apply (G1 [] B). now rewrite app_nil_r.
  - injection E as <- E. symmetry in E. destruct (app_split q p A v B E) as [(a2 & EA & ->)|(b1 & -> & EB)].
    + right. rewrite <- app_assoc. cbn. now apply G2.
    + left. now apply G1.
Qed.

Definition two_cut (s : nat -> Orientation) (o : list nat) (a b : nat) : Prop :=
  exists P N, turned o (a :: P ++ b :: N) /\ P <> [] /\ N <> [] /\ all s Positive P /\ all s Negative N /\ s a = Zero /\ s b = Zero.
Lemma cut_two_inv s o a b : cut_face s o (Some [PV a; PV b]) -> (exists n, In n o /\ s n = Negative) -> two_cut s o a b.
Proof.
  intros C (n & Hn & Sn). inversion C as [| | |Z P TU LZ NP AZ AP E|x P y N x' y' TU NP NN AP AN HX HY E]; subst.
  - exfalso. apply (turned_in _ _ _ TU), in_app_or in Hn as [Hn|Hn]; [apply AZ in Hn|apply AP in Hn]; congruence.
  - destruct HX as [(z & -> & Sz & [= ->])|(_ & [=])]. destruct HY as [(z' & -> & Sz' & [= ->])|(_ & [=])].
    exists P, N. cbn in TU. auto 10.
Qed.
Lemma ins_all_in cross : forall l w v, In v l -> In v (ins_all l w cross).
Proof. induction cross as [|e t IH]; intros l w v H; cbn; auto. apply IH, insert_in. auto. Qed.
Lemma ins_all_same s cross : Forall (crosses s) cross -> forall l w, (forall u v, In (u, v) (hes l) -> ~ crosses s (u, v)) -> ins_all l w cross = l.
Proof.
  induction 1 as [|e t C F IH]; intros l w H; cbn; auto. rewrite insert_other; auto.
  intros (a, b) Hh. destruct (edge_eqb (a, b) e) eqn:E; auto. exfalso. apply (H a b Hh). apply (crosses_sign s e a b C E).
Qed.
Lemma outward_perm (b : bool) l : Permutation (outward b l) (hes (if b then l else rev l)).
Proof. destruct b; cbn; [apply Permutation_refl|]. rewrite (turned_perm _ _ (hes_rev l)). apply Permutation_rev. Qed.
Lemma times_perm E F e : Permutation E F -> times E e = times F e.
Proof. intros P. apply (proj1 (Permutation_count_occ he_dec E F) P). Qed.
Lemma times_app E F e : times (E ++ F) e = times E e + times F e.
Proof. apply count_occ_app. Qed.
Lemma times_none s E u v : (forall a b, In (a, b) E -> s a <> Zero \/ s b <> Zero) -> s u = Zero -> s v = Zero -> times E (u, v) = 0.
Proof. intros H U V. apply count_occ_not_In. intros I. apply H in I. tauto. Qed.
Lemma times_swap E u v : times (map swap E) (u, v) = times E (v, u).
Proof.
  induction E as [|(a, b) E IH]; auto. unfold times in *. cbn [map count_occ]. rewrite IH.
  change (swap (a, b)) with (b, a). destruct (he_dec (b, a) (u, v)), (he_dec (a, b) (v, u)); auto; exfalso; congruence.
Qed.
Lemma path_zz s g x t y u v : g <> Zero -> all s g (x :: t) -> s u = Zero -> s v = Zero -> times (path_edges x t y) (u, v) = 0.
Proof.
  intros G A U V. apply (times_none s); auto. intros a b H. left.
  assert (I : In a (x :: t)) by (rewrite <- (path_edges_fst x t y); apply in_map_iff; exists (a, b); auto).
  rewrite (A a I). exact G.
Qed.
Lemma side_zz s o Z P u v : turned o (Z ++ P) -> P <> [] -> Z <> [] -> all s Positive P -> s u = Zero -> s v = Zero ->
  times (hes o) (u, v) = times (steps (rev Z)) (v, u).
Proof.
  intros T NP NZ AP U V. rewrite (times_perm _ _ _ (turned_perm _ _ (hes_turned _ _ T))).
  destruct Z as [|z Z]; [easy|]. destruct P as [|p P]; [easy|]. cbn [app hes]. rewrite path_edges_app, times_app.
  rewrite (path_zz s Positive p P z u v), Nat.add_0_r by (auto; discriminate).
  rewrite <- steps_rev, <- (times_perm _ _ _ (Permutation_rev _)), times_swap, <- (steps_path z Z p).
  assert (NE := path_edges_nil z Z p).
  rewrite (app_removelast_last (0, 0) NE) at 1. rewrite times_app. unfold times at 2. cbn [count_occ].
  assert (L : snd (last (path_edges z Z p) (0, 0)) = p).
  { clear. revert z; induction Z as [|a Z IH]; intros z; [reflexivity|]. cbn [path_edges]. rewrite last_cons.
    specialize (IH a). destruct (path_edges a Z p) eqn:E; [now apply path_edges_nil in E|]. rewrite last_cons in IH |- *. exact IH. }
  destruct (he_dec _ _) as [E|E]; [|lia]. exfalso. rewrite E in L. cbn in L. subst p. rewrite (AP v) in V; [discriminate|now left].
Qed.
Lemma two_zz s a b P u v : P <> [] -> all s Positive P -> s u = Zero -> s v = Zero ->
  times (hes (b :: a :: P)) (u, v) = times [(a, b)] (v, u).
Proof.
  intros NP AP U V. destruct P as [|p P]; [easy|]. cbn [hes path_edges].
  assert (E1 : times ((b, a) :: (a, p) :: path_edges p P b) (u, v) = times [(b, a)] (u, v)).
  { change ((b, a) :: (a, p) :: path_edges p P b) with ([(b, a)] ++ [(a, p)] ++ path_edges p P b). rewrite !times_app.
    rewrite (path_zz s Positive p P b u v) by (auto; discriminate). rewrite (times_none s [(a, p)]); auto.
    intros x y [H|[]]. injection H as <- <-. right. rewrite AP; [discriminate|now left]. }
  rewrite E1. apply (times_swap [(a, b)]).
Qed.

(** * All the faces *)
Definition is_two (r : nat * split_result) : bool := match snd r with TwoVerts _ _ => true | _ => false end.
Definition twos (rs : list (nat * split_result)) : list nat := map fst (filter is_two rs).
Definition zhs (rs : list (nat * split_result)) : list (nat * nat) :=
  flat_map (fun r => match snd r with ZeroHalfedges l => l | _ => [] end) rs.
Definition edges_of (cx : bsp) (c : nat) (fs : list nat) : list (nat * nat) := concat (map (face_edges cx c) fs).
Section Split.
  Variables (o : oracle) (tid cid nv : nat) (s : nat -> Orientation) (cross : list (nat * nat)).
  Definition contrib (r : nat * split_result) : list (nat * nat) :=
    match snd r with
    | ZeroHalfedges l => l
    | TwoVerts za zb => match zero_id cross za, zero_id cross zb with Some a, Some b => [(resolve nv a, resolve nv b)] | _, _ => [] end
    | IsPos _ => []
    end.
  Record SI (cx : bsp) (pos neg : list nat) (zh : list (nat * nat)) (rs : list (nat * split_result)) : Prop := {
    si_g : gcomplex cx (fun c => if c =? cid then pos ++ neg ++ twos rs else cell_faces cx c);
    si_pos : forall f v, In f pos -> In v (cycle_of cx f) -> s v = Positive \/ s v = Zero;
    si_neg : forall f v, In f neg -> In v (cycle_of cx f) -> s v = Negative \/ s v = Zero;
    si_two : forall r za zb, In r rs -> snd r = TwoVerts za zb -> exists ga gb, zero_id cross za = Some ga /\ zero_id cross zb = Some gb /\
      two_cut s (cycle_from cx cid (fst r)) (resolve nv ga) (resolve nv gb);
    si_zz : forall u v, s u = Zero -> s v = Zero -> times (edges_of cx cid pos) (u, v) = times (zh ++ zhs rs) (v, u) }.

  Lemma add_to_cell_ok cd c fid : (forall x, c = Some x -> x <> cid -> x < length cd) ->
    exists cd', add_to_cell cd c cid fid = Some cd' /\ length cd' = length cd /\
    forall k, (c = Some k -> k <> cid -> exists d, nth_error cd k = Some d /\ nth_error cd' k = Some (BCell (cfaces d ++ [fid]) (inner d))) /\
              (c <> Some k \/ k = cid -> nth_error cd' k = nth_error cd k).
  Proof.
    intros H. unfold add_to_cell. destruct c as [x|]; [|exists cd; split; auto; split; auto; intros k; split; [intros [=]|auto]].
    destruct (Nat.eqb_spec x cid) as [->|N]; [exists cd; split; auto; split; auto; intros k; split; [intros [= ->]; congruence|auto]|].
    assert (L := H x eq_refl N). destruct (nth_error_ex cd x L) as (d & E). rewrite E.
    assert (S : set cd x (BCell (cfaces d ++ [fid]) (inner d)) = Some (upd cd x (BCell (cfaces d ++ [fid]) (inner d)))) by (apply set_Some; auto).
    rewrite S. eexists. split; [reflexivity|]. split; [apply upd_length|]. intros k. split.
    - intros [= ->] _. exists d. split; auto. now apply nth_error_upd_eq.
    - intros Hk. apply nth_error_upd_neq. intros ->. destruct Hk; congruence.
  Qed.
  Lemma cell_faces_set cx ls fd cd k : cell_faces (Bsp (nverts cx) ls fd cd) k = match nth_error cd k with Some x => cfaces x | None => [] end.
  Proof. reflexivity. Qed.

  Lemma split_one_two cx pos neg zh f za zb rs : SI cx pos neg zh ((f, TwoVerts za zb) :: rs) ->
    exists cx' pos' neg', split_one o tid cid nv s cross (cx, pos, neg, zh) (f, TwoVerts za zb) = Some (cx', pos', neg', zh ++ contrib (f, TwoVerts za zb)) /\
      SI cx' pos' neg' (zh ++ contrib (f, TwoVerts za zb)) rs /\ nverts cx' = nverts cx /\ length (cdata cx') = length (cdata cx) /\
      nth_error (cdata cx') cid = nth_error (cdata cx) cid.
  Proof.
    intros [G SP SN ST SZ]. destruct (ST _ za zb (or_introl eq_refl) eq_refl) as (ga & gb & Ea & Eb & (P & N & TU & NP & NN & AP & AN & Sa & Sb)).
    unfold contrib. cbn [snd]. rewrite Ea, Eb. set (va := resolve nv ga) in *. set (vb := resolve nv gb) in *. cbn [fst] in TU.
    set (cf := fun c => if c =? cid then pos ++ neg ++ twos ((f, TwoVerts za zb) :: rs) else cell_faces cx c) in *.
    assert (TW : twos ((f, TwoVerts za zb) :: rs) = f :: twos rs) by reflexivity.
    assert (Hf : In f (cf cid)) by (unfold cf; rewrite Nat.eqb_refl, TW, !in_app_iff; cbn; auto).
    assert (NDc := g_once _ _ G cid). unfold cf in NDc. rewrite Nat.eqb_refl, TW in NDc.
    assert (NF : ~ In f pos /\ ~ In f neg /\ ~ In f (twos rs)).
    { rewrite app_assoc in NDc. apply NoDup_remove_2 in NDc. rewrite !in_app_iff in NDc. tauto. }
    assert (IC := proj1 (g_inc _ _ G cid f) Hf). apply face_cells_in in IC as (x & Ex & IC).
    assert (Lf : f < length (loops cx)) by (rewrite (g_len _ _ G); now apply nth_error_lt in Ex).
    destruct (nth_error_ex (loops cx) f Lf) as (l & El). destruct (g_loop _ _ G f l El) as (L3 & NDl & Vl).
    set (n := length (loops cx)) in *.
    set (b0 := first_cell cx cid f).
    assert (CY : cycle_from cx cid f = if b0 then l else rev l) by (unfold cycle_from, cycle_of; rewrite (nth_error_nth _ _ [] El); reflexivity).
    rewrite CY in TU.
    (* the arcs of the stored cycle *)
    assert (AR : exists u A v B, turned l (u :: A ++ v :: B) /\ A <> [] /\ B <> [] /\ all s Positive A /\ all s Negative B /\ s u = Zero /\ s v = Zero /\
       (va = u /\ vb = v \/ va = v /\ vb = u) /\ Permutation (outward b0 (v :: u :: A)) (hes (vb :: va :: P))).
    { destruct b0.
      - exists va, P, vb, N. split; auto. do 6 (split; auto).
      - exists vb, (rev P), va, (rev N). split; [|split; [now apply rev_nonempty|split; [now apply rev_nonempty|split; [now apply all_rev|split; [now apply all_rev|]]]]].
        + apply turned_rev in TU. rewrite rev_involutive in TU. apply (turned_trans _ _ _ TU).
          change (va :: P ++ vb :: N) with ([va] ++ P ++ [vb] ++ N). rewrite !rev_app_distr. cbn [rev app]. rewrite <- !app_assoc. cbn [app].
          apply (turned_trans _ ((vb :: rev P ++ [va]) ++ rev N)); [apply turned_app|]. cbn. rewrite <- app_assoc. apply turned_refl.
        + split; auto. split; auto. split; auto.
          apply (perm_trans (outward_perm false (va :: vb :: rev P))). cbn [rev]. rewrite rev_involutive, <- app_assoc. cbn [app].
          apply turned_perm, hes_turned. exists P, [vb; va]. auto. }
    destruct AR as (u & A & v & B & TU' & NA & NB & AA & AB & Su & Sv & UV & PO).
    assert (SL := split_loop_ok l u A v B va vb NDl TU' UV).
    (* the cells *)
    assert (LC : forall y, fst (cells x) = Some y \/ snd (cells x) = Some y -> y <> cid -> y < length (cdata cx)).
    { intros y Hy Ny. assert (Hy' : In y (face_cells cx f)) by (apply face_cells_in; eauto). apply (g_inc _ _ G) in Hy'.
      unfold cf in Hy'. destruct (Nat.eqb_spec y cid); [easy|]. unfold cell_faces in Hy'. destruct (nth_error (cdata cx) y) eqn:Ey; [|easy].
      now apply nth_error_lt in Ey. }
    destruct (add_to_cell_ok (cdata cx) (fst (cells x)) n) as (cd1 & E1 & Lc1 & H1); [intros y Hy; apply LC; auto|].
    destruct (add_to_cell_ok cd1 (snd (cells x)) n) as (cd2 & E2 & Lc2 & H2); [intros y Hy; rewrite Lc1; apply LC; auto|].
    assert (NC : forall y, fst (cells x) = Some y -> snd (cells x) = Some y -> False).
    { intros y Y1 Y2. assert (T := g_two _ _ G f). unfold face_cells in T. rewrite Ex, Y1, Y2 in T. cbn in T. inversion T as [|? ? Q _]. apply Q. now left. }
    assert (CF1 : forall k, k <> cid -> In k (face_cells cx f) -> match nth_error cd2 k with Some x => cfaces x | None => [] end = cell_faces cx k ++ [n]).
    { intros k Nk Ik. apply face_cells_in in Ik as (x' & Ex' & Ik). assert (x' = x) by congruence. subst x'.
      destruct (H1 k) as (H1a & H1b). destruct (H2 k) as (H2a & H2b). destruct Ik as [Ik|Ik].
      - rewrite H2b by (left; intros Q; now apply (NC k)). destruct (H1a Ik Nk) as (d & Ed & Ed'). rewrite Ed'. unfold cell_faces. now rewrite Ed.
      - destruct (H2a Ik Nk) as (d & Ed & Ed'). rewrite Ed'. rewrite H1b in Ed by (left; intros Q; now apply (NC k)). unfold cell_faces. now rewrite Ed. }
    assert (CF2 : forall k, k = cid \/ ~ In k (face_cells cx f) -> nth_error cd2 k = nth_error (cdata cx) k).
    { intros k Hk. destruct (H1 k) as (_ & H1b). destruct (H2 k) as (_ & H2b). rewrite H2b, H1b; auto.
      - destruct Hk; auto. left. intros Q. apply H. apply face_cells_in. eauto.
      - destruct Hk; auto. left. intros Q. apply H. apply face_cells_in. eauto. }
    unfold split_one. cbn [fst snd]. rewrite Ea, Eb. fold va vb n. rewrite El.
    assert (SF : forall x', set (fdata cx) f x' = Some (upd (fdata cx) f x')) by (intros x'; apply set_Some; split; auto; now rewrite <- (g_len _ _ G)).
    assert (SLp : forall l', set (loops cx) f l' = Some (upd (loops cx) f l')) by (intros l'; apply set_Some; split; auto).
    assert (TH : forall a b c d : nat, forall r, nth (2 mod length (a :: b :: c :: r)) (a :: b :: c :: r) d = c).
    { intros a b c d r. rewrite Nat.mod_small; [reflexivity|cbn; lia]. }
    set (sd := o_tri o tid).
    (* the two results have the same shape *)
    assert (FIN : forall pf nf cx', (pf = f /\ nf = n \/ pf = n /\ nf = f) ->
      nverts cx' = nverts cx -> cdata cx' = cd2 ->
      gcomplex cx' (fun c => if c =? cid then n :: cf cid else cell_faces cx' c) ->
      cycle_of cx' pf = v :: u :: A -> cycle_of cx' nf = u :: v :: B -> first_cell cx' cid pf = b0 ->
      (forall g, g < n -> g <> f -> cycle_of cx' g = cycle_of cx g /\ first_cell cx' cid g = first_cell cx cid g) ->
      SI cx' (pos ++ [pf]) (neg ++ [nf]) (zh ++ [(va, vb)]) rs).
    { intros pf nf cx' PN NV CD G' Cp Cn Fp OT.
      assert (LT : forall g, In g (cf cid) -> g < n).
      { intros g Hg. apply (g_inc _ _ G) in Hg. apply face_cells_in in Hg as (y & Ey & _). apply nth_error_lt in Ey. unfold n. now rewrite (g_len _ _ G). }
      assert (LTc : cf cid = pos ++ neg ++ f :: twos rs) by (unfold cf; now rewrite Nat.eqb_refl, TW).
      rewrite LTc in LT. setoid_rewrite in_app_iff in LT. setoid_rewrite in_app_iff in LT. cbn [In] in LT.
      constructor.
      - apply (gcomplex_perm _ _ _ G'). intros c. destruct (c =? cid); [|apply Permutation_refl]. rewrite LTc.
        assert (PQ : Permutation (n :: pos ++ neg ++ f :: twos rs) ([f; n] ++ pos ++ neg ++ twos rs)).
        { cbn. rewrite perm_swap. constructor. rewrite app_assoc. symmetry. rewrite app_assoc. apply Permutation_middle. }
        rewrite PQ. rewrite <- !app_assoc. cbn [app].
        assert (PR : Permutation (pf :: nf :: pos ++ neg ++ twos rs) (pos ++ pf :: neg ++ nf :: twos rs)).
        { rewrite <- Permutation_middle. constructor. rewrite app_assoc. rewrite (Permutation_middle (pos ++ neg)). now rewrite <- app_assoc. }
        rewrite <- PR. destruct PN as [(-> & ->)|(-> & ->)]; [apply Permutation_refl|apply perm_swap].
      - intros g w Hg Hw. apply in_app_or in Hg as [Hg|[<-|[]]].
        + destruct (OT g) as (E & _); [apply LT; auto|intros ->; tauto|]. rewrite E in Hw. now apply (SP g).
        + rewrite Cp in Hw. destruct Hw as [<-|[<-|Hw]]; auto.
      - intros g w Hg Hw. apply in_app_or in Hg as [Hg|[<-|[]]].
        + destruct (OT g) as (E & _); [apply LT; auto|intros ->; tauto|]. rewrite E in Hw. now apply (SN g).
        + rewrite Cn in Hw. destruct Hw as [<-|[<-|Hw]]; auto.
      - intros r za' zb' Hr Er. destruct (ST r za' zb' (or_intror Hr) Er) as (ga' & gb' & Ea' & Eb' & TC). exists ga', gb'. do 2 (split; auto).
        assert (IT : In (fst r) (twos rs)). { unfold twos. apply in_map, filter_In. split; auto. unfold is_two. now rewrite Er. }
        destruct (OT (fst r)) as (E & E'); [apply LT; auto|intros Q; rewrite Q in IT; tauto|]. unfold cycle_from in TC |- *. now rewrite E, E'.
      - intros w1 w2 W1 W2. unfold edges_of. rewrite concat_map_app, times_app. cbn [map concat]. rewrite app_nil_r.
        assert (EQ : map (face_edges cx' cid) pos = map (face_edges cx cid) pos).
        { apply map_ext_in. intros g Hg. destruct (OT g) as (E & E'); [apply LT; auto|intros ->; tauto|]. unfold face_edges. now rewrite E, E'. }
        rewrite EQ. fold (edges_of cx cid pos). rewrite (SZ w1 w2 W1 W2). cbn [zhs flat_map snd app]. fold (zhs rs).
        unfold face_edges. rewrite Cp, Fp, (times_perm _ _ _ PO), (two_zz s va vb P w1 w2 NP AP W1 W2), !times_app. lia. }
    assert (CELL : forall cx', cdata cx' = cd2 -> forall c, c <> cid -> In c (face_cells cx f) -> cell_faces cx' c = cell_faces cx c ++ [n]).
    { intros cx' CD c Nc Ic. unfold cell_faces at 1. rewrite CD. now apply CF1. }
    assert (CELL' : forall cx', cdata cx' = cd2 -> forall c, ~ In c (face_cells cx f) -> cell_faces cx' c = cell_faces cx c).
    { intros cx' CD c Ic. unfold cell_faces. rewrite CD. rewrite CF2 by auto. reflexivity. }
    assert (GEN : forall u A v B f1 f2, turned l (u :: A ++ v :: B) -> A <> [] -> B <> [] -> cells f1 = cells x -> cells f2 = cells x ->
      let cx' := Bsp (nverts cx) (upd (loops cx) f (v :: u :: A) ++ [u :: v :: B]) (upd (fdata cx) f f1 ++ [f2]) cd2 in
      gcomplex cx' (fun c => if c =? cid then n :: cf cid else cell_faces cx' c) /\
      cycle_of cx' f = v :: u :: A /\ cycle_of cx' n = u :: v :: B /\ first_cell cx' cid f = b0 /\ first_cell cx' cid n = b0 /\
      (forall g, g < n -> g <> f -> cycle_of cx' g = cycle_of cx g /\ first_cell cx' cid g = first_cell cx cid g)).
    { clear u A v B TU' NA NB AA AB Su Sv UV PO SL FIN. intros u A v B f1 f2 TU' NA NB C1 C2 cx'. split; [|split; [|split; [|split; [|split]]]].
      - apply (gcomplex_split cx cf f l x u A v B f1 f2 cd2); auto.
        + intros c Ic. destruct (Nat.eqb_spec c cid) as [->|Nc]; [apply Permutation_refl|]. rewrite (CELL cx' eq_refl c Nc Ic).
          unfold cf. destruct (Nat.eqb_spec c cid); [easy|]. symmetry. apply Permutation_cons_append.
        + intros c Ic. destruct (Nat.eqb_spec c cid) as [->|Nc].
          * exfalso. apply Ic. apply (g_inc _ _ G). exact Hf.
          * rewrite (CELL' cx' eq_refl c Ic). unfold cf. destruct (Nat.eqb_spec c cid); [easy|]. apply Permutation_refl.
      - unfold cycle_of, cx'. cbn [loops]. rewrite app_nth1 by (now rewrite upd_length). apply nth_error_nth. now apply nth_error_upd_eq.
      - unfold cycle_of, cx'. cbn [loops]. rewrite app_nth2 by (rewrite upd_length; unfold n; lia). rewrite upd_length. unfold n. now rewrite Nat.sub_diag.
      - unfold first_cell, cx', b0, first_cell. cbn [fdata]. rewrite nth_error_app1 by (rewrite upd_length, <- (g_len _ _ G); auto).
        rewrite nth_error_upd_eq by (rewrite <- (g_len _ _ G); auto). now rewrite C1, Ex.
      - unfold first_cell, cx', b0, first_cell. cbn [fdata]. rewrite nth_error_app_one, upd_length, <- (g_len _ _ G). fold n. rewrite Nat.eqb_refl. now rewrite C2, Ex.
      - intros g Gn Gf. split.
        + unfold cycle_of, cx'. cbn [loops]. rewrite app_nth1 by (now rewrite upd_length). destruct (nth_error_ex (loops cx) g Gn) as (lg & Eg).
          rewrite (nth_error_nth _ _ [] Eg). apply nth_error_nth. now rewrite nth_error_upd_neq by auto.
        + unfold first_cell, cx'. cbn [fdata]. rewrite nth_error_app1 by (rewrite upd_length, <- (g_len _ _ G); auto). now rewrite nth_error_upd_neq by auto. }
    assert (CFI : nth_error cd2 cid = nth_error (cdata cx) cid) by (apply CF2; auto).
    destruct SL as [SL|SL]; rewrite SL; fold n; rewrite Ex, E1, E2, SLp, SF.
    - assert (NP' : ori_eqb (s (nth (2 mod length (u :: v :: B)) (u :: v :: B) 0)) Positive = false).
      { destruct B as [|c B]; [easy|]. rewrite TH. rewrite (AB c) by now left. reflexivity. }
      rewrite NP'. cbn [negb].
      match goal with |- exists _ _ _, Some (Bsp _ _ (upd _ _ ?a ++ [?b]) _, _, _, _) = _ /\ _ => destruct (GEN u A v B a b TU' NA NB eq_refl eq_refl) as (G' & Q1 & Q2 & Q3 & Q4 & Q5) end.
      eexists _, _, _. split; [reflexivity|]. split; [|cbn [nverts cdata]; rewrite Lc2, Lc1; auto].
      apply FIN; auto.
    - assert (NP' : ori_eqb (s (nth (2 mod length (v :: u :: A)) (v :: u :: A) 0)) Positive = true).
      { destruct A as [|c A]; [easy|]. rewrite TH. rewrite (AA c) by now left. reflexivity. }
      rewrite NP'.
      assert (TU2 : turned l (v :: B ++ u :: A)) by (apply (turned_trans _ _ _ TU'); apply (turned_app (u :: A) (v :: B))).
      match goal with |- exists _ _ _, Some (Bsp _ _ (upd _ _ ?a ++ [?b]) _, _, _, _) = _ /\ _ => destruct (GEN v B u A a b TU2 NB NA eq_refl eq_refl) as (G' & Q1 & Q2 & Q3 & Q4 & Q5) end.
      eexists _, _, _. split; [reflexivity|]. split; [|cbn [nverts cdata]; rewrite Lc2, Lc1; auto].
      apply FIN; auto.
  Qed.

  Lemma split_all_ok rs : forall cx pos neg zh, SI cx pos neg zh rs ->
    exists cx' pos' neg', split_all o tid cid nv s cross (cx, pos, neg, zh) rs = Some (cx', pos', neg', zh ++ concat (map contrib rs)) /\
      SI cx' pos' neg' (zh ++ concat (map contrib rs)) [] /\ nverts cx' = nverts cx /\ length (cdata cx') = length (cdata cx) /\
      nth_error (cdata cx') cid = nth_error (cdata cx) cid.
  Proof.
    induction rs as [|(f, r) rs IH]; intros cx pos neg zh I.
    - cbn. rewrite app_nil_r. exists cx, pos, neg. auto.
    - cbn [split_all map concat]. destruct r as [za zb|l|b].
      + destruct (split_one_two _ _ _ _ _ _ _ _ I) as (cx1 & p1 & n1 & E1 & I1 & NV & LC & NC). rewrite E1.
        destruct (IH _ _ _ _ I1) as (cx2 & p2 & n2 & E2 & I2 & NV2 & LC2 & NC2). exists cx2, p2, n2. rewrite app_assoc.
        split; [exact E2|]. split; [exact I2|]. split; [congruence|]. split; congruence.
      + assert (I1 : SI cx pos neg (zh ++ l) rs).
        { destruct I as [G SP SN ST SZ]. constructor; auto.
          - intros r za zb Hr. apply ST. now right.
          - intros u v U V. rewrite (SZ u v U V). cbn [zhs flat_map snd]. now rewrite <- app_assoc. }
        destruct (IH _ _ _ _ I1) as (cx2 & p2 & n2 & E2 & I2 & Q). exists cx2, p2, n2. cbn [split_one snd contrib]. rewrite app_assoc. auto.
      + assert (I1 : SI cx pos neg zh rs).
        { destruct I as [G SP SN ST SZ]. constructor; auto. intros r za zb Hr. apply ST. now right. }
        destruct (IH _ _ _ _ I1) as (cx2 & p2 & n2 & E2 & I2 & Q). exists cx2, p2, n2. cbn [split_one snd contrib]. auto.
  Qed.
End Split.
