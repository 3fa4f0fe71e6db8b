(** C81: the points are cut in halves on alternating axes, the recursion starts from
    triangulations of two and three points. *)
From Coq Require Import List Arith Bool ZArith Reals Lia Lra Permutation Sorted.
From Verif Require Import Lib Flip Prop_Flip TriSeg TriSegSpec Prop_TriSeg DivConq DivConqSpec.
Import ListNotations.

(** * The order *)
Lemma not_before_trans axis p q r : axis <= 1 -> ~ before axis q p -> ~ before axis r q -> ~ before axis r p.
Proof.
  intros A. assert (axis = 0 \/ axis = 1) as [-> | ->] by lia; unfold before; cbn; intros H1 H2 [H3|(H3 & H4)];
    [apply H1|apply H1|apply H1|apply H1]; clear H1;
    destruct p as (p1, p2), q as (q1, q2), r as (r1, r2); cbn in *; lra.
Qed.
Lemma not_before_refl axis p : axis <= 1 -> ~ before axis p p.
Proof. unfold before. intros _ [H|(_ & H)]; lra. Qed.

Lemma alternate_ok P sel : selects P sel -> forall fuel l axis, axis <= 1 -> 1 <= length l -> length l <= fuel ->
  exists l', alternate_axes sel l axis fuel = Some l' /\ Permutation l' l /\ (2 <= length l -> cut P axis l').
Proof.
  intros Hs. induction fuel as [|k IH]; intros l axis Ax L1 Lf; [lia|]. cbn [alternate_axes].
  set (len := length l) in *. set (d := len / 2).
  assert (Dd : d < len) by (apply Nat.div_lt; lia). assert (D2 : 2 * d <= len <= 2 * d + 1).
  { subst d. pose proof (Nat.div_mod len 2 ltac:(lia)). pose proof (Nat.mod_upper_bound len 2 ltac:(lia)). lia. }
  destruct (Nat.ltb_spec d len) as [_|]; [|lia]. cbn [negb].
  set (ax := if len <=? 3 then 0 else axis). assert (Ax' : ax <= 1) by (subst ax; destruct (len <=? 3); lia).
  destruct (Hs ax d l Ax' Dd) as (Pm & a & x & b & E & La & Ha & Hb). rewrite E in *.
  replace (firstn d (a ++ x :: b)) with a by (rewrite <- La, firstn_app, Nat.sub_diag, firstn_all, app_nil_r; reflexivity).
  replace (skipn d (a ++ x :: b)) with (x :: b) by (rewrite <- La, skipn_app, Nat.sub_diag, skipn_all; reflexivity).
  assert (Lt : length a + S (length b) = len) by (pose proof (Permutation_length Pm) as Q; rewrite app_length in Q; cbn [length] in Q; unfold len; lia).
  assert (Sep : forall i j, In i a -> In j (x :: b) -> ~ before ax (P j) (P i)).
  { intros i j Hi [<-|Hj]; [auto|]. eapply not_before_trans; eauto. }
  destruct (Nat.leb_spec 2 (len - d)) as [Lr|Lr].
  - (* recursion *)
    destruct (IH (x :: b) (1 - ax)) as (r & Er & Pr & Cr); [lia|cbn; lia|cbn [length]; lia|].
    assert (Rl : length r = S (length b)) by (rewrite (Permutation_length Pr); reflexivity).
    destruct (Nat.leb_spec 2 d) as [Ld|Ld].
    + destruct (IH a (1 - ax)) as (l' & El & Pl & Cl); [lia|lia|lia|].
      assert (Ll : length l' = length a) by (apply Permutation_length; exact Pl).
      rewrite El, Er. exists (l' ++ r). split; [reflexivity|]. split.
      { eapply Permutation_trans; [apply Permutation_app; eassumption|exact Pm]. }
      intros _. destruct (Nat.leb_spec len 3); [lia|]. subst ax. apply cut_halves; [lia|lia| |apply Cl; lia|apply Cr; cbn [length]; lia].
      intros i j Hi Hj. apply Sep; [apply (Permutation_in _ Pl Hi)|apply (Permutation_in _ Pr Hj)].
    + (* three points *)
      rewrite Er. exists (a ++ r). split; [reflexivity|]. split.
      { eapply Permutation_trans; [apply Permutation_app_head; eassumption|exact Pm]. }
      intros _. assert (len = 3) by lia. assert (d = 1) by lia.
      destruct a as [|i [|? ?]]; cbn [length] in *; try lia.
      replace ax with 0 in * by (subst ax; destruct (Nat.leb_spec len 3); [reflexivity|lia]).
      apply cut_small; [cbn [app length]; lia|]. specialize (Cr ltac:(lia)).
      cbn [app]. constructor.
      * inversion Cr; subst; auto. match goal with Hq : 2 <= length ?u, Hw : length (?u ++ ?w) = _ |- _ => rewrite app_length in Hw; lia end.
      * rewrite Forall_forall. intros j Hj. apply Sep; [cbn; auto|]. apply (Permutation_in _ Pr Hj).
  - (* at most two points *)
    exists (a ++ x :: b). split; [reflexivity|]. split; [exact Pm|]. intros L2.
    assert (len = 2) by lia. assert (d = 1) by lia. destruct a as [|i [|? ?]]; cbn [length] in *; try lia. destruct b; cbn [length] in *; [|lia].
    replace ax with 0 in * by (subst ax; destruct (Nat.leb_spec len 3); [reflexivity|lia]).
    apply cut_small; [cbn; lia|]. repeat constructor. apply Sep; cbn; auto.
Qed.

(** The indices are put in an order in which the first half is before the second half
    on the first axis, each half is cut likewise on the other axis, down to two or
    three points in order of x: these are the halves and the axes div_conq_recurse
    uses. *)
Theorem C81_cuts P sort sel n : (forall l, Permutation (sort l) l) -> selects P sel -> 2 <= n ->
  exists idx, sorted_indices sort sel n = Some idx /\ Permutation idx (seq 0 n) /\ cut P 0 idx.
Proof.
  intros Hp Hs Hn. assert (L : length (sort (seq 0 n)) = n) by (rewrite (Permutation_length (Hp _)); apply seq_length).
  destruct (alternate_ok P sel Hs (S n) (sort (seq 0 n)) 0) as (idx & E & Pm & C); [lia|lia|lia|].
  exists idx. split; [exact E|]. split; [eapply Permutation_trans; [exact Pm|apply Hp]|apply C; lia].
Qed.
(** Without points it panics. *)
Theorem C81_no_points_panics sort sel : (forall l, Permutation (sort l) l) -> sorted_indices sort sel 0 = None.
Proof.
  intros Hp. unfold sorted_indices. cbn [seq]. assert (sort [] = []) as -> by (apply Permutation_nil, Permutation_sym, Hp). reflexivity.
Qed.

(** There are functions that select. *)
Lemma before_dec axis p q : {before axis p q} + {~ before axis p q}.
Proof.
  unfold before. destruct (Rlt_dec (coord axis p) (coord axis q)); [left; auto|].
  destruct (Req_EM_T (coord axis p) (coord axis q)); [|right; intros [?|(? & ?)]; contradiction].
  destruct (Rlt_dec (coord (1 - axis) p) (coord (1 - axis) q)); [left; auto|right; intros [?|(? & ?)]; contradiction].
Qed.
Lemma before_asym axis p q : before axis p q -> ~ before axis q p.
Proof. unfold before. intros [H|(H & H')] [G|(G & G')]; lra. Qed.
Section Select.
Variable P : nat -> R * R.
Fixpoint insert (axis x : nat) (l : list nat) : list nat :=
  match l with [] => [x] | y :: t => if before_dec axis (P y) (P x) then y :: insert axis x t else x :: l end.
Definition isort (axis : nat) (l : list nat) : list nat := fold_right (insert axis) [] l.
Lemma insert_perm axis x l : Permutation (insert axis x l) (x :: l).
Proof. induction l as [|y t IH]; cbn [insert]; auto. destruct before_dec; auto. eapply Permutation_trans; [apply perm_skip, IH|apply perm_swap]. Qed.
Lemma isort_perm axis l : Permutation (isort axis l) l.
Proof. induction l as [|x l IH]; cbn [isort fold_right]; auto. eapply Permutation_trans; [apply insert_perm|apply perm_skip, IH]. Qed.
Lemma isort_sorted axis l : axis <= 1 -> StronglySorted (fun i j => ~ before axis (P j) (P i)) (isort axis l).
Proof.
  intros Ax. induction l as [|x l IH]; cbn [isort fold_right]; [constructor|]. change (fold_right (insert axis) [] l) with (isort axis l).
  revert IH. generalize (isort axis l). clear l. intros l. induction l as [|y t IHt]; cbn [insert]; intros Sl.
  - repeat constructor.
  - inversion Sl as [|? ? S1 F1]; subst. destruct before_dec as [Q|Q].
    + constructor; [apply IHt, S1|]. rewrite Forall_forall in *. intros j Hj. apply (Permutation_in _ (insert_perm _ _ _)) in Hj. destruct Hj as [<-|Hj]; [now apply before_asym|auto].
    + constructor; auto. constructor; auto. rewrite Forall_forall in *. intros j Hj. eapply not_before_trans; eauto.
Qed.
Lemma isort_selects : selects P (fun axis _ l => isort axis l).
Proof.
  intros axis k l Ax Lk. split; [apply isort_perm|].
  assert (L : k < length (isort axis l)) by (rewrite (Permutation_length (isort_perm axis l)); exact Lk).
  pose proof (isort_sorted axis l Ax) as So. revert L So. generalize (isort axis l). clear Lk l. intros l. revert k.
  induction l as [|x l IH]; intros k L So; cbn [length] in L; [lia|]. inversion So as [|? ? S1 F1]; subst. destruct k as [|k].
  - exists [], x, l. rewrite Forall_forall in F1. repeat split; auto.
  - destruct (IH k ltac:(lia) S1) as (a & y & b & -> & La & Ha & Hb). exists (x :: a), y, b. cbn [length app]. repeat split; auto.
    intros i [<-|Hi]; [|auto]. rewrite Forall_forall in F1. apply F1. rewrite in_app_iff; cbn; auto.
Qed.
End Select.
(** Five points on a slope, given in any order, are cut into two and three. *)
Example C81_cuts_case : exists P sel idx, selects P sel /\ sorted_indices (fun l => l) sel 5 = Some idx /\ Permutation idx (seq 0 5) /\ cut P 0 idx.
Proof.
  set (P i := (- INR i, 2 * INR i)%R).
  destruct (C81_cuts P (fun l => l) (fun axis _ l => isort P axis l) 5) as (idx & A & B & C); auto using isort_selects; try lia.
  exists P, (fun axis _ l => isort P axis l), idx. auto using isort_selects.
Qed.

(** * Writing to the end of a mesh *)
Section App.
Variable m : list triangle.
Lemma nth_app w t : nth_error (m ++ w) (length m + t) = nth_error w t.
Proof. rewrite nth_error_app2 by lia. f_equal. lia. Qed.
Lemma set_app w t v : set (m ++ w) (length m + t) v = match set w t v with Some w' => Some (m ++ w') | None => None end.
Proof.
  unfold set. rewrite app_length. destruct (Nat.ltb_spec t (length w)), (Nat.ltb_spec (length m + t) (length m + length w)); try lia; [|reflexivity].
  f_equal. clear. induction m as [|x l IH]; cbn [app length Nat.add upd]; [reflexivity|now rewrite IH].
Qed.
Lemma put_data_app w t i v : put_data (m ++ w) (length m + t) i v = match put_data w t i v with Some w' => Some (m ++ w') | None => None end.
Proof.
  unfold put_data. rewrite nth_app. destruct (nth_error w t) as [tr|]; [|reflexivity]. destruct (set (data tr) i v); [|reflexivity]. apply set_app.
Qed.
Lemma put_nei_app w t i g : put_nei (m ++ w) (length m + t, i) g = match put_nei w (t, i) g with Some w' => Some (m ++ w') | None => None end.
Proof.
  unfold put_nei. cbn [fst snd]. rewrite nth_app. destruct (nth_error w t) as [tr|]; [|reflexivity]. destruct (set (nei tr) i g); [|reflexivity]. apply set_app.
Qed.
Lemma get_data_app w t i : get_data (m ++ w) (length m + t) i = get_data w t i.
Proof. unfold get_data. now rewrite nth_app. Qed.
Lemma sym_app w t i : sym (m ++ w) (length m + t, i) = sym w (t, i).
Proof. unfold sym. cbn [fst snd]. now rewrite nth_app. Qed.
Lemma make_app INV w : make_triangle INV (m ++ w) = (m ++ (w ++ [default_tri INV]), (length m + length w, 0)).
Proof. unfold make_triangle. now rewrite app_assoc_reverse, app_length. Qed.
End App.

(** * Two and three points *)
Ltac simp := cbn [put_data put_nei nth_error data nei set length Nat.ltb Nat.leb upd fst snd Nat.modulo Nat.divmod Nat.add Nat.sub app default_tri].
Ltac run := repeat (first [rewrite put_data_app|rewrite put_nei_app|rewrite make_app]; simp).
Section Small.
Variables (INV : nat) (m : list triangle).
Let n := length m.
Notation T d0 d1 d2 e0 e1 e2 := (mk_tri [d0; d1; d2; INV; INV; INV] [e0; e1; e2]).
Lemma two_points_eq a b : two_points INV m a b = Some (m ++ [T INV a b (n + 1, 0) (n + 1, 2) (n + 1, 1); T INV b a (n + 0, 0) (n + 0, 2) (n + 0, 1)], (n + 1, 1), (n + 1, 2)).
Proof.
  unfold two_points. replace (make_triangle INV m) with (make_triangle INV (m ++ [])) by now rewrite app_nil_r.
  unfold set_org, set_dest, bond, prev, next. run. reflexivity.
Qed.
Lemma three_points_eq ccw a b c : three_points INV ccw m a b c = Some (
  if (ccw a b c =? 0)%Z then
    (m ++ [T INV a b (n + 1, 0) (n + 3, 2) (n + 1, 1); T INV b a (n + 0, 0) (n + 0, 2) (n + 2, 1);
           T INV c b (n + 3, 0) (n + 1, 2) (n + 3, 1); T INV b c (n + 2, 0) (n + 2, 2) (n + 0, 1)], (n + 1, 1), (n + 2, 2))
  else if (0 <? ccw a b c)%Z then
    (m ++ [T c a b (n + 1, 0) (n + 2, 0) (n + 3, 0); T INV b a (n + 0, 0) (n + 3, 2) (n + 2, 1);
           T INV c b (n + 0, 1) (n + 1, 2) (n + 3, 1); T INV a c (n + 0, 2) (n + 2, 2) (n + 1, 1)], (n + 1, 1), (n + 2, 2))
  else
    (m ++ [T b a c (n + 1, 0) (n + 2, 0) (n + 3, 0); T INV c a (n + 0, 0) (n + 3, 2) (n + 2, 1);
           T INV b c (n + 0, 1) (n + 1, 2) (n + 3, 1); T INV a b (n + 0, 2) (n + 2, 2) (n + 1, 1)], (n + 1, 1), (n + 1, 2))).
Proof.
  unfold three_points. replace (make_triangle INV m) with (make_triangle INV (m ++ [])) by now rewrite app_nil_r.
  run. unfold three_collinear, three_proper, set_org, set_dest, set_apex, bond, prev, next.
  destruct (ccw a b c =? 0)%Z; [|destruct (0 <? ccw a b c)%Z]; simp; run; try reflexivity.
Qed.
End Small.
Lemma ix (m w : list triangle) t : length m <= t < length (m ++ w) -> exists j, t = length m + j /\ j < length w.
Proof. rewrite app_length. intros H. exists (t - length m). lia. Qed.
Lemma next_at n t i : next (n + t, i) = (n + t, (i + 1) mod 3). Proof. reflexivity. Qed.
(** The sides of the new triangles, one by one. *)
Lemma sides_of (m w : list triangle) (Q : hedge -> Prop) : (forall j i, j < length w -> i < 3 -> Q (length m + j, i)) ->
  forall h, length m <= fst h -> inside (m ++ w) h -> Q h.
Proof. intros H (t & i) L (A & B). cbn [fst snd] in *. destruct (ix m w t (conj L A)) as (j & -> & Lj). auto. Qed.
Lemma data_new (m w : list triangle) t i v : length m <= t -> get_data (m ++ w) t i = Some v -> exists j, t = length m + j /\ j < length w /\ get_data w j i = Some v.
Proof.
  intros Ht E. assert (t < length (m ++ w)). { unfold get_data in E. destruct (nth_error (m ++ w) t) eqn:Q; [|discriminate]. eapply nth_error_lt; eauto. }
  destruct (ix m w t (conj Ht H)) as (j & -> & Lj). rewrite get_data_app in E. eauto.
Qed.

Section Piece.
Variables (INV : nat) (ccw : nat -> nat -> nat -> Z) (m : list triangle).
(** [sh] counts the new triangles from [length m] on *)
Let sh (h : hedge) : hedge := (length m + fst h, snd h).
Lemma piece_of (w : list triangle) (nb : hedge -> hedge) (l : list nat) (fl fr hd : hedge) (hull : list hedge) :
  (forall j i, j < length w -> i < 6 -> get_data w j i <> None) ->
  (forall j i, j < length w -> i < 3 -> sym w (j, i) = Some (sh (nb (j, i))) /\ fst (nb (j, i)) < length w /\ snd (nb (j, i)) < 3 /\ nb (nb (j, i)) = (j, i) /\ nb (j, i) <> (j, i) /\
     org w (nb (j, i)) = dest w (j, i) /\ dest w (nb (j, i)) = org w (j, i)) ->
  (forall j i v, j < length w -> i < 3 -> get_data w j i = Some v -> v = INV \/ In v l) ->
  (forall v, In v l -> exists j i, j < length w /\ i < 3 /\ get_data w j i = Some v) ->
  (forall j i, j < length w -> i < 3 -> mark w (j, i) = Some INV) ->
  (forall j i k q, j < length w -> get_data w j 0 = Some i -> get_data w j 1 = Some k -> get_data w j 2 = Some q -> i <> INV -> k <> INV -> q <> INV -> (0 < ccw i k q)%Z) ->
  (fst fl < length w /\ snd fl < 3 /\ dest w fl = Some INV /\ org w fl = Some (List.hd 0 l)) ->
  (fst fr < length w /\ snd fr < 3 /\ org w fr = Some INV /\ dest w fr = Some (last l 0)) ->
  (forall j i, j < length w -> i < 3 -> forall k, k < 3 -> get_data w j i = Some INV -> get_data w j k = Some INV -> i = k) ->
  (path (fun h => Some (nb h)) hd (hull ++ [hd]) /\ NoDup (map fst (hd :: hull)) /\ (forall h, In h (hd :: hull) -> fst h < length w /\ snd h < 3 /\ dest w h = Some INV)) ->
  (forall j, j < length w -> (exists i, i < 3 /\ get_data w j i = Some INV) <-> In j (map fst (hd :: hull))) ->
  piece INV ccw m (m ++ w) l (sh fl) (sh fr).
Proof.
  intros Hd Hn Hc Hp Hm Hr (F1 & F2 & F3 & F4) (G1 & G2 & G3 & G4) Ho (Hpa & Hnd & Hh) Hg.
  assert (Oa : forall h, org (m ++ w) (sh h) = org w h) by (intros; unfold org; cbn [fst snd sh]; now rewrite get_data_app).
  assert (Da : forall h, dest (m ++ w) (sh h) = dest w h) by (intros; unfold dest; cbn [fst snd sh]; now rewrite get_data_app).
  assert (Sa : forall j i, sym (m ++ w) (sh (j, i)) = sym w (j, i)) by (intros; apply sym_app).
  assert (Fm : forall L, map fst (map sh L) = map (fun j => length m + j) (map fst L)) by (intros L; rewrite !map_map; reflexivity).
  constructor; [constructor|..].
  - eauto.
  - intros t i L Hi. destruct (ix m w t L) as (j & -> & Lj). rewrite get_data_app. auto.
  - apply sides_of. intros j i Lj Li. destruct (Hn j i Lj Li) as (A & B & C & D & E & F & G). change (length m + j, i) with (sh (j, i)).
    exists (sh (nb (j, i))). rewrite Sa, !Oa, !Da. split; [exact A|]. split; [cbn; lia|]. split; [split; cbn [fst snd sh]; rewrite ?app_length; lia|].
    destruct (nb (j, i)) as (j' & i') eqn:Q. cbn [fst snd] in *. destruct (Hn j' i' B C) as (A' & _). rewrite Sa, A', D. split; [reflexivity|].
    split; [|auto]. intros Q'. apply E. unfold sh in Q'. cbn in Q'. injection Q'. intros; subst. f_equal. lia.
  - intros t i v L Hi E. destruct (data_new m w t i v L E) as (j & -> & Lj & E'). eauto.
  - intros v Hv. destruct (Hp v Hv) as (j & i & A & B & C). exists (length m + j), i. rewrite get_data_app. split; [lia|auto].
  - intros t i k L Hi Hk E E2. destruct (data_new m w t i _ L E) as (j & -> & Lj & E'). rewrite get_data_app in E2. eauto.
  - apply sides_of. intros j i Lj Li. unfold mark. cbn [fst snd]. rewrite get_data_app. apply Hm; auto.
  - intros t i k q L E0 E1 E2. destruct (data_new m w t _ _ L E0) as (j & -> & Lj & E0'). rewrite get_data_app in *. eauto.
  - exists (sh hd), (map sh hull). change (sh hd :: map sh hull) with (map sh (hd :: hull)). split; [|split; [|split]].
    + change [sh hd] with (map sh [hd]). rewrite <- map_app. clear Hg Hnd. revert Hpa Hh.
      enough (forall L h, path (fun h => Some (nb h)) h L -> (forall x, In x (h :: L) -> fst x < length w /\ snd x < 3) -> path (sym (m ++ w)) (sh h) (map sh L)) as Q.
      { intros Hpa Hh. apply Q; auto. intros x Hx. assert (In x (hd :: hull)) as Hi by (cbn in *; rewrite in_app_iff in Hx; cbn in Hx; intuition). destruct (Hh x Hi); tauto. }
      induction L as [|g L IH]; intros h Hl Hb; cbn [path map] in *; [exact I|]. destruct Hl as (E & Hl). split; [|apply IH; auto; intros x Hx; apply Hb; right; exact Hx].
      destruct (Hb h) as (B1 & B2); [left; reflexivity|]. destruct h as (t & o). cbn [fst snd] in *. eapply eq_trans; [exact (Sa t ((o + 1) mod 3))|].
      injection E as <-. apply Hn; auto. apply Nat.mod_upper_bound. lia.
    + rewrite Fm. apply FinFun.Injective_map_NoDup; auto. intros x y; lia.
    + intros g Hi. apply in_map_iff in Hi. destruct Hi as (h & <- & Hi). rewrite Da. destruct (Hh h Hi) as (A & B & C). unfold inside. cbn [fst snd sh]. rewrite app_length. repeat split; auto; lia.
    + intros t L. destruct (ix m w t L) as (j & -> & Lj). rewrite Fm. specialize (Hg j Lj). split.
      * intros (i & Li & E). rewrite get_data_app in E. apply in_map. apply Hg. eauto.
      * intros Hi. apply in_map_iff in Hi. destruct Hi as (j' & E & Hi). assert (j' = j) by lia. subst j'. apply Hg in Hi. destruct Hi as (i & A & B). exists i. rewrite get_data_app. auto.
  - rewrite Da, Oa. cbn [fst snd sh]. repeat split; auto; cbn [fst snd sh]; rewrite ?app_length; lia.
  - rewrite Oa, Da. cbn [fst snd sh]. repeat split; auto; cbn [fst snd sh]; rewrite ?app_length; lia.
Qed.
Ltac each := let j := fresh "j" in let i := fresh "i" in let Hj := fresh "Hj" in let Hi := fresh "Hi" in intros j i Hj Hi; cbn [length] in Hj;
  repeat (destruct j as [|j]; [repeat (destruct i as [|i]; [|try (exfalso; lia)])|try (exfalso; lia)]).
Ltac tac_data := each; discriminate.
Ltac tac_nei := each; repeat split; try reflexivity; cbn; try lia; discriminate.
Ltac tac_corner := intros j i v Hj Hi; revert j i Hj Hi; each; intros E; injection E; intros; subst; cbn; tauto.
Ltac tac_mark := each; reflexivity.
Ltac tac_end := cbn; repeat split; lia.
Ltac corners E := cbn in E; injection E; intros; congruence.
Ltac tac_once := let E := fresh "E" in let E' := fresh "E'" in each; intros k Hk E E'; destruct k as [|[|[|k]]]; try reflexivity; try (exfalso; lia); exfalso; first [corners E|corners E'].
Ltac tac_hull := split; [cbn; auto 10|]; split; [cbn; repeat constructor; cbn; lia|];
  let h := fresh "h" in let Hh := fresh "Hh" in intros h Hh; cbn [In] in Hh; repeat (destruct Hh as [<-|Hh]; [cbn; repeat split; lia|]); destruct Hh.
Ltac tac_ghost := let j := fresh "j" in let Hj := fresh "Hj" in intros j Hj; cbn [length] in Hj; cbn [map fst In];
  repeat (destruct j as [|j]; [split; [intros (i & Hi & E); first [tauto|exfalso; destruct i as [|[|[|i]]]; [corners E|corners E|corners E|lia]]|
    intros Q; first [exists 0; split; [lia|reflexivity]|exfalso; lia]]|try (exfalso; lia)]).
Lemma two_piece a b : a <> INV -> b <> INV -> exists m' fl fr, two_points INV m a b = Some (m', fl, fr) /\ piece INV ccw m m' [a; b] fl fr /\ length m' = length m + 2.
Proof.
  intros Na Nb. rewrite two_points_eq. do 3 eexists. split; [reflexivity|]. split; [|rewrite app_length; reflexivity].
  apply (piece_of _ (fun h => match h with (0, 0) => (1, 0) | (0, 1) => (1, 2) | (0, _) => (1, 1) | (_, 0) => (0, 0) | (_, 1) => (0, 2) | _ => (0, 1) end) _ (1, 1) (1, 2) (1, 1) [(0, 1)]).
  - tac_data.
  - tac_nei.
  - tac_corner.
  - intros v [<-|[<-|[]]]; exists 0; [exists 1|exists 2]; cbn; repeat split; lia.
  - tac_mark.
  - intros j i k q Lj E0. destruct j as [|[|j]]; [injection E0; intros; congruence|injection E0; intros; congruence|cbn in Lj; lia].
  - tac_end.
  - tac_end.
  - tac_once.
  - tac_hull.
  - tac_ghost.
Qed.
Lemma three_piece (P : nat -> R * R) a b c : exact_signs P ccw -> a <> INV -> b <> INV -> c <> INV ->
  exists m' fl fr, three_points INV ccw m a b c = Some (m', fl, fr) /\ piece INV ccw m m' [a; b; c] fl fr /\ length m' = length m + 4.
Proof.
  intros Ex Na Nb Nc. rewrite three_points_eq.
  assert (An : forall a b c, ccw b a c = (- ccw a b c)%Z) by (apply (exact_anti P); exact Ex).
  assert (Cy : ccw c a b = ccw a b c).
  { rewrite !Ex. f_equal. unfold det. ring. }
  destruct (Z.eqb_spec (ccw a b c) 0) as [Z0|Z0]; [|destruct (Z.ltb_spec 0 (ccw a b c)) as [Zp|Zp]];
    (do 3 eexists; split; [reflexivity|]; split; [|rewrite app_length; reflexivity]).
  - apply (piece_of _ (fun h => match h with
        (0, 0) => (1, 0) | (0, 1) => (3, 2) | (0, _) => (1, 1) | (1, 0) => (0, 0) | (1, 1) => (0, 2) | (1, _) => (2, 1)
      | (2, 0) => (3, 0) | (2, 1) => (1, 2) | (2, _) => (3, 1) | (_, 0) => (2, 0) | (_, 1) => (2, 2) | (_, _) => (0, 1) end) _ (1, 1) (2, 2) (1, 1) [(2, 1); (3, 1); (0, 1)]).
    + tac_data.
    + tac_nei.
    + tac_corner.
    + intros v [<-|[<-|[<-|[]]]]; [exists 0, 1|exists 0, 2|exists 2, 1]; cbn; repeat split; lia.
    + tac_mark.
    + intros j i k q Lj E0. do 4 (destruct j as [|j]; [injection E0; intros; congruence|]). cbn in Lj; lia.
    + tac_end.
    + tac_end.
    + tac_once.
    + tac_hull.
    + tac_ghost.
  - apply (piece_of _ (fun h => match h with
        (0, 0) => (1, 0) | (0, 1) => (2, 0) | (0, _) => (3, 0) | (1, 0) => (0, 0) | (1, 1) => (3, 2) | (1, _) => (2, 1)
      | (2, 0) => (0, 1) | (2, 1) => (1, 2) | (2, _) => (3, 1) | (_, 0) => (0, 2) | (_, 1) => (2, 2) | (_, _) => (1, 1) end) _ (1, 1) (2, 2) (1, 1) [(2, 1); (3, 1)]).
    + tac_data.
    + tac_nei.
    + tac_corner.
    + intros v [<-|[<-|[<-|[]]]]; [exists 0, 1|exists 0, 2|exists 0, 0]; cbn; repeat split; lia.
    + tac_mark.
    + intros j i k q Lj E0 E1 E2 Ni Nk Nq. destruct j as [|j]; [injection E0; injection E1; injection E2; intros; subst; lia|].
      exfalso. do 3 (destruct j as [|j]; [injection E0; intros; congruence|]). cbn in Lj; lia.
    + tac_end.
    + tac_end.
    + tac_once.
    + tac_hull.
    + tac_ghost.
  - apply (piece_of _ (fun h => match h with
        (0, 0) => (1, 0) | (0, 1) => (2, 0) | (0, _) => (3, 0) | (1, 0) => (0, 0) | (1, 1) => (3, 2) | (1, _) => (2, 1)
      | (2, 0) => (0, 1) | (2, 1) => (1, 2) | (2, _) => (3, 1) | (_, 0) => (0, 2) | (_, 1) => (2, 2) | (_, _) => (1, 1) end) _ (1, 1) (1, 2) (1, 1) [(2, 1); (3, 1)]).
    + tac_data.
    + tac_nei.
    + tac_corner.
    + intros v [<-|[<-|[<-|[]]]]; [exists 0, 1|exists 0, 0|exists 0, 2]; cbn; repeat split; lia.
    + tac_mark.
    + intros j i k q Lj E0 E1 E2 Ni Nk Nq. destruct j as [|j]; [injection E0; injection E1; injection E2; intros; subst; rewrite An; lia|].
      exfalso. do 3 (destruct j as [|j]; [injection E0; intros; congruence|]). cbn in Lj; lia.
    + tac_end.
    + tac_end.
    + tac_once.
    + tac_hull.
    + tac_ghost.
Qed.
End Piece.

(** Two points, and three in any position, get a triangulation with its ghosts, and
    the two corners of the hull the caller works with. *)
Theorem C81_two INV ccw m a b : a <> INV -> b <> INV ->
  exists m' fl fr, two_points INV m a b = Some (m', fl, fr) /\ piece INV ccw m m' [a; b] fl fr /\ length m' = length m + 2.
Proof. apply two_piece. Qed.
Theorem C81_three INV ccw m P a b c : exact_signs P ccw -> a <> INV -> b <> INV -> c <> INV ->
  exists m' fl fr, three_points INV ccw m a b c = Some (m', fl, fr) /\ piece INV ccw m m' [a; b; c] fl fr /\ length m' = length m + 4.
Proof. apply three_piece. Qed.

(** The recursion of div_conq_recurse follows the cuts: with [merge] in the place of
    merge_hulls, whatever holds of the triangulations of two and three points and is
    kept by [merge] on two halves cut on the axis it is given, holds of the whole.
    Missing: that merge_hulls keeps the two sides at the ends (for the rest see C82), and
    that it ends. *)
Theorem C81_divide_partial INV ccw P merge (Good : list triangle -> list triangle -> list nat -> hedge -> hedge -> Prop) :
  exact_signs P ccw ->
  (forall m m' l fl fr, 2 <= length l <= 3 -> StronglySorted (fun i j => ~ before 0 (P j) (P i)) l -> piece INV ccw m m' l fl fr ->
     length m' = length m + (2 * length l - 2) -> Good m m' l fl fr) ->
  (forall m m1 m2 axis l r fl il ir fr, axis <= 1 -> (forall i j, In i l -> In j r -> ~ before axis (P j) (P i)) ->
     Good m m1 l fl il -> Good m1 m2 r ir fr -> exists m' fl' fr', merge m2 axis fl il ir fr = Some (m', fl', fr') /\ Good m m' (l ++ r) fl' fr') ->
  forall axis idx, axis <= 1 -> cut P axis idx -> ~ In INV idx -> forall m, exists m' fl fr,
    div_conq_recurse INV ccw merge m idx axis (length idx) = Some (m', fl, fr) /\ Good m m' idx fl fr.
Proof.
  intros Ex Hs Hm.
  assert (forall axis idx, cut P axis idx -> axis <= 1 -> ~ In INV idx -> forall fuel m, length idx <= fuel -> exists m' fl fr,
    div_conq_recurse INV ccw merge m idx axis fuel = Some (m', fl, fr) /\ Good m m' idx fl fr) as Q.
  2:{ intros; eapply Q; eauto. }
  intros axis idx C. induction C as [axis l L So|axis l r Ll Lr Sep Cl IHl Cr IHr]; intros Ax Ni fuel m Lf; (destruct fuel as [|k]; [rewrite ?app_length in Lf; lia|]).
  - destruct l as [|a [|b [|c [|d l]]]]; cbn [length] in *; try lia; cbn [div_conq_recurse].
    + destruct (C81_two INV ccw m a b) as (m' & fl & fr & E & Pc & N); [intros <-; apply Ni; cbn; auto..|]. rewrite E. do 3 eexists. split; [reflexivity|]. apply Hs; auto.
    + destruct (C81_three INV ccw m P a b c) as (m' & fl & fr & E & Pc & N); [auto|intros <-; apply Ni; cbn; auto..|]. rewrite E. do 3 eexists. split; [reflexivity|]. apply Hs; auto.
  - rewrite app_length in Lf. assert (D : length (l ++ r) / 2 = length l).
    { rewrite app_length. destruct Lr as [-> | ->]; [replace (length l + length l) with (length l * 2) by lia; apply Nat.div_mul; lia|].
      replace (length l + S (length l)) with (1 + length l * 2) by lia. rewrite Nat.div_add by lia. reflexivity. }
    assert (F : firstn (length l) (l ++ r) = l) by (rewrite firstn_app, Nat.sub_diag, firstn_all; apply app_nil_r).
    assert (G : skipn (length l) (l ++ r) = r) by (rewrite skipn_app, Nat.sub_diag, skipn_all; reflexivity).
    rewrite in_app_iff in Ni.
    destruct (IHl ltac:(lia) ltac:(tauto) k m ltac:(lia)) as (m1 & fl & il & E1 & G1).
    destruct (IHr ltac:(lia) ltac:(tauto) k m1 ltac:(lia)) as (m2 & ir & fr & E2 & G2).
    destruct (Hm _ _ _ axis _ _ _ _ _ _ Ax Sep G1 G2) as (m' & fl' & fr' & E3 & G3).
    exists m', fl', fr'. split; [|exact G3].
    cbn [div_conq_recurse]. destruct l as [|a [|b l]]; cbn [length] in Ll; try lia.
    destruct r as [|c [|d r]]; cbn [length] in Lr; try lia.
    destruct l as [|x [|y l]]; cbn [app] in *; rewrite D, F, E1, G, E2; exact E3.
Qed.
(** One point, or none, send it into a recursion without end. *)
Theorem C81_one_point_diverges INV ccw merge fuel : forall m x axis, div_conq_recurse INV ccw merge m [x] axis fuel = None /\ div_conq_recurse INV ccw merge m [] axis fuel = None.
Proof.
  induction fuel as [|k IH]; intros m x axis; [split; reflexivity|].
  split; cbn [div_conq_recurse length Nat.div Nat.divmod fst firstn]; now rewrite (proj2 (IH m x (1 - axis))).
Qed.

(** A recursion over five points: a [merge] that adds two triangles, as merge_hulls
    does, leaves 2 n - 2 of them. *)
Example C81_divide_case : exists P ccw merge idx m' fl fr, exact_signs P ccw /\ cut P 0 idx /\ length idx = 5 /\ ~ In 9 idx /\
  div_conq_recurse 9 ccw merge [] idx 0 (length idx) = Some (m', fl, fr) /\ length m' = 8.
Proof.
  destruct (C81_cuts placeR (fun l => l) (fun axis _ l => isort placeR axis l) 5) as (idx & A & B & C); auto using isort_selects; try lia.
  assert (L : length idx = 5) by (rewrite (Permutation_length B); reflexivity).
  assert (Ni : ~ In 9 idx) by (intros H; apply (Permutation_in _ B) in H; apply in_seq in H; lia).
  exists placeR, sign_at, (fun m _ fl _ _ fr => Some (m ++ [default_tri 9; default_tri 9], fl, fr)), idx.
  destruct (C81_divide_partial 9 sign_at placeR (fun m _ fl _ _ fr => Some (m ++ [default_tri 9; default_tri 9], fl, fr))
    (fun m m' l _ _ => 2 <= length l /\ length m' = length m + (2 * length l - 2))) with (axis := 0) (idx := idx) (m := @nil triangle) as (m' & fl & fr & E & _ & N); auto.
  - apply sign_at_exact.
  - intros; lia.
  - intros m m1 m2 axis l r fl il ir fr _ _ (L1 & N1) (L2 & N2). do 3 eexists. split; [reflexivity|]. rewrite !app_length. cbn [length]. lia.
  - exists m', fl, fr. rewrite L in N. repeat split; auto using sign_at_exact.
Qed.
Example C81_two_case : piece 9 sign_at [] [mk_tri [9; 0; 1; 9; 9; 9] [(1, 0); (1, 2); (1, 1)]; mk_tri [9; 1; 0; 9; 9; 9] [(0, 0); (0, 2); (0, 1)]] [0; 1] (1, 1) (1, 2).
Proof. destruct (C81_two 9 sign_at [] 0 1) as (m' & fl & fr & E & Pc & _); [lia|lia|]. vm_compute in E. injection E as <- <- <-. exact Pc. Qed.
(** Three points on a line, and turning left and right. *)
Example C81_three_case : sign_at 0 1 2 = 0%Z /\ sign_at 0 1 3 = 1%Z /\ sign_at 0 3 1 = (-1)%Z /\
  forall a b c, In (a, b, c) [(0, 1, 2); (0, 1, 3); (0, 3, 1)] -> exists m' fl fr, three_points 9 sign_at [] a b c = Some (m', fl, fr) /\ piece 9 sign_at [] m' [a; b; c] fl fr.
Proof.
  repeat (split; [vm_compute; reflexivity|]). intros a b c H.
  destruct (C81_three 9 sign_at [] placeR a b c) as (m' & fl & fr & E & Pc & _); [apply sign_at_exact| | | |eauto];
  (destruct H as [H|[H|[H|[]]]]; injection H; lia).
Qed.
Print Assumptions C81_cuts.
Print Assumptions C81_no_points_panics.
Print Assumptions C81_two.
Print Assumptions C81_three.
Print Assumptions C81_divide_partial.
Print Assumptions C81_one_point_diverges.
