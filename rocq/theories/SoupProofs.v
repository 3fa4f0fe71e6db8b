(** Facts about the model of Soup.v. *)
From Coq Require Import List Arith Bool Lia Permutation Sorted.
From Verif Require Import Lib F64 Soup.
Import ListNotations.

(** * unique_indices *)
Fixpoint asm_from (i : nat) (ks : list nat) : list (nat * nat) :=
  match ks with [] => [] | k :: t => asm_from (S i) t ++ [(k, i)] end.
Definition asm := asm_from 0.
Lemma asm_from_app ks x : forall i, asm_from i (ks ++ [x]) = (x, i + length ks) :: asm_from i ks.
Proof.
  induction ks as [|k t IH]; intros i; cbn [app asm_from length].
  - now rewrite Nat.add_0_r.
  - rewrite IH. cbn [app]. f_equal. f_equal. lia.
Qed.
Lemma asm_app ks x : asm (ks ++ [x]) = (x, length ks) :: asm ks.
Proof. apply asm_from_app. Qed.
Lemma asm_from_in ks : forall i a b, In (a, b) (asm_from i ks) <-> exists j, b = i + j /\ nth_error ks j = Some a.
Proof.
  induction ks as [|k t IH]; intros i a b; cbn [asm_from].
  - split; [intros []|intros (j & _ & H); destruct j; discriminate].
  - rewrite in_app_iff, IH. cbn [In]. split.
    + intros [(j & -> & H)|[H|[]]]; [exists (S j); split; [lia|auto]|]. inversion H; subst. exists 0. split; [lia|auto].
    + intros (j & -> & H). destruct j as [|j]; [right; left; cbn in H; inversion H; subst; f_equal; lia|].
      left. exists j. split; [lia|auto].
Qed.
Lemma asm_in ks a b : In (a, b) (asm ks) <-> nth_error ks b = Some a.
Proof. unfold asm. rewrite asm_from_in. cbn. split; [intros (j & -> & H); auto|eauto]. Qed.
Lemma asm_from_length ks : forall i, length (asm_from i ks) = length ks.
Proof. induction ks; intros; cbn; auto. rewrite app_length, IHks. cbn. lia. Qed.
Lemma asm_from_nodup ks : forall i, NoDup (map snd (asm_from i ks)) /\ forall j, In j (map snd (asm_from i ks)) -> i <= j.
Proof.
  induction ks as [|k t IH]; intros i; cbn [asm_from].
  - split; [constructor|intros j []].
  - destruct (IH (S i)) as (N & B). rewrite map_app. cbn [map snd]. split.
    + eapply Permutation_NoDup; [apply Permutation_cons_append|]. constructor; auto.
      intros H. apply B in H. lia.
    + intros j Hj. apply in_app_or in Hj. destruct Hj as [Hj|[<-|[]]]; [apply B in Hj|]; lia.
Qed.

Lemma find_asm ks : NoDup ks -> forall k i, find (asm ks) k = Some i <-> nth_error ks i = Some k.
Proof.
  induction ks as [|x ks IH] using rev_ind; intros ND k i.
  - cbn. split; [discriminate|destruct i; discriminate].
  - assert (ND' : NoDup ks /\ ~ In x ks).
    { apply NoDup_remove in ND. rewrite app_nil_r in ND. auto. }
    destruct ND' as (ND' & Nx). rewrite asm_app. cbn [find].
    destruct (Nat.eqb_spec x k) as [->|N].
    + split.
      * intros H. inversion H; subst. rewrite nth_error_app2, Nat.sub_diag; auto.
      * intros H. destruct (Nat.lt_ge_cases i (length ks)) as [L|L].
        { rewrite nth_error_app1 in H by auto. apply nth_error_In in H. tauto. }
        rewrite nth_error_app2 in H by auto. destruct (i - length ks) as [|j] eqn:E; [f_equal; lia|destruct j; discriminate].
    + rewrite IH by auto. split.
      * intros H. rewrite nth_error_app1; auto. apply nth_error_Some. congruence.
      * intros H. destruct (Nat.lt_ge_cases i (length ks)) as [L|L].
        { now rewrite nth_error_app1 in H by auto. }
        rewrite nth_error_app2 in H by auto. destruct (i - length ks) as [|j] eqn:E; [cbn in H; congruence|destruct j; discriminate].
Qed.
Lemma find_none ks : NoDup ks -> forall k, find (asm ks) k = None <-> ~ In k ks.
Proof.
  intros ND k. split.
  - intros H I. apply In_nth_error in I. destruct I as (i & I). apply find_asm in I; auto. congruence.
  - intros H. destruct (find (asm ks) k) eqn:E; auto. apply find_asm in E; auto. apply nth_error_In in E. tauto.
Qed.

Lemma renumber_all_ok l : forall ks, NoDup ks ->
  exists r extra, renumber_all l (asm ks) (length ks) = (r, asm (ks ++ extra)) /\ NoDup (ks ++ extra) /\
    (forall x, In x (ks ++ extra) <-> In x ks \/ In x l) /\ length r = length l /\
    (forall k i, nth_error r k = Some i -> nth_error (ks ++ extra) i = nth_error l k).
Proof.
  induction l as [|old t IH]; intros ks ND; cbn [renumber_all].
  - exists [], []. rewrite app_nil_r. repeat split; auto; try tauto. 
    + intros [H|[]]; auto.
    + intros k i H; destruct k; discriminate.
  - destruct (find (asm ks) old) as [now|] eqn:F.
    + destruct (IH ks ND) as (r & ex & E & ND' & I & Lr & Hr). rewrite E. exists (now :: r), ex.
      apply find_asm in F; auto.
      split; auto. split; auto. split; [|split; [cbn; lia|]].
      * intros x. rewrite I. cbn [In]. split; [tauto|]. intros [H|[<-|H]]; auto. left. eapply nth_error_In; eauto.
      * intros [|k] i H; cbn in H |- *; [inversion H; subst|apply Hr; auto].
        rewrite nth_error_app1; auto. apply nth_error_Some. congruence.
    + apply find_none in F; auto.
      assert (ND2 : NoDup (ks ++ [old])).
      { eapply Permutation_NoDup; [apply Permutation_cons_append|]. constructor; auto. }
      destruct (IH (ks ++ [old]) ND2) as (r & ex & E & ND' & I & Lr & Hr).
      rewrite asm_app, app_length, Nat.add_1_r in E. rewrite E. exists (length ks :: r), (old :: ex).
      replace (ks ++ old :: ex) with ((ks ++ [old]) ++ ex) by now rewrite <- app_assoc.
      split; auto. split; auto. split; [|split; [cbn; lia|]].
      * intros x. rewrite I, in_app_iff. cbn [In]. tauto.
      * intros [|k] i H; cbn in H |- *; [inversion H; subst|apply Hr; auto].
        rewrite nth_error_app1 by (rewrite app_length; cbn; lia).
        rewrite nth_error_app2, Nat.sub_diag; auto.
Qed.

Lemma write_back_ok l : forall v, NoDup (map snd l) -> (forall k i, In (k, i) l -> i < length v) ->
  exists w, write_back l v = Some w /\ length w = length v /\
    (forall k i, In (k, i) l -> nth_error w i = Some k) /\
    (forall i, ~ In i (map snd l) -> nth_error w i = nth_error v i).
Proof.
  induction l as [|(k, i) t IH]; intros v ND B; cbn [write_back].
  - exists v. repeat split; auto. intros k i [].
  - cbn [map snd] in ND. apply NoDup_cons_iff in ND. destruct ND as (Ni & ND).
    assert (Hi : i < length v) by (apply (B k); now left).
    unfold set. rewrite (proj2 (Nat.ltb_lt _ _) Hi).
    destruct (IH (upd v i k)) as (w & E & L & H1 & H2); auto.
    + intros k' i' H. rewrite upd_length. apply (B k'). now right.
    + exists w. split; auto. rewrite upd_length in L. split; auto. split.
      * intros k' i' [H|H]; auto. inversion H; subst. rewrite H2 by auto. now apply nth_error_upd_eq.
      * intros j Hj. cbn [map snd In] in Hj. rewrite H2 by tauto. apply nth_error_upd_neq. intros ->. tauto.
Qed.

Lemma nth_error_ext_len {A} (l l' : list A) : length l = length l' -> (forall i x, nth_error l i = Some x -> nth_error l' i = Some x) -> l = l'.
Proof.
  revert l'; induction l as [|a l IH]; intros [|b l'] L H; cbn in L; try lia; auto.
  pose proof (H 0 a eq_refl) as H0. cbn in H0. inversion H0; subst. f_equal. apply IH; [lia|]. intros i x Hi. apply (H (S i)); auto.
Qed.

Lemma unique_indices_ok iter l : (forall m, Permutation (iter m) m) ->
  exists new ori, unique_indices iter l = Some (new, ori) /\ NoDup ori /\
    (forall x, In x ori <-> In x l) /\ length new = length l /\
    (forall k i, nth_error new k = Some i -> nth_error ori i = nth_error l k).
Proof.
  intros P. unfold unique_indices.
  destruct (renumber_all_ok l [] (NoDup_nil _)) as (r & ex & E & ND & I & Lr & Hr).
  cbn [app length] in *. change (asm []) with (@nil (nat * nat)) in E. rewrite E.
  destruct (write_back_ok (iter (asm ex)) (repeat 0 (length (asm ex)))) as (w & W & Lw & H1 & _).
  - eapply Permutation_NoDup; [apply Permutation_map, Permutation_sym, P|]. apply asm_from_nodup.
  - intros k i H. eapply Permutation_in in H; [|apply P]. apply asm_in in H. rewrite repeat_length.
    unfold asm. rewrite asm_from_length. apply nth_error_Some. congruence.
  - rewrite W. exists r, w. assert (Ew : ex = w).
    { apply nth_error_ext_len; [rewrite Lw, repeat_length; unfold asm; now rewrite asm_from_length|].
      intros i x H. apply H1. eapply Permutation_in; [apply Permutation_sym, P|]. now apply asm_in. }
    subst w. split; auto. split; auto. split; [|auto]. intros x. rewrite I. cbn. tauto.
Qed.

Lemma omap_some {A B} (f : A -> option B) l r : omap f l = Some r <->
  length r = length l /\ forall i x y, nth_error l i = Some x -> nth_error r i = Some y -> f x = Some y.
Proof.
  revert r; induction l as [|a l IH]; intros r; cbn [omap].
  - split.
    + intros H; inversion H; subst. split; auto. intros [|i]; discriminate.
    + intros (L & _). destruct r; cbn in L; [auto|lia].
  - split.
    + destruct (f a) as [y|] eqn:Fa; [|discriminate]. destruct (omap f l) as [r'|] eqn:O; [|discriminate].
      intros H; inversion H; subst. destruct (proj1 (IH r') eq_refl) as (L & H'). cbn. split; [lia|].
      intros [|i] x z Hx Hz; cbn in Hx, Hz; [congruence|eauto].
    + intros (L & H). destruct r as [|y r]; cbn in L; [lia|].
      rewrite (H 0 a y eq_refl eq_refl). rewrite (proj2 (IH r)); auto. split; [lia|]. intros i x z Hx Hz. apply (H (S i) x z); auto.
Qed.

(** * triangulate_polygon_soup *)
(** The entries 3k, 3k+1, 3k+2. *)
Definition triple (l : list nat) (k : nat) : list nat := firstn 3 (skipn (3 * k) l).

Fixpoint parents_from (i : nat) (fs : list (list nat)) : list nat :=
  match fs with [] => [] | f :: t => repeat i (length f / 3) ++ parents_from (S i) t end.

Lemma soup_loop_ok one c : forall edges idx T P r, soup_loop one c edges idx T P = Some r ->
  exists fs, length fs = min (length edges) (c - idx) /\
    (forall i f, nth_error fs i = Some f -> exists s, nth_error edges i = Some s /\ one s (idx + i) = Some f) /\
    r = (T ++ concat fs, P ++ parents_from idx fs).
Proof.
  induction edges as [|s t IH]; intros idx T P r H; cbn [soup_loop] in H.
  - inversion H; subst. exists []. cbn. rewrite !app_nil_r. repeat split; auto. intros [|i]; discriminate.
  - destruct (Nat.ltb_spec idx c) as [L|L].
    + destruct (one s idx) as [f|] eqn:O; [|discriminate]. apply IH in H. destruct H as (fs & Lf & Hf & ->).
      exists (f :: fs). cbn [length concat parents_from]. split; [|split].
      * rewrite Lf. destruct (c - idx) eqn:E; [lia|]. cbn. f_equal. f_equal. lia.
      * intros [|i] g Hg; cbn in Hg.
        { inversion Hg; subst. exists s. rewrite Nat.add_0_r. auto. }
        destruct (Hf i g Hg) as (s' & H1 & H2). exists s'. split; auto. now rewrite Nat.add_succ_r.
      * now rewrite <- !app_assoc.
    + inversion H; subst. exists []. cbn. rewrite !app_nil_r. split; [|split; auto].
      * replace (c - idx) with 0 by lia. reflexivity.
      * intros [|i]; discriminate.
Qed.

Lemma skipn_more {A} (l1 l2 : list A) n : skipn (length l1 + n) (l1 ++ l2) = skipn n l2.
Proof. rewrite skipn_app, skipn_all2 by lia. cbn. f_equal. lia. Qed.
Lemma triple_app1 l1 l2 k : 3 * k + 3 <= length l1 -> triple (l1 ++ l2) k = triple l1 k.
Proof.
  intros H. unfold triple. rewrite skipn_app, firstn_app, skipn_length.
  replace (3 - (length l1 - 3 * k)) with 0 by lia. cbn. now rewrite app_nil_r.
Qed.
Lemma triple_app2 l1 l2 m k : length l1 = 3 * m -> triple (l1 ++ l2) (m + k) = triple l2 k.
Proof. intros H. unfold triple. replace (3 * (m + k)) with (length l1 + 3 * k) by lia. now rewrite skipn_more. Qed.

Definition full (f : list nat) := length f = 3 * (length f / 3).
Lemma concat_full fs : Forall full fs -> full (concat fs) /\ forall i, length (parents_from i fs) = length (concat fs) / 3.
Proof.
  induction fs as [|f fs IH]; intros H; cbn [concat parents_from]; [split; [reflexivity|intros; reflexivity]|].
  inversion H as [|? ? Hf Hs]; subst. destruct (IH Hs) as (F & L). unfold full in *. rewrite app_length.
  replace ((length f + length (concat fs)) / 3) with (length f / 3 + length (concat fs) / 3).
  - split; [lia|]. intros i. rewrite app_length, repeat_length, L. auto.
  - rewrite Hf, F at 2. replace (3 * (length f / 3) + 3 * (length (concat fs) / 3)) with ((length f / 3 + length (concat fs) / 3) * 3) by lia.
    now rewrite Nat.div_mul by lia.
Qed.

Lemma parents_at fs : Forall full fs -> forall i k p, nth_error (parents_from i fs) k = Some p <->
  exists q f j, p = i + q /\ nth_error fs q = Some f /\ j < length f / 3 /\ k = length (concat (firstn q fs)) / 3 + j.
Proof.
  induction fs as [|f fs IH]; intros H i k p; cbn [parents_from].
  - split; [destruct k; discriminate|]. intros (q & f & j & _ & Hq & _). destruct q; discriminate.
  - inversion H as [|? ? Hf Hs]; subst.
    assert (Cf : forall q, Forall full (firstn q fs)).
    { intros q. apply Forall_forall. intros x Hx. rewrite Forall_forall in Hs. apply Hs. rewrite <- (firstn_skipn q fs); apply in_or_app; auto. }
    destruct (Nat.lt_ge_cases k (length f / 3)) as [L|L].
    + rewrite nth_error_app1 by (rewrite repeat_length; auto). rewrite nth_error_repeat by auto. split.
      * intros E. inversion E; subst. exists 0, f, k. cbn. repeat split; auto; lia.
      * intros (q & g & j & -> & Hq & Hj & E). destruct q as [|q]; [f_equal; lia|]. exfalso. cbn [firstn concat] in E.
        destruct (concat_full (f :: firstn q fs)) as (F & _); [constructor; auto|]. cbn [concat] in F.
        unfold full in F, Hf. rewrite app_length in *. lia.
    + rewrite nth_error_app2, repeat_length by (rewrite repeat_length; auto). rewrite IH by auto.
      assert (A : forall q, length (concat (firstn (S q) (f :: fs))) / 3 = length f / 3 + length (concat (firstn q fs)) / 3).
      { intros q. cbn [firstn concat]. destruct (concat_full (firstn q fs) (Cf q)) as (F & _).
        destruct (concat_full (f :: firstn q fs)) as (F' & _); [constructor; auto|]. cbn [concat] in F'.
        unfold full in *. rewrite app_length in *. lia. }
      split.
      * intros (q & g & j & -> & Hq & Hj & E). exists (S q), g, j. rewrite A. repeat split; auto; lia.
      * intros (q & g & j & -> & Hq & Hj & E). destruct q as [|q].
        { cbn in E, Hq. inversion Hq; subst. lia. }
        rewrite A in E. exists q, g, j. repeat split; auto; lia.
Qed.

Lemma triple_concat fs : Forall full fs -> forall q f j, nth_error fs q = Some f -> j < length f / 3 ->
  triple (concat fs) (length (concat (firstn q fs)) / 3 + j) = triple f j.
Proof.
  induction fs as [|g fs IH]; intros H q f j Hq Hj; [destruct q; discriminate|].
  inversion H as [|? ? Hg Hs]; subst. destruct q as [|q].
  - cbn in Hq. inversion Hq; subst. cbn [firstn concat length]. change (0 / 3 + j) with j. apply triple_app1. unfold full in Hg. lia.
  - cbn in Hq. cbn [firstn concat].
    assert (Cf : Forall full (firstn q fs)).
    { apply Forall_forall. intros x Hx. rewrite Forall_forall in Hs. apply Hs. rewrite <- (firstn_skipn q fs); apply in_or_app; auto. }
    destruct (concat_full _ Cf) as (F & _). destruct (concat_full (g :: firstn q fs)) as (F' & _); [constructor; auto|]. cbn [concat] in F'.
    unfold full in *. rewrite app_length in *.
    replace ((length g + length (concat (firstn q fs))) / 3 + j) with (length g / 3 + (length (concat (firstn q fs)) / 3 + j)) by lia.
    rewrite triple_app2 by auto. auto.
Qed.
Lemma parents_sorted fs : forall i, Sorted le (parents_from i fs) /\ forall x, In x (parents_from i fs) -> i <= x.
Proof.
  induction fs as [|f fs IH]; intros i; cbn [parents_from]; [split; [constructor|intros x []]|].
  destruct (IH (S i)) as (S1 & B).
  assert (Bd : forall x, In x (repeat i (length f / 3) ++ parents_from (S i) fs) -> i <= x).
  { intros x Hx. apply in_app_or in Hx. destruct Hx as [Hx|Hx]; [apply repeat_spec in Hx; lia|apply B in Hx; lia]. }
  split; auto. clear -S1 B. induction (length f / 3) as [|n IHn]; cbn; auto. constructor; auto.
  destruct n as [|n]; cbn; [|constructor; lia]. destruct (parents_from (S i) fs) as [|y t]; constructor. specialize (B y (or_introl eq_refl)). lia.
Qed.

(** * insert_coplanar_triangles *)
Definition ssorted := StronglySorted lt.
Lemma binary_search_spec l x : ssorted l -> forall b p, binary_search l x = (b, p) ->
  (b = true -> In x l) /\ (b = false -> ~ In x l /\ ssorted (insert_at l p x) /\ forall y, In y (insert_at l p x) <-> y = x \/ In y l).
Proof.
  induction l as [|y t IH]; intros Ss b p E; cbn [binary_search] in E.
  - inversion E; subst. split; [discriminate|]. intros _. cbn. split; [tauto|]. split; [repeat constructor|]. intros z. intuition.
  - inversion Ss as [|? ? St Ht]; subst. rewrite Forall_forall in Ht.
    destruct (Nat.eqb_spec y x) as [->|N].
    { inversion E; subst. split; [intros _; now left|discriminate]. }
    destruct (Nat.ltb_spec y x) as [L|L].
    + destruct (binary_search t x) as (b' & p') eqn:Eb. inversion E; subst. destruct (IH St b p' eq_refl) as (H1 & H2). split.
      * intros Hb. right. auto.
      * intros Hb. destruct (H2 Hb) as (Nx & Sx & Ix). cbn [insert_at]. split; [cbn; intuition|]. split.
        { constructor; auto. apply Forall_forall. intros z Hz. apply Ix in Hz. destruct Hz as [->|Hz]; auto. }
        intros z. cbn [In]. rewrite Ix. tauto.
    + inversion E; subst. split; [discriminate|]. intros _. cbn [insert_at]. split.
      * intros [->|H]; [congruence|]. apply Ht in H. lia.
      * split; [|intros z; cbn [In]; intuition]. constructor; auto. constructor; [lia|]. apply Forall_forall. intros z Hz. apply Ht in Hz. lia.
Qed.
Lemma insert_coplanar_ok n : forall src dest, ssorted dest ->
  ssorted (insert_coplanar_triangles src dest n) /\
  forall x, In x (insert_coplanar_triangles src dest n) <-> In x dest \/ (In x src /\ x < n).
Proof.
  induction src as [|i t IH]; intros dest Sd; cbn [insert_coplanar_triangles].
  - split; auto. intros x. cbn. tauto.
  - destruct (Nat.ltb_spec i n) as [L|L].
    + destruct (binary_search dest i) as (b & p) eqn:E. destruct (binary_search_spec dest i Sd b p E) as (H1 & H2). destruct b.
      * destruct (IH dest Sd) as (A & B). split; auto. intros x. rewrite B. cbn [In]. specialize (H1 eq_refl).
        split; [tauto|]. intros [H|[[<-|H] Hn]]; auto.
      * destruct (H2 eq_refl) as (_ & Si & Ii). destruct (IH _ Si) as (A & B). split; auto. intros x. rewrite B, Ii. cbn [In].
        split; [intros [[->|H]|H]; tauto|]. intros [H|[[<-|H] Hn]]; auto.
    + destruct (IH dest Sd) as (A & B). split; auto. intros x. rewrite B. cbn [In]. split; [tauto|].
      intros [H|[[<-|H] Hn]]; auto. lia.
Qed.

(** * keep_triangles *)
Lemma keep_acc mis points pmap shells : forall n tris idx rt rs, length tris <= n ->
  match keep_triangles mis points pmap shells tris idx [] [] with
  | Some (a, b) => keep_triangles mis points pmap shells tris idx rt rs = Some (rt ++ a, rs ++ b)
  | None => keep_triangles mis points pmap shells tris idx rt rs = None
  end.
Proof.
  induction n as [|n IH]; intros tris idx rt rs L.
  - destruct tris; cbn in L; [|lia]. cbn. now rewrite !app_nil_r.
  - destruct tris as [|t0 [|t1 [|t2 rest]]]; cbn [keep_triangles]; try (now rewrite ?app_nil_r); cbn in L.
    destruct (nth_error pmap t0) as [a|]; auto. destruct (nth_error pmap t1) as [b|]; auto. destruct (nth_error pmap t2) as [c|]; auto.
    destruct ((a =? b) || (b =? c) || (c =? a)); [apply IH; lia|].
    destruct (point3 points a) as [pa|]; auto. destruct (point3 points b) as [pb|]; auto. destruct (point3 points c) as [pc|]; auto.
    destruct (negb (mis pa pb pc)); [apply IH; lia|]. destruct (nth_error shells idx) as [s|]; auto.
    pose proof (IH rest (S idx) (rt ++ [a; b; c]) (rs ++ [s]) ltac:(lia)) as H1.
    pose proof (IH rest (S idx) ([] ++ [a; b; c]) ([] ++ [s]) ltac:(lia)) as H2.
    destruct (keep_triangles mis points pmap shells rest (S idx) [] []) as [[u v]|].
    + rewrite H1, H2. rewrite <- !app_assoc. auto.
    + rewrite H1, H2. auto.
Qed.
