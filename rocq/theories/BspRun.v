(** The run over the cells: the lists of triangles, termination, and the state at
    the end; the surface of the kept cells. *)
From Coq Require Import List Arith Bool Lia Permutation.
From Verif Require Import Lib Dispatch Tet Bsp BspSpec BspCut BspLoop BspGlue BspSplit BspCell.
Import ListNotations.

(** * The lists of triangles *)
Definition inners (cx : bsp) : list (list nat) := map inner (cdata cx).
Lemma map_upd {A B} (f : A -> B) l : forall i x, map f (upd l i x) = upd (map f l) i (f x).
Proof. induction l as [|a l IH]; intros [|i] x; cbn; auto. now rewrite IH. Qed.
Lemma upd_same {A} (l : list A) : forall i x, nth_error l i = Some x -> upd l i x = l.
Proof. induction l as [|a l IH]; intros [|i] x; cbn; try easy; [intros [= ->]; auto|]. intros H. now rewrite IH. Qed.
Lemma upd_upd {A} (l : list A) : forall i x y, upd (upd l i x) i y = upd l i y.
Proof. induction l as [|a l IH]; intros [|i] x y; cbn; auto. now rewrite IH. Qed.
Lemma upd_app {A} (l l' : list A) : forall i x, i < length l -> upd (l ++ l') i x = upd l i x ++ l'.
Proof. induction l as [|a l IH]; intros [|i] x; cbn; try lia; auto. intros H. rewrite IH; auto. lia. Qed.
Lemma upd_last {A} (l : list A) x y : upd (l ++ [x]) (length l) y = l ++ [y].
Proof. induction l as [|a l IH]; cbn; auto. now rewrite IH. Qed.

Lemma add_to_cell_inner cd c cid f cd' : add_to_cell cd c cid f = Some cd' -> map inner cd' = map inner cd.
Proof.
  unfold add_to_cell. destruct c as [x|]; [|congruence]. destruct (x =? cid); [congruence|].
  destruct (nth_error cd x) as [d|] eqn:E; [|easy]. intros H. apply set_Some in H as (_ & ->). rewrite map_upd. cbn. apply upd_same. rewrite nth_error_map, E. reflexivity.
Qed.
Lemma split_one_inner o tid cid nv s cross cx pos neg zh r cx' pos' neg' zh' :
  split_one o tid cid nv s cross (cx, pos, neg, zh) r = Some (cx', pos', neg', zh') -> inners cx' = inners cx.
Proof.
  unfold split_one. destruct r as (f, [za zb|l|b]); cbn [snd fst].
  - destruct (zero_id cross za); [|easy]. destruct (zero_id cross zb); [|easy]. destruct (nth_error (loops cx) f); [|easy].
    destruct (split_loop _ _ _) as [(l1, l2)|]; [|easy]. destruct (nth_error (fdata cx) f); [|easy].
    destruct (add_to_cell _ _ _ _) as [cd1|] eqn:E1; [|easy]. destruct (add_to_cell cd1 _ _ _) as [cd2|] eqn:E2; [|easy].
    destruct (set _ _ _); [|easy]. destruct (set _ _ _); [|easy]. intros [= <- _ _ _]. unfold inners. cbn.
    now rewrite (add_to_cell_inner _ _ _ _ _ E2), (add_to_cell_inner _ _ _ _ _ E1).
  - congruence.
  - congruence.
Qed.
Lemma split_all_inner o tid cid nv s cross rs : forall cx pos neg zh cx' pos' neg' zh',
  split_all o tid cid nv s cross (cx, pos, neg, zh) rs = Some (cx', pos', neg', zh') -> inners cx' = inners cx.
Proof.
  induction rs as [|r rs IH]; intros cx pos neg zh cx' pos' neg' zh'; cbn [split_all]; [congruence|].
  destruct (split_one _ _ _ _ _ _ _ _) as [(((cx1, p1), n1), z1)|] eqn:E; [|easy]. intros H. now rewrite (IH _ _ _ _ _ _ _ _ H), (split_one_inner _ _ _ _ _ _ _ _ _ _ _ _ _ _ _ E).
Qed.
Lemma set_inner_inner cd c l cd' : set_inner cd c l = Some cd' -> c < length cd /\ map inner cd' = upd (map inner cd) c l.
Proof. unfold set_inner. destruct (nth_error cd c) eqn:E; [|easy]. intros H. apply set_Some in H as (L & ->). split; auto. now rewrite map_upd. Qed.
Lemma add_separating_inner o cid tris tri cx pos neg zh cx' : add_separating o cid tris tri (cx, pos, neg, zh) = Some cx' ->
  exists l p q, nth_error (inners cx) cid = Some l /\ inners cx' = upd (inners cx) cid (filter p l) ++ [filter q l].
Proof.
  unfold add_separating. destruct zh as [|z zh]; [easy|]. destruct (move_faces _ _ _ _) as [fd|]; [|easy].
  destruct (nth_error (cdata cx) cid) as [d|] eqn:Ed; [|easy]. destruct (set (cdata cx) cid _) as [cd|] eqn:Es; [|easy]. apply set_Some in Es as (L & ->).
  destruct (set_inner _ (length (cdata cx)) _) as [cd1|] eqn:E1; [|easy]. destruct (set_inner cd1 _ _) as [cd2|] eqn:E2; [|easy].
  apply set_inner_inner in E1 as (_ & E1). apply set_inner_inner in E2 as (_ & E2). intros [= <-]. unfold inners. cbn [cdata].
  rewrite E2, E1. clear E1 E2. exists (inner d). rewrite nth_error_map, Ed. cbn [option_map].
  match goal with |- context [upd (upd _ _ (filter ?q _)) _ (filter ?p _)] => exists p, q end. split; auto.
  rewrite map_app, map_upd. cbn [map inner]. set (l := map inner (cdata cx)).
  assert (Ll : length l = length (cdata cx)) by (unfold l; apply map_length).
  replace (length (cdata cx)) with (length (upd l cid (inner d))) by (now rewrite upd_length). rewrite upd_last.
  rewrite upd_app by (rewrite upd_length; lia). now rewrite upd_upd.
Qed.
Ltac hd_case x := match goal with |- match ?e with _ => _ end = _ -> _ => destruct e as [x|]; [|easy] end.
(** What one split does to the triangles. *)
Lemma split_cell_inner o n tri cx cid cx' : split_cell o n tri cx cid = Some cx' ->
  exists d p, nth_error (cdata cx) cid = Some d /\ last_error (inner d) = Some p /\
    let rest := filter (fun t => negb (o_coplanar o cx p t)) (inner d) in
    inners cx' = upd (inners cx) cid rest \/ exists f g, inners cx' = upd (inners cx) cid (filter f rest) ++ [filter g rest].
Proof.
  unfold split_cell. destruct (nth_error (cdata cx) cid) as [d|] eqn:Ed; [|easy]. destruct (last_error (inner d)) as [p|] eqn:Ep; [|easy].
  intros H. exists d, p. split; [reflexivity|]. split; [exact Ep|]. set (rest := filter _ (inner d)). cbn zeta. fold rest in H. revert H.
  destruct (set (cdata cx) cid _) as [cd|] eqn:Es; [|easy]. apply set_Some in Es as (L & ->). cbn zeta.
  hd_case tid. hd_case ls. match goal with |- context [if ?b then None else _] => destruct b; [easy|] end. hd_case rs. hd_case ol. hd_case poly.
  match goal with |- match ?e with _ => _ end = _ -> _ => destruct e as [|t ts] end.
  - intros [= <-]. left. unfold inners. cbn. now rewrite map_upd.
  - destruct (split_all _ _ _ _ _ _ _ _) as [(((cx1, p1), n1), z1)|] eqn:E; [|easy]. intros H. right.
    apply split_all_inner in E. apply add_separating_inner in H as (l & f & g & E1 & E2). exists f, g. rewrite E2, E.
    unfold inners in *. cbn [cdata] in *. rewrite E in E1. cbn [cdata] in E1. rewrite map_upd in *. cbn [inner] in *.
    rewrite nth_error_upd_eq in E1 by (now rewrite map_length). injection E1 as <-. now rewrite upd_upd.
Qed.

(** * Termination *)
Definition todo (cx : bsp) (c : nat) : nat := list_sum (skipn c (map (fun l => weight (length l)) (inners cx))).
Lemma weight_mono a b : a <= b -> weight a <= weight b.
Proof. intros H. induction H; cbn [weight]; lia. Qed.
Lemma weight_pos a : 1 <= weight a. Proof. destruct a; cbn; lia. Qed.
Lemma skipn_nth {A} (l : list A) : forall i x, nth_error l i = Some x -> skipn i l = x :: skipn (S i) l.
Proof. induction l as [|a l IH]; intros [|i] x; cbn [nth_error skipn]; try easy; [congruence|]. intros H. rewrite (IH _ _ H). reflexivity. Qed.
Lemma skipn_upd {A} (l : list A) : forall i x y, nth_error l i = Some x -> skipn i (upd l i y) = y :: skipn (S i) l.
Proof. induction l as [|a l IH]; intros [|i] x y; cbn [nth_error skipn upd]; try easy. intros H. now rewrite (IH _ _ _ H). Qed.
Lemma filter_length_le {A} (p : A -> bool) l : length (filter p l) <= length l.
Proof. induction l as [|a l IH]; cbn; auto. destruct (p a); cbn; lia. Qed.
Lemma filter_shorter {A} (p : A -> bool) l x : In x l -> p x = false -> length (filter p l) < length l.
Proof.
  intros H E. induction l as [|a l IH]; [easy|]. cbn. destruct H as [->|H].
  - rewrite E. assert (Q := filter_length_le p l). lia.
  - specialize (IH H). destruct (p a); cbn; lia.
Qed.
Lemma last_error_in {A} (l : list A) x : last_error l = Some x -> In x l.
Proof. unfold last_error. intros H. apply in_rev. destruct (rev l); [easy|]. injection H as ->. now left. Qed.
Lemma last_error_last {A} (l : list A) x d : last_error l = Some x -> last l d = x.
Proof.
  unfold last_error. intros H. rewrite <- (rev_involutive l). destruct (rev l) as [|a t]; [easy|]. injection H as ->. cbn. apply last_last.
Qed.
Lemma last_error_some {A} (l : list A) : l <> [] -> exists x, last_error l = Some x.
Proof. unfold last_error. intros H. destruct (rev l) as [|a t] eqn:E; [|exists a; reflexivity]. apply (f_equal (@rev A)) in E. rewrite rev_involutive in E. now subst. Qed.
Lemma inners_nth cx c d : nth_error (cdata cx) c = Some d -> nth_error (inners cx) c = Some (inner d).
Proof. intros E. unfold inners. now rewrite nth_error_map, E. Qed.
Lemma todo_next cx c d : nth_error (cdata cx) c = Some d -> todo cx c = weight (length (inner d)) + todo cx (S c).
Proof. intros E. unfold todo. rewrite (skipn_nth _ _ (weight (length (inner d)))); [reflexivity|]. rewrite nth_error_map, (inners_nth _ _ _ E). reflexivity. Qed.
Lemma todo_split o n tri cx c cx' : (forall cx t, o_coplanar o cx t t = true) -> split_cell o n tri cx c = Some cx' ->
  todo cx' c < todo cx c /\ c < length (cdata cx').
Proof.
  intros R H. apply split_cell_inner in H as (d & p & Ed & Ep & H). cbn zeta in H. set (rest := filter _ (inner d)) in H.
  assert (LT : length rest < length (inner d)). { apply (filter_shorter _ _ p); [now apply last_error_in|]. now rewrite R. }
  assert (Lc : c < length (inners cx)) by (unfold inners; rewrite map_length; now apply nth_error_lt in Ed).
  rewrite (todo_next _ _ _ Ed). assert (W : S (2 * weight (length rest)) <= weight (length (inner d))) by (apply (weight_mono (S (length rest))); lia).
  assert (LL : length (cdata cx') = length (inners cx')) by (unfold inners; now rewrite map_length).
  unfold todo. destruct H as [H|(f & g & H)]; rewrite LL, H; [|rewrite app_length]; rewrite upd_length; split; try lia.
  - rewrite map_upd. rewrite (skipn_upd _ _ (weight (length (inner d)))); [cbn [list_sum fold_right]; fold (list_sum (skipn (S c) (map (fun l => weight (length l)) (inners cx)))); lia|].
    rewrite nth_error_map, (inners_nth _ _ _ Ed). reflexivity.
  - rewrite map_app, map_upd, skipn_app, upd_length, map_length. replace (c - length (inners cx)) with 0 by lia.
    rewrite (skipn_upd _ _ (weight (length (inner d)))); [|rewrite nth_error_map, (inners_nth _ _ _ Ed); reflexivity].
    rewrite list_sum_app. cbn [skipn map list_sum fold_right app]. fold (list_sum (skipn (S c) (map (fun l => weight (length l)) (inners cx)))).
    assert (W1 := weight_mono _ _ (filter_length_le f rest)). assert (W2 := weight_mono _ _ (filter_length_le g rest)).
    unfold list_sum in *. cbn [fold_right] in *. lia.
Qed.

Lemma run_ok o n tri cx0 : (forall cx t, o_coplanar o cx t t = true) -> forall fuel cx c, reached o n tri cx0 cx c -> todo cx c < fuel ->
  (forall i d, i < c -> nth_error (cdata cx) i = Some d -> inner d = []) ->
  (exists cx', split_run o n tri cx c fuel = Some cx' /\ reached o n tri cx0 cx' (length (cdata cx')) /\ forall d, In d (cdata cx') -> inner d = []) \/
  (exists cx1 c1 d, reached o n tri cx0 cx1 c1 /\ nth_error (cdata cx1) c1 = Some d /\ inner d <> [] /\ split_cell o n tri cx1 c1 = None).
Proof.
  intros R fuel. induction fuel as [|fuel IH]; intros cx c RE T DN; [lia|]. cbn [split_run].
  destruct (Nat.ltb_spec c (length (cdata cx))) as [L|L].
  - destruct (nth_error_ex _ _ L) as (d & Ed). unfold splittable. rewrite Ed. destruct (Nat.eqb_spec (length (inner d)) 0) as [Z|Z]; cbn [negb].
    + apply length_zero_iff_nil in Z. apply IH.
      * now apply (reached_next _ _ _ _ _ _ d).
      * rewrite (todo_next _ _ _ Ed) in T. assert (W := weight_pos (length (inner d))). lia.
      * intros i d' Hi E. destruct (Nat.eq_dec i c) as [->|]; [congruence|]. apply (DN i); auto. lia.
    + assert (NE : inner d <> []) by (intros Q; rewrite Q in Z; auto). destruct (split_cell o n tri cx c) as [cx'|] eqn:Es; [|right; eauto 8].
      apply IH.
      * now apply (reached_split _ _ _ _ cx c d).
      * apply (todo_split _ _ _ _ _ _ R) in Es. lia.
      * intros i d' Hi E. apply split_cell_inner in Es as (d1 & p & Ed1 & _ & H). assert (E1 := inners_nth _ _ _ E).
        assert (E2 : nth_error (inners cx') i = nth_error (inners cx) i).
        { destruct H as [->|(f & g & ->)]; [now apply nth_error_upd_neq; lia|]. rewrite nth_error_app1; [now apply nth_error_upd_neq; lia|].
          rewrite upd_length. unfold inners. rewrite map_length. lia. }
        rewrite E2 in E1. unfold inners in E1. rewrite nth_error_map in E1. destruct (nth_error (cdata cx) i) as [d2|] eqn:E3; [|easy]. cbn in E1. injection E1 as <-. now apply (DN i).
  - left. exists cx. split; auto.
    assert (ALL : forall d, In d (cdata cx) -> inner d = []).
    { intros d Hd. apply In_nth_error in Hd as (i & E). apply (DN i); auto. apply nth_error_lt in E. lia. }
    split; auto. assert (c = length (cdata cx)); [|now subst].
    assert (Q : c <= length (cdata cx)); [|lia]. clear -RE R. induction RE as [|cx c d RE IH E Z|cx c d cx' RE IH E NE Es].
    + lia.
    + now apply nth_error_lt in E.
    + apply (todo_split _ _ _ _ _ _ R) in Es. lia.
Qed.

Lemma split_reached o n tri cx0 : complex cx0 -> (forall cx t, o_coplanar o cx t t = true) -> regular o n tri cx0 ->
  forall cx c, reached o n tri cx0 cx c -> complex cx /\ forall d, nth_error (cdata cx) c = Some d -> inner d <> [] -> exists cx', split_cell o n tri cx c = Some cx' /\ complex cx'.
Proof.
  intros CX R REG.
  assert (ST : forall cx c, complex cx -> reached o n tri cx0 cx c -> forall d, nth_error (cdata cx) c = Some d -> inner d <> [] -> exists cx', split_cell o n tri cx c = Some cx' /\ complex cx').
  { intros cx c C RE d Ed NE. destruct (last_error_some _ NE) as (p & Ep). assert (Hp := last_error_in _ _ Ep).
    destruct (last_error_some (filter (o_coplanar o cx p) (inner d))) as (t & Et).
    { intros Q. assert (In p (filter (o_coplanar o cx p) (inner d))) by (apply filter_In; auto). now rewrite Q in H. }
    assert (CU := REG _ _ _ RE Ed NE). unfold chosen, without_coplanar in CU. rewrite (last_error_last _ _ 0 Ep), (last_error_last _ _ 0 Et) in CU.
    destruct (split_cell_ok o n tri cx c d p t C Ed Ep Et CU) as (cx' & E & C' & _). eauto. }
  intros cx c RE. assert (C : complex cx); [|split; auto; now apply ST].
  induction RE as [|cx c d RE IH E Z|cx c d cx' RE IH E NE Es]; auto.
  destruct (ST _ _ IH RE _ E NE) as (cx2 & E2 & C2). congruence.
Qed.

(** * The surface *)
Lemma times_concat {A} (g : A -> list (nat * nat)) l e : times (concat (map g l)) e = list_sum (map (fun x => times (g x) e) l).
Proof. induction l as [|a l IH]; [reflexivity|]. cbn [map concat list_sum fold_right]. rewrite times_app, IH. reflexivity. Qed.
Lemma sum_swap {A B} (g : A -> B -> nat) l l' : list_sum (map (fun a => list_sum (map (g a) l')) l) = list_sum (map (fun b => list_sum (map (fun a => g a b) l)) l').
Proof.
  induction l as [|a l IH]; cbn [map list_sum fold_right].
  - induction l'; cbn; auto.
  - fold (list_sum (map (fun a => list_sum (map (g a) l')) l)). rewrite IH. clear. induction l' as [|b l' IH]; [reflexivity|]. cbn [map list_sum fold_right]. unfold list_sum in *. lia.
Qed.
Lemma sum_ext {A} (f g : A -> nat) l : (forall x, In x l -> f x = g x) -> list_sum (map f l) = list_sum (map g l).
Proof. intros H. f_equal. now apply map_ext_in. Qed.
Lemma sum_filter {A} (p : A -> bool) (f : A -> nat) l : list_sum (map f (filter p l)) = list_sum (map (fun x => if p x then f x else 0) l).
Proof. induction l as [|a l IH]; [reflexivity|]. cbn [filter map list_sum fold_right]. destruct (p a); cbn [map list_sum fold_right]; unfold list_sum in *; lia. Qed.
Lemma sum_one (k x n : nat) : k < n -> list_sum (map (fun c => if c =? k then x else 0) (seq 0 n)) = x.
Proof.
  intros H. replace n with (k + S (n - k - 1)) by lia. rewrite seq_app, map_app, list_sum_app. cbn [seq map list_sum fold_right plus]. rewrite Nat.eqb_refl.
  assert (Z : forall l, (forall c, In c l -> c <> k) -> list_sum (map (fun c => if c =? k then x else 0) l) = 0).
  { induction l as [|a l IH]; intros Hl; [reflexivity|]. cbn. destruct (Nat.eqb_spec a k); [exfalso; apply (Hl a); [now left|auto]|]. apply IH. intros c Hc. apply Hl. now right. }
  assert (Z1 := Z (seq 0 k)). assert (Z2 := Z (seq (S k) (n - k - 1))). unfold list_sum in *. cbn in *.
  rewrite Z1, Z2; [lia| |]; intros c Hc; apply in_seq in Hc; lia.
Qed.
Lemma sum_add {A} (f g : A -> nat) l : list_sum (map (fun x => f x + g x) l) = list_sum (map f l) + list_sum (map g l).
Proof. unfold list_sum. induction l as [|a l IH]; cbn; lia. Qed.

Theorem surface_closed kept cx : complex cx -> balanced (surface kept cx).
Proof.
  intros CX u v. set (e := (u, v)). set (e' := (v, u)). set (N := length (cdata cx)). set (F := length (loops cx)).
  set (mem := fun f c => existsb (Nat.eqb f) (cell_faces cx c)).
  assert (MEM : forall f c, mem f c = true <-> In c (face_cells cx f)).
  { intros f c. rewrite <- (cx_inc _ CX). unfold mem. rewrite existsb_exists. split; [intros (y & Hy & E); apply Nat.eqb_eq in E; now subst|]. intros H. exists f. split; auto. apply Nat.eqb_refl. }
  assert (CB : forall c x, times (cell_boundary cx c) x = list_sum (map (fun f => if mem f c then times (face_edges cx c f) x else 0) (seq 0 F))).
  { intros c x. unfold cell_boundary. rewrite <- (sum_filter (fun f => mem f c)), <- times_concat. apply times_perm, perm_concat_map.
    apply NoDup_Permutation; [apply (cx_once _ CX)|apply NoDup_filter, seq_NoDup|]. intros f. rewrite filter_In, in_seq, MEM, <- (cx_inc _ CX). split; [|tauto].
    intros H. split; auto. split; [lia|]. apply (cx_inc _ CX), face_cells_in in H as (y & Ey & _). apply nth_error_lt in Ey. unfold F. rewrite (cx_len _ CX). lia. }
  set (T := fun f x => list_sum (map (fun c => if kept c then (if mem f c then times (face_edges cx c f) x else 0) else 0) (seq 0 N))).
  assert (TT : forall x, list_sum (map (fun f => T f x) (seq 0 F)) = list_sum (map (fun c => if kept c then times (cell_boundary cx c) x else 0) (seq 0 N))).
  { intros x. unfold T. rewrite <- (sum_swap (fun c f => if kept c then (if mem f c then times (face_edges cx c f) x else 0) else 0)).
    apply sum_ext. intros c _. destruct (kept c); [now rewrite CB|]. clear. induction (seq 0 F); auto. }
  assert (TB : list_sum (map (fun f => T f e) (seq 0 F)) = list_sum (map (fun f => T f e') (seq 0 F))).
  { rewrite !TT. apply sum_ext. intros c _. destruct (kept c); auto. apply (cx_closed _ CX). }
  unfold surface. fold F. rewrite !times_concat. fold e e'.
  set (S := fun f x => times match nth_error (fdata cx) f with Some y => match kept_face kept y with Some turn => outward (negb turn) (cycle_of cx f) | None => [] end | None => [] end x).
  change (list_sum (map (fun f => S f e) (seq 0 F)) = list_sum (map (fun f => S f e') (seq 0 F))).
  assert (FE : forall f, In f (seq 0 F) -> T f e + S f e' = T f e' + S f e).
  { intros f Hf. apply in_seq in Hf. destruct (nth_error_ex (fdata cx) f) as (y & Ey); [rewrite <- (cx_len _ CX); fold F; lia|].
    destruct (cx_cells _ CX f y Ey) as (a & Ea).
    assert (FC : face_cells cx f = a :: match snd (cells y) with Some b => [b] | None => [] end) by (unfold face_cells; rewrite Ey, Ea; reflexivity).
    assert (LT : forall c, In c (face_cells cx f) -> c < N).
    { intros c Hc. apply (cx_inc _ CX) in Hc. unfold cell_faces in Hc. destruct (nth_error (cdata cx) c) eqn:Ec; [|easy]. now apply nth_error_lt in Ec. }
    assert (FS : forall c, first_cell cx c f = (a =? c)) by (intros c; unfold first_cell; rewrite Ey; unfold cell_is; now rewrite Ea).
    set (l := cycle_of cx f) in *. assert (SW : times (map swap (hes l)) e = times (hes l) e' /\ times (map swap (hes l)) e' = times (hes l) e) by (split; apply times_swap).
    assert (TA : forall x, T f x = (if kept a then times (hes l) x else 0) + match snd (cells y) with Some b => if kept b then times (map swap (hes l)) x else 0 | None => 0 end).
    { intros x. unfold T. assert (ND := cx_two _ CX f). rewrite FC in ND.
      rewrite (sum_ext _ (fun c => (if c =? a then (if kept a then times (hes l) x else 0) else 0) +
        match snd (cells y) with Some b => if c =? b then (if kept b then times (map swap (hes l)) x else 0) else 0 | None => 0 end)).
      - rewrite sum_add, sum_one by (apply LT; rewrite FC; now left). f_equal. destruct (snd (cells y)) as [b|].
        + apply sum_one. apply LT. rewrite FC. right. now left.
        + clear. induction (seq 0 N); auto.
      - intros c _. unfold face_edges. rewrite FS. fold l. destruct (mem f c) eqn:Em.
        + apply MEM in Em. rewrite FC in Em. destruct (snd (cells y)) as [b|].
          * destruct Em as [<-|[<-|[]]].
            -- rewrite Nat.eqb_refl. destruct (Nat.eqb_spec a b) as [->|]; [inversion ND as [|? ? Q _]; exfalso; apply Q; now left|]. cbn [outward]. lia.
            -- rewrite Nat.eqb_refl, (Nat.eqb_sym b a). destruct (Nat.eqb_spec a b) as [->|]; [inversion ND as [|? ? Q _]; exfalso; apply Q; now left|]. cbn [outward]. lia.
          * destruct Em as [<-|[]]. rewrite Nat.eqb_refl. cbn [outward]. lia.
        + assert (NI : ~ In c (face_cells cx f)) by (rewrite <- MEM, Em; discriminate). rewrite FC in NI.
          destruct (Nat.eqb_spec c a) as [->|]; [exfalso; apply NI; now left|]. destruct (snd (cells y)) as [b|].
          * destruct (Nat.eqb_spec c b) as [->|]; [exfalso; apply NI; right; now left|]. now destruct (kept c).
          * now destruct (kept c). }
    rewrite !TA. unfold S. rewrite Ey. fold l. unfold kept_face, kept_cell. rewrite Ea. destruct SW as (SW1 & SW2).
    destruct (snd (cells y)) as [b|]; [destruct (kept a), (kept b)|destruct (kept a)]; cbn [xorb negb outward]; rewrite ?SW1, ?SW2; cbn [times count_occ]; try lia; unfold times; cbn; lia. }
  assert (Q : list_sum (map (fun f => T f e + S f e') (seq 0 F)) = list_sum (map (fun f => T f e' + S f e) (seq 0 F))) by (apply sum_ext; exact FE).
  rewrite !sum_add in Q. lia.
Qed.
