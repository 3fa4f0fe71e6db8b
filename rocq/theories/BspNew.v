(** BSPComplex::new on a glued tetrahedral mesh: the complex it makes is right. *)
From Coq Require Import List Arith Bool Lia Permutation NArith.
From Verif Require Import Lib Dispatch Tet TetSpec Bsp BspSpec BspCut BspLoop BspGlue BspSplit BspCell.
Import ListNotations.

(** * The faces of a tetrahedron *)
Definition places (i : nat) : list nat := match i with 0 => [3; 2; 1] | 1 => [3; 0; 2] | 2 => [1; 0; 3] | _ => [1; 2; 0] end.
Definition own (x : tetra) (i : nat) : list nat := map (fun p => nth p (data x) 0) (places i).


Lemma fsym_tbl i w : i < 4 -> forall v, look2 FSYM_TBL i w = Some v -> w < 12 /\ v = w.
Proof.
  intros Hi v. destruct i as [|[|[|[|i]]]]; [..|lia]; clear Hi; (do 12 (destruct w as [|w]; [intros H; vm_compute in H; injection H as <-; split; [lia|reflexivity]|])); intros H; vm_compute in H; destruct w; discriminate H.
Qed.
Lemma fsym_tbl' w g v : look2 FSYM_TBL w g = Some v -> v < 4 -> g < 12 /\ Nat.land g 3 = v.
Proof.
  do 12 (destruct w as [|w]; [do 12 (destruct g as [|g]; [intros H L; vm_compute in H; injection H as <-; solve [split; [lia|reflexivity]|exfalso; lia]|]); intros H; vm_compute in H; destruct g; discriminate H|]).
  intros H. vm_compute in H. destruct w; discriminate H.
Qed.
Lemma four {A} (l : list A) : length l = 4 -> exists a b c d, l = [a; b; c; d].
Proof. destruct l as [|a [|b [|c [|d [|? ?]]]]]; cbn; try lia. intros _. eauto. Qed.
Lemma land3 w : Nat.land w 3 < 4.
Proof. change 3 with (Nat.ones 2). rewrite Nat.land_ones. apply Nat.mod_upper_bound. cbn. lia. Qed.

(** [w] names the face of [x] on [a], [b], [c]. *)
Lemma corners_own m t x w : nth_error (tets m) t = Some x -> length (data x) = 4 -> w < 12 ->
  exists a b c d, corners m (TF (Some t) w) a b c d /\ turned (own x (Nat.land w 3)) [a; b; c] /\ (w < 4 -> own x w = [a; b; c]).
Proof.
  intros E L W. destruct (four _ L) as (p0 & p1 & p2 & p3 & D). unfold corners, org, dest, apex, oppo, pivot, tet_at, own. cbn [tet ver]. rewrite E, D.
  do 12 (destruct w as [|w]; [do 4 eexists; split; [repeat split; reflexivity|]; split; [|intros Q; try reflexivity; exfalso; lia]; cbn;
    first [exists [], [p3; p2; p1]; now split|exists [p3], [p2; p1]; now split|exists [p3; p2], [p1]; now split
      |exists [], [p3; p0; p2]; now split|exists [p3], [p0; p2]; now split|exists [p3; p0], [p2]; now split
      |exists [], [p1; p0; p3]; now split|exists [p1], [p0; p3]; now split|exists [p1; p0], [p3]; now split
      |exists [], [p1; p2; p0]; now split|exists [p1], [p2; p0]; now split|exists [p1; p2], [p0]; now split]|]). lia.
Qed.
Lemma turned3 {A} (a b c x y z : A) : turned [a; b; c] [x; y; z] -> [a; b; c] = [x; y; z] \/ [b; c; a] = [x; y; z] \/ [c; a; b] = [x; y; z].
Proof. intros (p & q & E & F). destruct p as [|p0 [|p1 [|p2 p]]]; cbn in E; [subst q; rewrite app_nil_r in F; auto| | |]; injection E as; subst; rewrite ?F; cbn in *; auto. destruct p; [|discriminate]. cbn in *. subst q. auto. Qed.

Lemma own_turn x i j : NoDup (data x) -> length (data x) = 4 -> i < 4 -> j < 4 -> turned (own x j) (rev (own x i)) -> False.
Proof.
  intros ND L Hi Hj. destruct (four _ L) as (p0 & p1 & p2 & p3 & D). unfold own. rewrite D in *. rewrite !NoDup_cons_iff in ND. cbn in ND.
  destruct i as [|[|[|[|i]]]]; [..|lia]; (destruct j as [|[|[|[|j]]]]; [..|lia]); cbn; intros T; apply turned3 in T; intuition congruence.
Qed.

Section Glue.
  Variable m : tetmesh.
  Hypothesis LK : linked m.
  Hypothesis CS : consistent m.
  Hypothesis GH : forall t x i p, nth_error (tets m) t = Some x -> nth_error (data x) i = Some p -> p <= n_points m /\ (p = n_points m -> i = 3).

  Lemma glue t x i : nth_error (tets m) t = Some x -> i < 4 ->
    exists u w y, nth_error (nei x) i = Some (TF (Some u) w) /\ nth_error (tets m) u = Some y /\ u <> t /\
      (exists w', nth_error (nei y) (Nat.land w 3) = Some (TF (Some t) w') /\ Nat.land w' 3 = i) /\
      turned (own y (Nat.land w 3)) (rev (own x i)) /\
      (exists a b c, org m (TF (Some u) w) = Some a /\ apex m (TF (Some u) w) = Some b /\ dest m (TF (Some u) w) = Some c /\ turned (own x i) [a; b; c]).
  Proof.
    intros E Hi. destruct (LK t x E) as (L4 & N4 & ND & _). assert (Hi' : i < 12) by lia.
    destruct (corners_own m t x i E L4 Hi') as (a & b & c & d & C & _ & EO). specialize (EO Hi).
    assert (Lt := nth_error_lt _ _ _ E). destruct (CS t i a b c d Lt Hi' C) as (u & w & e & F & Lu & Hw & F' & C').
    destruct (nth_error_ex _ _ Lu) as (y & Ey). destruct (LK u y Ey) as (M4 & O4 & _).
    assert (LI : Nat.land i 3 = i) by (destruct i as [|[|[|[|i]]]]; [reflexivity..|lia]).
    unfold fsym in F. cbn [tet ver] in F. rewrite LI in F. unfold nei_at, tet_at in F. rewrite E in F.
    destruct (nth_error (nei x) i) as [g|] eqn:Eg; [|discriminate]. destruct (look2 FSYM_TBL i (ver g)) as [v|] eqn:Ev; [|discriminate].
    apply (fsym_tbl _ _ Hi) in Ev as (Hv & ->). injection F as F1 F2. destruct g as [gt gv]. cbn in F1, F2. subst gt gv.
    exists u, w, y. split; auto. split; auto.
    destruct (corners_own m u y w Ey M4 Hw) as (a' & b' & c' & d' & C2 & T2 & _).
    assert (EQ : a' = b /\ b' = a /\ c' = c) by (destruct C' as (X1 & X2 & X3 & _), C2 as (Y1 & Y2 & Y3 & _); rewrite X1 in Y1; rewrite X2 in Y2; rewrite X3 in Y3; split; [|split]; congruence).
    destruct EQ as (-> & -> & ->).
    assert (TR : turned (own y (Nat.land w 3)) (rev (own x i))).
    { rewrite EO. cbn. apply (turned_trans _ _ _ T2). exists [b; a], [c]. auto. }
    split.
    { intros ->. assert (y = x) by congruence. subst y. apply (own_turn x i (Nat.land w 3)); auto. apply land3. }
    split.
    { unfold fsym in F'. cbn [tet ver] in F'. unfold nei_at, tet_at in F'. rewrite Ey in F'. destruct (nth_error (nei y) (Nat.land w 3)) as [[gt gv]|]; [|discriminate].
      cbn [ver tet] in F'. destruct (look2 FSYM_TBL w gv) as [v|] eqn:Ev; [|discriminate]. injection F' as -> ->. apply fsym_tbl' in Ev as (_ & Ev); auto. exists gv. auto. }
    split; auto. exists b, c, a. destruct C' as (X1 & X2 & X3 & _). split; auto. split; auto. split; auto. rewrite EO. exists [a], [b; c]. auto.
  Qed.

  (** * The real tetrahedra *)
  Definition real (t : nat) : bool := match is_hull_tet m (Some t) with Some false => true | _ => false end.
  Definition rank (t : nat) : nat := length (filter real (seq 0 t)).
  Lemma hull t x : nth_error (tets m) t = Some x -> exists p, nth_error (data x) 3 = Some p /\ is_hull_tet m (Some t) = Some (p =? n_points m) /\ real t = negb (p =? n_points m).
  Proof.
    intros E. destruct (LK t x E) as (L & _). destruct (four _ L) as (p0 & p1 & p2 & p3 & D). exists p3. unfold real, is_hull_tet, tet_at. rewrite E, D. cbn. split; [reflexivity|]. split; [reflexivity|]. now destruct (p3 =? n_points m).
  Qed.
  Lemma rank_S t : rank (S t) = rank t + if real t then 1 else 0.
  Proof. unfold rank. rewrite seq_S, filter_app, app_length. cbn. now destruct (real t). Qed.
  Lemma rank_mono a b : a <= b -> rank a <= rank b.
  Proof. induction 1; auto. rewrite rank_S. lia. Qed.
  Lemma rank_inj a b : real a = true -> real b = true -> rank a = rank b -> a = b.
  Proof.
    intros A B E. destruct (Nat.lt_trichotomy a b) as [H|[H|H]]; auto; exfalso.
    - apply rank_mono in H. rewrite rank_S, A in H. lia.
    - apply rank_mono in H. rewrite rank_S, B in H. lia.
  Qed.
  Lemma real_verts t x v : nth_error (tets m) t = Some x -> real t = true -> In v (data x) -> v < n_points m.
  Proof.
    intros E R H. destruct (hull t x E) as (p & Ep & _ & Er). rewrite R in Er. apply In_nth_error in H as (i & Ei).
    destruct (GH t x i v E Ei) as (A & B). destruct (Nat.eq_dec v (n_points m)) as [->|]; [|lia]. specialize (B eq_refl). subst i.
    assert (p = n_points m) by congruence. subst p. rewrite Nat.eqb_refl in Er. discriminate.
  Qed.
  Definition order (t : nat) : option nat := if real t then Some (rank t) else None.
  Lemma number_ok k : forall a, a + k <= length (tets m) -> number_tets m (seq a k) (rank a) = Some (map order (seq a k)).
  Proof.
    induction k as [|k IH]; intros a L; [reflexivity|]. cbn [seq number_tets map].
    destruct (nth_error_ex (tets m) a) as (x & E); [lia|]. destruct (hull a x E) as (p & _ & Eh & Er). rewrite Eh.
    assert (I := IH (S a)). rewrite rank_S in I. unfold order at 1. destruct (p =? n_points m); rewrite Er in *; cbn [negb] in *.
    - rewrite Nat.add_0_r in I. rewrite I by lia. reflexivity.
    - rewrite Nat.add_1_r in I. rewrite I by lia. reflexivity.
  Qed.
  Lemma orders_ok : remove_ghost_tets m = Some (map order (seq 0 (length (tets m)))).
  Proof. apply (number_ok (length (tets m)) 0). lia. Qed.
  Lemma order_at t : t < length (tets m) -> nth_error (map order (seq 0 (length (tets m)))) t = Some (order t).
  Proof. intros H. rewrite nth_error_map, (nth_error_nth' _ 0) by (now rewrite seq_length). rewrite seq_nth by auto. reflexivity. Qed.

  (** * The faces of the complex *)
  Definition across_of (t i : nat) : nat * nat :=
    match nth_error (tets m) t with
    | Some x => match nth_error (nei x) i with Some (TF (Some u) w) => (u, Nat.land w 3) | _ => (0, 0) end
    | None => (0, 0)
    end.
  Definition owned (t i : nat) : bool := (t <? fst (across_of t i)) || negb (real (fst (across_of t i))).
  Definition canon (t i : nat) : nat * nat := if owned t i then (t, i) else across_of t i.
  Lemma across_ok t i : t < length (tets m) -> i < 4 ->
    fst (across_of t i) < length (tets m) /\ snd (across_of t i) < 4 /\ fst (across_of t i) <> t /\ across_of (fst (across_of t i)) (snd (across_of t i)) = (t, i).
  Proof.
    intros Ht Hi. destruct (nth_error_ex _ _ Ht) as (x & E). destruct (glue t x i E Hi) as (u & w & y & En & Ey & Ne & (w' & En' & Lw) & _).
    unfold across_of at 1 2 3 5 6. rewrite E, En. cbn [fst snd]. split; [now apply nth_error_lt in Ey|]. split; [apply land3|]. split; auto.
    unfold across_of. now rewrite Ey, En', Lw.
  Qed.
  (** A face that is not new was made from the other side. *)
  Lemma not_owned t i : t < length (tets m) -> i < 4 -> real t = true -> owned t i = false ->
    let '(u, j) := across_of t i in u < t /\ real u = true /\ j < 4 /\ owned u j = true /\ u < length (tets m) /\ across_of u j = (t, i).
  Proof.
    intros Ht Hi R O. destruct (across_ok t i Ht Hi) as (A & B & C & D). destruct (across_of t i) as (u, j) eqn:E. cbn [fst snd] in *.
    unfold owned in O. rewrite E in O. cbn [fst] in O. apply orb_false_iff in O as (O1 & O2). apply Nat.ltb_ge in O1. apply negb_false_iff in O2.
    assert (u < t) by lia. repeat (split; auto). unfold owned. rewrite D. cbn [fst]. apply orb_true_iff. left. now apply Nat.ltb_lt.
  Qed.
  Lemma canon_ok t i : t < length (tets m) -> i < 4 -> real t = true ->
    let '(u, j) := canon t i in u < length (tets m) /\ real u = true /\ j < 4 /\ owned u j = true.
  Proof.
    intros Ht Hi R. unfold canon. destruct (owned t i) eqn:O; [auto|]. assert (N := not_owned t i Ht Hi R O). destruct (across_of t i) as (u, j). tauto.
  Qed.
  Lemma canon_inj t i j : t < length (tets m) -> i < 4 -> j < 4 -> canon t i = canon t j -> i = j.
  Proof.
    intros Ht Hi Hj. destruct (across_ok t i Ht Hi) as (_ & _ & A & B). destruct (across_ok t j Ht Hj) as (_ & _ & C & D). unfold canon.
    destruct (owned t i), (owned t j); intros E.
    - congruence.
    - exfalso. apply C. now rewrite <- E.
    - exfalso. apply A. now rewrite E.
    - rewrite E in B. rewrite D in B. congruence.
  Qed.

  Definition cyc (p : nat * nat) : list nat :=
    match nth_error (tets m) (fst p) with
    | Some x => match nth_error (nei x) (snd p) with
                | Some g => match org m g, apex m g, dest m g with Some a, Some b, Some c => [a; b; c] | _, _, _ => [] end
                | None => []
                end
    | None => []
    end.
  Lemma cyc_ok t x i : nth_error (tets m) t = Some x -> i < 4 -> turned (own x i) (cyc (t, i)).
  Proof.
    intros E Hi. destruct (glue t x i E Hi) as (u & w & y & En & _ & _ & _ & _ & a & b & c & A & B & C & T).
    unfold cyc. cbn [fst snd]. now rewrite E, En, A, B, C.
  Qed.
  Definition cel (p : nat * nat) : option nat * option nat := (Some (rank (fst p)), order (fst (across_of (fst p) (snd p)))).
  Variable n : nat.
  Variable mark : list (list (list nat)).
  Hypothesis MK : forall i t, i < 5 -> t < length (tets m) -> exists l, mark_at mark i t = Some l.
  Definition marks (i t : nat) : list nat := match mark_at mark i t with Some l => l | None => [] end.
  Lemma marks_at i t : i < 5 -> t < length (tets m) -> mark_at mark i t = Some (marks i t).
  Proof. intros A B. destruct (MK i t A B) as (l & E). unfold marks. now rewrite E. Qed.
  Definition trs (p : nat * nat) : list nat := insert_coplanar_triangles (marks (snd p) (fst p)) [] n.
End Glue.

(** * Sorted insertion *)
Lemma insert_sorted_in x l y : In y (insert_sorted x l) <-> y = x \/ In y l.
Proof.
  induction l as [|a l IH]; cbn [insert_sorted]; [cbn; intuition|]. destruct (x <? a); [cbn; intuition|]. destruct (Nat.eqb_spec x a) as [->|]; [cbn; intuition|]. cbn [In]. rewrite IH. intuition.
Qed.
Lemma insert_sorted_inc x l : increasing l -> increasing (insert_sorted x l).
Proof.
  induction l as [|a l IH]; cbn [insert_sorted]; [cbn; intuition|]. intros (H & I). destruct (Nat.ltb_spec x a).
  - cbn. split; auto. intros y [->|Hy]; [auto|]. specialize (H _ Hy). lia.
  - destruct (Nat.eqb_spec x a) as [->|N]; [split; auto|]. split; [|auto]. intros y Hy. apply insert_sorted_in in Hy as [->|Hy]; auto. lia.
Qed.
Lemma insert_sorted_same x l : increasing l -> In x l -> insert_sorted x l = l.
Proof.
  induction l as [|a l IH]; [easy|]. intros (H & I) Hx. cbn [insert_sorted]. destruct (Nat.ltb_spec x a) as [L|L].
  - destruct Hx as [->|Hx]; [lia|]. specialize (H _ Hx). lia.
  - destruct (Nat.eqb_spec x a) as [->|N]; auto. destruct Hx as [->|Hx]; [easy|]. now rewrite IH.
Qed.
Lemma insert_all_in n src : forall d, increasing d -> increasing (insert_coplanar_triangles src d n) /\
  forall y, In y (insert_coplanar_triangles src d n) <-> In y d \/ In y src /\ y < n.
Proof.
  unfold insert_coplanar_triangles. induction src as [|x src IH]; intros d I; cbn [fold_left]; [split; auto; intros y; cbn; intuition|].
  destruct (Nat.ltb_spec x n) as [L|L].
  - destruct (IH _ (insert_sorted_inc x d I)) as (A & B). split; auto. intros y. rewrite B, insert_sorted_in. cbn. intuition; subst; auto.
  - destruct (IH _ I) as (A & B). split; auto. intros y. rewrite B. cbn. intuition; subst; auto. lia.
Qed.
Lemma insert_all_same n src : forall d, increasing d -> (forall y, In y src -> y < n -> In y d) -> insert_coplanar_triangles src d n = d.
Proof.
  unfold insert_coplanar_triangles. induction src as [|x src IH]; intros d I H; cbn [fold_left]; auto.
  destruct (Nat.ltb_spec x n) as [L|L]; [rewrite insert_sorted_same; auto; [|apply H; auto; now left]|]; apply IH; auto; intros y Hy; apply H; now right.
Qed.

Lemma Forall2_imp {A B} (R Q : A -> B -> Prop) l l' : (forall a b, R a b -> Q a b) -> Forall2 R l l' -> Forall2 Q l l'.
Proof. intros H F. induction F; constructor; auto. Qed.

Lemma forall2_length {A B} {R : A -> B -> Prop} {l l'} : Forall2 R l l' -> length l = length l'.
Proof. induction 1; cbn; auto. Qed.

Section Loops.
  Variable m : tetmesh.
  Hypothesis LK : linked m.
  Hypothesis CS : consistent m.
  Hypothesis GH : forall t x i p, nth_error (tets m) t = Some x -> nth_error (data x) i = Some p -> p <= n_points m /\ (p = n_points m -> i = 3).
  Variable n : nat.
  Variable mark : list (list (list nat)).
  Hypothesis MK : forall i t, i < 5 -> t < length (tets m) -> exists l, mark_at mark i t = Some l.
  Notation real := (real m). Notation rank := (rank m). Notation owned := (owned m). Notation across_of := (across_of m). Notation canon := (canon m).
  Notation cyc := (cyc m). Notation cel := (cel m). Notation trs := (trs n mark). Notation marks := (marks mark).
  Notation len := (length (tets m)).
  Notation orders := (map (order m) (seq 0 (length (tets m)))).

  Record Inv (L : list (nat * nat)) (st : nstate) : Prop := {
    in_faces : snd (fst st) = map cyc L;
    in_cells : map cells (snd st) = map cel L;
    in_tris : map ftris (snd st) = map trs L;
    in_len : length (fst (fst st)) = 4 * len;
    in_pos : forall k p, nth_error L k = Some p -> nth_error (fst (fst st)) (4 * fst p + snd p) = Some (Some k);
    in_four : forall p, In p L -> snd p < 4 /\ fst p < len }.

  Lemma inv_nodup L st : Inv L st -> NoDup L.
  Proof.
    intros I. apply NoDup_nth_error. intros i j Hi E. destruct (nth_error_ex _ _ Hi) as (p & Ep). assert (A := in_pos _ _ I _ _ Ep). rewrite Ep in E. assert (B := in_pos _ _ I _ _ (eq_sym E)). congruence.
  Qed.

  Lemma new_neis_ok t x : t < len -> nth_error (tets m) t = Some x -> real t = true ->
    forall k i L st cf, i + k = 4 -> Inv L st -> (forall i', i' < 4 -> owned t i' = false -> In (across_of t i') L) -> (forall i', i <= i' -> ~ In (t, i') L) ->
    exists st' fs, new_neis m orders mark n t (rank t) (skipn i (nei x)) i st cf = Some (st', cf ++ fs) /\
      Inv (L ++ map (pair t) (filter (owned t) (seq i k))) st' /\
      Forall2 (fun i' f => nth_error (L ++ map (pair t) (filter (owned t) (seq i k))) f = Some (canon t i')) (seq i k) fs.
  Proof.
    intros Ht Ex R. induction k as [|k IH]; intros i L st cf Hk I OT NI.
    - destruct (LK t x Ex) as (_ & L4 & _). rewrite skipn_all2 by lia. exists st, []. cbn. rewrite !app_nil_r. auto.
    - assert (Hi : i < 4) by lia. destruct (glue m LK CS t x i Ex Hi) as (u & w & y & En & Ey & Ne & _ & _ & a & b & c & A & B & C & _).
      assert (AO : across_of t i = (u, Nat.land w 3)) by (unfold BspNew.across_of; now rewrite Ex, En).
      assert (Lu := nth_error_lt _ _ _ Ey).
      assert (SK : skipn i (nei x) = TF (Some u) w :: skipn (S i) (nei x)).
      { clear -En. revert i En. induction (nei x) as [|g l IHl]; intros [|i] En; try discriminate; cbn in *; [congruence|]. now rewrite (IHl _ En). }
      rewrite SK. destruct st as ((pos, faces), fd). destruct I as [I1 I2 I3 I4 I5 I6]. cbn [fst snd] in *.
      assert (Lfd : length fd = length L) by (rewrite <- (map_length cells fd), I2; apply map_length).
      cbn [new_neis tet ver]. rewrite (order_at m u Lu).
      assert (TN : tet_face_is_new t u (order m u) = owned t i).
      { unfold tet_face_is_new, BspNew.owned. rewrite AO. cbn [fst]. unfold order. now destruct (BspNew.real m u). }
      rewrite TN. cbn [seq filter]. destruct (owned t i) eqn:O.
      + rewrite A, B, C, (marks_at m mark MK i t) by lia.
        assert (LP : 4 * t + i < length pos) by lia.
        assert (SP : set pos (4 * t + i) (Some (length fd)) = Some (upd pos (4 * t + i) (Some (length fd)))) by (apply set_Some; auto). rewrite SP.
        assert (CY : cyc (t, i) = [a; b; c]) by (unfold BspNew.cyc; cbn [fst snd]; now rewrite Ex, En, A, B, C).
        set (st1 := (upd pos (4 * t + i) (Some (length fd)), faces ++ [[a; b; c]], fd ++ [BFace (Some (rank t), order m u) (insert_coplanar_triangles (marks i t) [] n) [a; b; c] (length fd)])).
        destruct (IH (S i) (L ++ [(t, i)]) st1 (cf ++ [length fd])) as (st' & fs & E & I' & F); [lia| | | |].
        * constructor; cbn [fst snd st1].
          -- rewrite I1, map_app. cbn [map]. now rewrite CY.
          -- rewrite !map_app, I2. cbn [map cells]. do 2 f_equal. unfold BspNew.cel. cbn [fst snd]. now rewrite AO.
          -- rewrite !map_app, I3. reflexivity.
          -- now rewrite upd_length.
          -- intros j p. rewrite nth_error_app_one. destruct (Nat.eqb_spec j (length L)) as [->|Nj].
             ++ intros [= <-]. cbn [fst snd]. rewrite nth_error_upd_eq by auto. now rewrite Lfd.
             ++ intros Ep. rewrite nth_error_upd_neq; [auto|]. intros Q. assert (Hp := nth_error_In _ _ Ep). destruct (I6 p Hp) as (P4 & _). destruct p as (pt, pi). cbn [fst snd] in *.
                assert (pt = t /\ pi = i) by lia. destruct H as (-> & ->). now apply (NI i).
          -- intros p Hp. apply in_app_or in Hp as [Hp|[<-|[]]]; auto.
        * intros i' Hi' O'. apply in_or_app. left. auto.
        * intros i' Hi' Hp. apply in_app_or in Hp as [Hp|[Q|[]]]; [now apply (NI i'); [lia|]|]. injection Q as Q. lia.
        * exists st', (length fd :: fs). rewrite E, <- !app_assoc. cbn [app map]. rewrite <- app_assoc in I', F. cbn [app] in I', F. split; auto. split; auto.
          constructor; auto. rewrite nth_error_app2 by lia. replace (length fd - length L) with 0 by lia. unfold BspNew.canon. now rewrite O.
      + assert (HI := OT i Hi O). apply In_nth_error in HI as (f & Ef). rewrite AO in Ef. assert (P := I5 _ _ Ef). cbn [fst snd] in P. rewrite P.
        assert (Lf := nth_error_lt _ _ _ Ef). destruct (nth_error_ex fd f) as (y' & Ey'); [lia|]. rewrite Ey', (marks_at m mark MK) by (auto; assert (Q := land3 w); lia).
        assert (T : ftris y' = trs (u, Nat.land w 3)).
        { assert (Q : nth_error (map ftris fd) f = Some (ftris y')) by now rewrite nth_error_map, Ey'. rewrite I3, nth_error_map, Ef in Q. cbn [option_map] in Q. congruence. }
        assert (SM : insert_coplanar_triangles (marks (Nat.land w 3) u) (ftris y') n = ftris y').
        { rewrite T. unfold BspNew.trs. cbn [fst snd]. destruct (insert_all_in n (marks (Nat.land w 3) u) [] Logic.I) as (Q1 & Q2). apply insert_all_same; auto. intros z Hz Lz. apply Q2. auto. }
        rewrite SM. assert (SF : set fd f (set_tris y' (ftris y')) = Some fd).
        { apply set_Some. split; [lia|]. replace (set_tris y' (ftris y')) with y' by now destruct y'. clear -Ey'. revert f Ey'. induction fd as [|z fd IHf]; intros [|f] E; try discriminate; cbn in *; [congruence|]. f_equal. now apply IHf. }
        rewrite SF. destruct (IH (S i) L (pos, faces, fd) (cf ++ [f])) as (st' & fs & E & I' & F); [lia|constructor; auto|auto|intros i' Hi'; apply NI; lia|].
        exists st', (f :: fs). rewrite E, <- app_assoc. split; auto. split; auto. constructor; auto. rewrite nth_error_app1 by auto. rewrite Ef. unfold BspNew.canon. now rewrite O, AO.
  Qed.

  Definition ownl (a : nat) : list (nat * nat) := flat_map (fun t => map (pair t) (filter (owned t) (seq 0 4))) (filter real (seq 0 a)).
  Lemma ownl_in a u j : In (u, j) (ownl a) <-> u < a /\ real u = true /\ j < 4 /\ owned u j = true.
  Proof.
    unfold ownl. rewrite in_flat_map. split.
    - intros (t & Ht & H). apply filter_In in Ht as (Ht & R). apply in_seq in Ht. apply in_map_iff in H as (i & E & H). injection E as -> ->. apply filter_In in H as (H & O). apply in_seq in H. repeat split; auto; lia.
    - intros (A & B & C & D). exists u. split; [apply filter_In; split; auto; apply in_seq; lia|]. apply in_map. apply filter_In. split; auto. apply in_seq. lia.
  Qed.
  Lemma ownl_S a : ownl (S a) = ownl a ++ if real a then map (pair a) (filter (owned a) (seq 0 4)) else [].
  Proof. unfold ownl. rewrite (seq_S a 0), filter_app, flat_map_app. cbn [plus filter]. destruct (BspNew.real m a); cbn [flat_map]; now rewrite ?app_nil_r. Qed.

  Definition cells_upto (a : nat) (L : list (nat * nat)) (cd : list bcell) : Prop :=
    length cd = rank a /\ forall t, t < a -> real t = true -> exists fs, nth_error cd (rank t) = Some (BCell fs (marks 4 t)) /\ Forall2 (fun i f => nth_error L f = Some (canon t i)) (seq 0 4) fs.
  Lemma new_cells_ok k : forall a st cd, a + k = len -> Inv (ownl a) st -> cells_upto a (ownl a) cd ->
    exists st' cd', new_cells m orders mark n (seq a k) st cd = Some (st', cd') /\ Inv (ownl len) st' /\ cells_upto len (ownl len) cd'.
  Proof.
    induction k as [|k IH]; intros a st cd Ha I C.
    - rewrite Nat.add_0_r in Ha. subst a. exists st, cd. auto.
    - cbn [seq new_cells]. rewrite order_at by lia.
      assert (OA : order m a = if real a then Some (rank a) else None) by reflexivity. rewrite OA. destruct (real a) eqn:R.
      + destruct (nth_error_ex (tets m) a) as (x & Ex); [lia|]. rewrite Ex.
        destruct (new_neis_ok a x (nth_error_lt _ _ _ Ex) Ex R 4 0 (ownl a) st []) as (st' & fs & E & I' & F); auto.
        { intros i' Hi' O. assert (Q := not_owned m LK CS a i' (nth_error_lt _ _ _ Ex) Hi' R O). destruct (BspNew.across_of m a i') as (u, j). apply ownl_in. tauto. }
        { intros i' _ H. apply ownl_in in H. lia. }
        change (skipn 0 (nei x)) with (nei x) in E. rewrite E. rewrite (marks_at m mark MK) by lia. cbn [app].
        assert (OS := ownl_S a). rewrite R in OS. rewrite <- OS in I', F. apply IH; [lia|auto|]. destruct C as (C1 & C2). split.
        * rewrite app_length, C1, rank_S, R. cbn. lia.
        * intros t Ht Rt. destruct (Nat.eq_dec t a) as [->|Nt].
          -- exists fs. rewrite nth_error_app2 by lia. rewrite C1, Nat.sub_diag. auto.
          -- destruct (C2 t ltac:(lia) Rt) as (fs' & E' & F'). exists fs'. split; [rewrite nth_error_app1; auto; now apply nth_error_lt in E'|].
             rewrite OS. revert F'. apply Forall2_imp. intros i f Ef. rewrite nth_error_app1; auto. now apply nth_error_lt in Ef.
      + assert (OS := ownl_S a). rewrite R, app_nil_r in OS. apply IH; [lia|now rewrite OS|]. rewrite OS. destruct C as (C1 & C2). split; [rewrite rank_S, R; lia|].
        intros t Ht Rt. destruct (Nat.eq_dec t a) as [->|Nt]; [congruence|]. apply C2; auto. lia.
  Qed.
  Lemma rank_surj a c : c < rank a -> exists t, t < a /\ real t = true /\ rank t = c.
  Proof.
    induction a as [|a IH]; [cbn; lia|]. rewrite rank_S. intros H. destruct (Nat.lt_ge_cases c (rank a)) as [L|L].
    - destruct (IH L) as (t & A & B). exists t. split; auto.
    - destruct (BspNew.real m a) eqn:R; [|lia]. exists a. split; auto. split; auto. lia.
  Qed.
  Lemma own_in t x i v : nth_error (tets m) t = Some x -> In v (own x i) -> In v (data x).
  Proof.
    intros E H. destruct (LK t x E) as (L & _). apply in_map_iff in H as (p & <- & H). apply nth_In. rewrite L.
    unfold places in H. destruct i as [|[|[|i]]]; cbn in H; lia.
  Qed.
  Lemma own_nodup t x i : nth_error (tets m) t = Some x -> NoDup (own x i) /\ length (own x i) = 3.
  Proof.
    intros E. destruct (LK t x E) as (L & _ & ND & _). destruct (four _ L) as (p0 & p1 & p2 & p3 & D). unfold own. rewrite D in *. rewrite !NoDup_cons_iff in ND. cbn in ND.
    destruct i as [|[|[|i]]]; cbn; split; auto; rewrite !NoDup_cons_iff; cbn; intuition.
  Qed.
  Lemma own_balanced x : length (data x) = 4 -> balanced (concat (map (fun i => hes (own x i)) (seq 0 4))).
  Proof.
    intros L. destruct (four _ L) as (p0 & p1 & p2 & p3 & D). unfold own. rewrite D. apply balanced_perm. cbn.
    apply (Permutation_count_occ he_dec). intros e.
    assert (Q : forall (a b : nat * nat) l, count_occ he_dec (a :: l) b = (if he_dec a b then 1 else 0) + count_occ he_dec l b) by (intros a b l; cbn [count_occ]; destruct (he_dec a b); reflexivity).
    unfold swap. cbn [fst snd]. rewrite !Q. cbn [count_occ]. lia.
  Qed.
  Lemma own_pair x u v i : length (data x) = 4 -> NoDup (data x) -> i < 4 -> In (u, v) (hes (own x i)) -> exists j, j < 4 /\ In (v, u) (hes (own x j)).
  Proof.
    intros L _ Hi H. assert (B := own_balanced x L u v).
    assert (P : In (u, v) (concat (map (fun i => hes (own x i)) (seq 0 4)))). { apply in_concat. exists (hes (own x i)). split; auto. apply in_map_iff. exists i. split; auto. apply in_seq. lia. }
    apply (count_occ_In he_dec) in P. unfold times in B. rewrite B in P. apply (count_occ_In he_dec), in_concat in P as (E & HE & P). apply in_map_iff in HE as (j & <- & Hj). apply in_seq in Hj. exists j. split; [lia|auto].
  Qed.

  Theorem bsp_new_ok : exists cx L, bsp_new m n mark = Some cx /\ complex cx /\ nverts cx = n_points m /\ length (cdata cx) = rank len /\
    loops cx = map cyc L /\ map ftris (fdata cx) = map trs L /\ map cells (fdata cx) = map cel L /\ (forall u j, In (u, j) L <-> u < len /\ real u = true /\ j < 4 /\ owned u j = true) /\
    (forall t, t < len -> real t = true -> exists fs, nth_error (cdata cx) (rank t) = Some (BCell fs (marks 4 t)) /\ Forall2 (fun i f => nth_error L f = Some (canon t i)) (seq 0 4) fs).
  Proof.
    unfold bsp_new. rewrite (orders_ok m LK). set (L := ownl len).
    assert (I0 : Inv (ownl 0) (repeat None (4 * len), [], [])).
    { constructor; cbn [fst snd]; auto; try (cbn; easy). - apply repeat_length. - intros [|k] p; discriminate. }
    destruct (new_cells_ok len 0 _ [] eq_refl I0) as (((pos, faces), fd) & cd & E & I & CL & CC). { split; [reflexivity|]. lia. }
    rewrite E. set (cx := Bsp (n_points m) faces fd cd). exists cx, L. split; [reflexivity|].
    assert (ND := inv_nodup _ _ I). destruct I as [I1 I2 I3 _ _ I6]. cbn [fst snd] in *. fold L in I1, I2, I3, I6, CC, ND.
    assert (LIN : forall u j, In (u, j) L <-> u < len /\ real u = true /\ j < 4 /\ owned u j = true) by (intros u j; apply ownl_in).
    assert (Lfd : length fd = length L) by (rewrite <- (map_length cells fd), I2; apply map_length).
    (* faces *)
    assert (FC : forall f u j, nth_error L f = Some (u, j) -> u < len /\ real u = true /\ j < 4 /\ owned u j = true /\
       (exists y, nth_error fd f = Some y /\ cells y = cel (u, j)) /\ nth_error faces f = Some (cyc (u, j)) /\ cycle_of cx f = cyc (u, j)).
    { intros f u j Ef. assert (H := nth_error_In _ _ Ef). apply LIN in H as (A & B & C & D). split; auto. split; auto. split; auto. split; auto. split.
      - destruct (nth_error_ex fd f) as (y & Ey); [rewrite Lfd; now apply nth_error_lt in Ef|]. exists y. split; auto.
        assert (Q : nth_error (map cells fd) f = Some (cells y)) by now rewrite nth_error_map, Ey. rewrite I2, nth_error_map, Ef in Q. cbn [option_map] in Q. congruence.
      - assert (Q : nth_error faces f = Some (cyc (u, j))) by now rewrite I1, nth_error_map, Ef. split; auto. unfold cycle_of. cbn [loops cx]. now apply nth_error_nth. }
    assert (FL : forall f, f < length fd -> exists u j, nth_error L f = Some (u, j)).
    { intros f Hf. rewrite Lfd in Hf. destruct (nth_error_ex L f Hf) as ((u, j) & Ef). eauto. }
    assert (FCS : forall f u j, nth_error L f = Some (u, j) -> face_cells cx f = rank u :: if real (fst (across_of u j)) then [rank (fst (across_of u j))] else []).
    { intros f u j Ef. destruct (FC f u j Ef) as (_ & _ & _ & _ & (y & Ey & Ec) & _). unfold face_cells. cbn [fdata cx]. rewrite Ey, Ec. unfold BspNew.cel. cbn [fst snd]. unfold order. now destruct (BspNew.real m (fst (BspNew.across_of m u j))). }
    assert (FNONE : forall f, nth_error L f = None -> face_cells cx f = []).
    { intros f Ef. unfold face_cells. cbn [fdata cx]. apply nth_error_None in Ef. rewrite <- Lfd in Ef. apply nth_error_None in Ef. now rewrite Ef. }
    (* cells *)
    assert (CF : forall c f, In f (cell_faces cx c) <-> exists t i, t < len /\ real t = true /\ rank t = c /\ i < 4 /\ nth_error L f = Some (canon t i)).
    { intros c f. unfold cell_faces. cbn [cdata cx]. split.
      - destruct (nth_error cd c) as [d|] eqn:Ed; [|easy]. intros H. destruct (rank_surj len c) as (t & A & B & C); [rewrite <- CL; now apply nth_error_lt in Ed|].
        destruct (CC t A B) as (fs & Ec & F). rewrite C in Ec. assert (d = BCell fs (marks 4 t)) by congruence. subst d. cbn in H.
        destruct (Forall2_in_r _ _ _ _ F H) as (i & Hi & Ei). apply in_seq in Hi. exists t, i. repeat (split; auto). lia.
      - intros (t & i & A & B & C & D & Ef). destruct (CC t A B) as (fs & Ec & F). rewrite <- C, Ec. cbn.
        destruct (Forall2_in_l _ _ _ i F) as (f' & Hf' & Ei); [apply in_seq; lia|]. assert (f' = f); [|now subst]. apply (proj1 (NoDup_nth_error L) ND); [now apply nth_error_lt in Ei|congruence]. }
    assert (INC : forall c f, In f (cell_faces cx c) <-> In c (face_cells cx f)).
    { intros c f. rewrite CF. split.
      - intros (t & i & A & B & <- & D & Ef). assert (Q := Ef). destruct (canon t i) as (u, j) eqn:Ec. rewrite (FCS f u j Q). unfold BspNew.canon in Ec.
        destruct (BspNew.owned m t i) eqn:O; [injection Ec as -> ->; now left|]. assert (N := not_owned m LK CS t i A D B O). rewrite Ec in N. destruct N as (_ & _ & _ & _ & _ & N). rewrite N. cbn [fst]. rewrite B. right. now left.
      - intros H. destruct (nth_error L f) as [(u, j)|] eqn:Ef; [|rewrite FNONE in H by auto; easy]. destruct (FC f u j Ef) as (A & B & C & D & _). rewrite (FCS f u j Ef) in H. destruct H as [<-|H].
        + exists u, j. do 4 (split; [auto; fail|]). unfold BspNew.canon. now rewrite D.
        + destruct (across_ok m LK CS u j A C) as (X1 & X2 & X3 & X4). destruct (BspNew.across_of m u j) as (t, i) eqn:Ea. cbn [fst snd] in *.
          destruct (BspNew.real m t) eqn:R; [|easy]. destruct H as [<-|[]]. exists t, i. do 4 (split; [auto; fail|]). unfold BspNew.canon.
          assert (O : BspNew.owned m t i = false).
          { unfold BspNew.owned in *. rewrite X4. cbn [fst]. rewrite B. rewrite Ea in D. cbn [fst] in D. rewrite R in D. rewrite orb_false_r in *. apply Nat.ltb_lt in D. apply Nat.ltb_ge. lia. }
          now rewrite O, X4. }
    assert (CYC : forall u x j, nth_error (tets m) u = Some x -> j < 4 -> turned (own x j) (cyc (u, j))) by (intros; now apply (cyc_ok m LK CS)).
    (* seen from a cell, a face is the face of its tetrahedron *)
    assert (FE : forall t x i f, nth_error (tets m) t = Some x -> real t = true -> i < 4 -> nth_error L f = Some (canon t i) -> Permutation (face_edges cx (rank t) f) (hes (own x i))).
    { intros t x i f Ex R Hi Ef. unfold face_edges, first_cell. assert (Lt := nth_error_lt _ _ _ Ex).
      destruct (canon t i) as (u, j) eqn:Ec. destruct (FC f u j Ef) as (A & B & C & D & (y & Ey & Ece) & _ & Cy). cbn [fdata cx]. rewrite Ey, Ece, Cy. unfold BspNew.cel. cbn [fst snd cell_is].
      unfold BspNew.canon in Ec. destruct (BspNew.owned m t i) eqn:O.
      - injection Ec as <- <-. rewrite Nat.eqb_refl. cbn [outward]. apply turned_perm, hes_turned, turned_sym. now apply CYC.
      - assert (N := not_owned m LK CS t i Lt Hi R O). rewrite Ec in N. destruct N as (N1 & _).
        destruct (Nat.eqb_spec (rank u) (rank t)) as [Q|_]; [apply (rank_inj m) in Q; auto; lia|]. cbn [outward].
        destruct (glue m LK CS t x i Ex Hi) as (u' & w & z & En & Ez & _ & _ & T & _).
        assert (Q : across_of t i = (u', Nat.land w 3)) by (unfold BspNew.across_of; now rewrite Ex, En). rewrite Ec in Q. injection Q as -> ->.
        assert (T2 : turned (cyc (u', Nat.land w 3)) (rev (own x i))) by (apply (turned_trans _ (own z (Nat.land w 3))); auto; apply turned_sym, CYC; auto).
        assert (T3 := hes_turned _ _ (turned_rev _ _ T2)). rewrite rev_involutive in T3. apply turned_perm in T3. rewrite <- T3.
        rewrite (turned_perm _ _ (hes_rev (cyc (u', Nat.land w 3)))). apply Permutation_rev. }
    assert (CX : complex cx).
    { constructor.
      - cbn [loops fdata cx]. rewrite I1, map_length. auto.
      - intros f l Hl. cbn [loops cx] in Hl. destruct (FL f) as (u & j & Ef). { apply nth_error_lt in Hl. rewrite I1, map_length in Hl. lia. }
        destruct (FC f u j Ef) as (A & B & C & D & _ & Q & _). rewrite Q in Hl. injection Hl as <-. destruct (nth_error_ex _ _ A) as (x & Ex). assert (T := CYC u x j Ex C).
        destruct (own_nodup u x j Ex) as (N1 & N2). split; [rewrite <- (Permutation_length (turned_perm _ _ T)); lia|]. split; [now apply (Permutation_NoDup (turned_perm _ _ T))|].
        intros v Hv. cbn [nverts cx]. apply (real_verts m LK GH u x); auto. apply (own_in u x j); auto. now apply (turned_in _ _ _ T).
      - intros f y Ey. cbn [fdata cx] in Ey. destruct (FL f (nth_error_lt _ _ _ Ey)) as (u & j & Ef). destruct (FC f u j Ef) as (_ & _ & _ & _ & (y' & Ey' & Ec) & _). assert (y' = y) by congruence. subst. exists (rank u). now rewrite Ec.
      - intros f. destruct (nth_error L f) as [(u, j)|] eqn:Ef; [|rewrite FNONE by auto; constructor]. rewrite (FCS f u j Ef). destruct (FC f u j Ef) as (A & B & C & _).
        destruct (across_ok m LK CS u j A C) as (_ & _ & X & _). destruct (BspNew.real m (fst (BspNew.across_of m u j))) eqn:R; repeat constructor; auto. intros [Q|[]]. apply (rank_inj m) in Q; auto.
      - exact INC.
      - intros c. unfold cell_faces. cbn [cdata cx]. destruct (nth_error cd c) as [d|] eqn:Ed; [|constructor]. destruct (rank_surj len c) as (t & A & B & C); [rewrite <- CL; now apply nth_error_lt in Ed|].
        destruct (CC t A B) as (fs & Ec & F). rewrite C in Ec. assert (d = BCell fs (marks 4 t)) by congruence. subst d. cbn.
        assert (K : forall i, In i (seq 0 4) -> i < 4) by (intros i Hi; apply in_seq in Hi; lia). assert (NS := seq_NoDup 4 0). revert K NS F. generalize (seq 0 4). intros l K NS F. clear Ed Ec. induction F as [|i f l fs' Q F IH]; constructor.
        + intros H. destruct (Forall2_in_r _ _ _ _ F H) as (i' & Hi' & Q'). inversion NS as [|? ? N1 N2]. apply N1. replace i with i'; auto. apply (canon_inj m LK CS t); auto; [apply K; now right|apply K; now left|congruence].
        + apply IH; [intros i' Hi'; apply K; now right|now inversion NS].
      - intros c. unfold cell_boundary, cell_faces. cbn [cdata cx]. destruct (nth_error cd c) as [d|] eqn:Ed; [|intros u v; reflexivity]. destruct (rank_surj len c) as (t & A & B & C); [rewrite <- CL; now apply nth_error_lt in Ed|].
        destruct (CC t A B) as (fs & Ec & F). rewrite C in Ec. assert (d = BCell fs (marks 4 t)) by congruence. subst d. cbn [cfaces]. destruct (nth_error_ex _ _ A) as (x & Ex).
        destruct (LK t x Ex) as (L4 & _). apply (balanced_permutation (concat (map (fun i => hes (own x i)) (seq 0 4)))); [|now apply own_balanced].
        assert (K : forall i, In i (seq 0 4) -> i < 4) by (intros i Hi; apply in_seq in Hi; lia). revert K F. generalize (seq 0 4). intros l K F. clear Ed Ec. induction F as [|i f l fs' Q F IH]; [constructor|].
        cbn [map concat]. apply Permutation_app; [|apply IH; intros i' Hi'; apply K; now right]. symmetry. rewrite <- C. apply FE; auto. apply K. now left.
      - intros l u v Hl Huv. cbn [loops cx] in *. rewrite I1 in Hl. apply in_map_iff in Hl as ((t0, i0) & <- & H0). apply LIN in H0 as (A0 & B0 & C0 & _).
        destruct (nth_error_ex _ _ A0) as (x0 & Ex0). apply (turned_in _ _ _ (hes_turned _ _ (turned_sym _ _ (CYC t0 x0 i0 Ex0 C0)))) in Huv.
        (* the first tetrahedron with the edge *)
        set (has := fun t => real t && match nth_error (tets m) t with Some x => existsb (fun i => existsb (he_eqb (u, v)) (hes (own x i))) (seq 0 4) | None => false end).
        assert (HAS : forall t, has t = true <-> real t = true /\ exists x i, nth_error (tets m) t = Some x /\ i < 4 /\ In (u, v) (hes (own x i))).
        { intros t. unfold has. rewrite andb_true_iff. split; intros (R & H); split; auto.
          - destruct (nth_error (tets m) t) as [x|]; [|easy]. apply existsb_exists in H as (i & Hi & H). apply existsb_exists in H as (e & He & H). apply in_seq in Hi. destruct (he_eqb_spec (u, v) e); [subst e|discriminate]. exists x, i. repeat split; auto. lia.
          - destruct H as (x & i & -> & Hi & H). apply existsb_exists. exists i. split; [apply in_seq; lia|]. apply existsb_exists. exists (u, v). split; auto. now destruct (he_eqb_spec (u, v) (u, v)). }
        assert (MIN : exists t, has t = true /\ forall t', t' < t -> has t' = false).
        { assert (Q : has t0 = true) by (apply HAS; eauto 6). clear -Q. induction t0 as [t0 IH] using lt_wf_ind.
          destruct (forallb (fun t' => negb (has t')) (seq 0 t0)) eqn:Ef.
          - exists t0. split; auto. intros t' Ht'. rewrite forallb_forall in Ef. specialize (Ef t'). rewrite in_seq in Ef. apply negb_true_iff. apply Ef. lia.
          - assert (X : existsb has (seq 0 t0) = true). { clear -Ef. induction (seq 0 t0) as [|a s IHs]; [discriminate|]. cbn in *. destruct (has a); cbn in *; auto. }
            apply existsb_exists in X as (t' & Ht' & X). apply in_seq in Ht'. apply (IH t'); auto. lia. }
        destruct MIN as (t & Ht & MN). apply HAS in Ht as (R & x & i & Ex & Hi & Hu). assert (Lt := nth_error_lt _ _ _ Ex). destruct (LK t x Ex) as (L4 & _ & ND4 & _).
        destruct (own_pair x u v i L4 ND4 Hi Hu) as (j & Hj & Hv).
        assert (O : owned t j = true).
        { destruct (BspNew.owned m t j) eqn:O; auto. exfalso. assert (N := not_owned m LK CS t j Lt Hj R O).
          destruct (glue m LK CS t x j Ex Hj) as (u' & w & z & En & Ez & _ & _ & T & _).
          assert (Q : across_of t j = (u', Nat.land w 3)) by (unfold BspNew.across_of; now rewrite Ex, En). rewrite Q in N. destruct N as (N1 & N2 & N3 & _).
          assert (H : has u' = true); [|rewrite MN in H by auto; discriminate]. apply HAS. split; auto. exists z, (Nat.land w 3). split; auto. split; auto.
          apply (turned_in _ _ _ (hes_turned _ _ T)). now apply hes_rev_in. }
        exists (cyc (t, j)). split; [rewrite I1; apply in_map; apply LIN; auto|]. now apply (turned_in _ _ _ (hes_turned _ _ (CYC t x j Ex Hj))). }
    split; auto. split; auto. split; auto.
  Qed.
End Loops.

Lemma real_filter m t : linked m -> t < length (tets m) ->
  (match nth_error (tets m) t with Some x => negb (nth 3 (data x) 0 =? n_points m) | None => false end) = real m t.
Proof.
  intros LK H. destruct (nth_error_ex _ _ H) as (x & E). rewrite E. destruct (hull m LK t x E) as (p & Ep & _ & ->). now rewrite (nth_error_nth _ _ _ Ep).
Qed.
Lemma real_tets_filter m : linked m -> real_tets m = filter (real m) (seq 0 (length (tets m))).
Proof. intros LK. apply filter_ext_in. intros t Ht. apply in_seq in Ht. apply real_filter; auto. lia. Qed.
Lemma rank_nth m a : forall c t, nth_error (filter (real m) (seq 0 a)) c = Some t <-> t < a /\ real m t = true /\ rank m t = c.
Proof.
  induction a as [|a IH]; intros c t; [cbn; split; [now destruct c|lia]|]. rewrite (seq_S a 0), filter_app. cbn [plus filter]. destruct (real m a) eqn:R.
  - rewrite nth_error_app_one. fold (rank m a). destruct (Nat.eqb_spec c (rank m a)) as [->|N].
    + split; [intros [= ->]; auto|]. intros (A & B & C). f_equal. apply (rank_inj m); auto.
    + rewrite IH. split; [intuition|]. intros (A & B & C). split; auto. destruct (Nat.eq_dec t a) as [->|]; [congruence|]. lia.
  - rewrite app_nil_r, IH. split; [intuition|]. intros (A & B & C). split; auto. destruct (Nat.eq_dec t a) as [->|]; [congruence|]. lia.
Qed.
Lemma places_in x i v : length (data x) = 4 -> i < 4 -> In v (own x i) <-> exists j, j <> i /\ nth_error (data x) j = Some v.
Proof.
  intros L Hi. destruct (four _ L) as (p0 & p1 & p2 & p3 & D). unfold own. rewrite D. split.
  - destruct i as [|[|[|[|i]]]]; [..|lia]; cbn; intros [<-|[<-|[<-|[]]]]; [exists 3|exists 2|exists 1|exists 3|exists 0|exists 2|exists 1|exists 0|exists 3|exists 1|exists 2|exists 0]; split; auto.
  - intros (j & N & E). destruct j as [|[|[|[|j]]]]; cbn in E; [..|destruct j; discriminate]; injection E as <-; (destruct i as [|[|[|[|i]]]]; [..|lia]); cbn; tauto.
Qed.
