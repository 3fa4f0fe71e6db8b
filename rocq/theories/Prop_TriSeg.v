(** C60-C64: the walks over a triangulation in src/triangle/triangle.rs. *)
From Coq Require Import List Arith Bool ZArith Reals Lra Lia.
From Verif Require Import Lib Flip Prop_Flip TriSegSpec TriSeg BwBase TriSegProofs TriSegWalk.
Import ListNotations.
Open Scope nat_scope.

(** Four triangles around the point 1 = (2, 0) of the square 0 = (0, 0),
    4 = (2, -2), 2 = (4, 0), 3 = (2, 2), and the ghosts outside; the ghost
    vertex and the absent mark are 99. *)
Definition square (a b c d e f g h : list nat) : list triangle :=
  [mk_tri ([0; 1; 3] ++ a) [(1, 1); (7, 2); (2, 1)];
   mk_tri ([1; 2; 3] ++ b) [(6, 2); (0, 0); (3, 1)];
   mk_tri ([0; 4; 1] ++ c) [(3, 2); (0, 2); (4, 2)];
   mk_tri ([1; 4; 2] ++ d) [(5, 2); (1, 2); (2, 0)];
   mk_tri ([4; 0; 99] ++ e) [(7, 1); (5, 0); (2, 2)];
   mk_tri ([2; 4; 99] ++ f) [(4, 1); (6, 0); (3, 0)];
   mk_tri ([3; 2; 99] ++ g) [(5, 1); (7, 0); (1, 0)];
   mk_tri ([0; 3; 99] ++ h) [(6, 1); (4, 0); (0, 1)]].
Definition none := [99; 99; 99].
Definition plain : list triangle := square none none none none none none none none.
(** The upper half is bounded by the segments 0 to 3. *)
Definition marked : list triangle :=
  square [99; 6; 0] [4; 99; 2] [99; 1; 99] [99; 3; 99] none none [99; 99; 5] [99; 99; 7].
Definition outside : list bool := [false; false; false; false; true; true; true; true].
Definition place (v : nat) : Z * Z :=
  match v with 1 => (2, 0)%Z | 2 => (4, 0)%Z | 3 => (2, 2)%Z | 4 => (2, -2)%Z | _ => (0, 0)%Z end.
Definition sign_at (a b c : nat) : Z :=
  Z.sgn ((fst (place b) - fst (place a)) * (snd (place c) - snd (place a)) - (snd (place b) - snd (place a)) * (fst (place c) - fst (place a))).
Lemma square_wf a b c d e f g h : Forall (fun l => length l = 3) [a; b; c; d; e; f; g; h] -> wf (square a b c d e f g h).
Proof.
  intros H. rewrite Forall_forall in H. assert (L : forall x, In x [a; b; c; d; e; f; g; h] -> exists p q r, x = [p; q; r]).
  { intros x Hx. specialize (H x Hx). destruct x as [|p [|q [|r [|]]]]; try discriminate. eauto. }
  destruct (L a) as (a1 & a2 & a3 & ->), (L b) as (b1 & b2 & b3 & ->), (L c) as (c1 & c2 & c3 & ->), (L d) as (d1 & d2 & d3 & ->),
    (L e) as (e1 & e2 & e3 & ->), (L f) as (f1 & f2 & f3 & ->), (L g) as (g1 & g2 & g3 & ->), (L h) as (h1 & h2 & h3 & ->); try (cbn; tauto). clear.
  split.
  - intros t i Ht Hi. cbn in Ht. do 8 (destruct t as [|t]; [do 6 (destruct i as [|i]; [discriminate|]); lia|]). lia.
  - intros (t & i) (Ht & Hi). cbn in Ht, Hi. unfold inside.
    do 8 (destruct t as [|t]; [do 3 (destruct i as [|i]; [eexists; split; [reflexivity|cbn; repeat split; lia]|]); lia|]). lia.
Qed.
Lemma plain_wf : wf plain. Proof. apply square_wf. repeat constructor. Qed.
Lemma marked_wf : wf marked. Proof. apply square_wf. repeat constructor. Qed.

(** * C60: what is left of the triangulation *)
Lemma corners_of_ok m : forall ghost, (forall t i, t < length m -> i < 3 -> get_data m t i <> None) -> corners_of m ghost = Some (corners m ghost).
Proof.
  induction m as [|tr m IH]; intros [|g ghost] H; try reflexivity. cbn [corners_of].
  rewrite IH by (intros t i Ht Hi; apply (H (S t) i); cbn; lia). unfold corners. cbn [combine flat_map fst snd]. destruct g; [reflexivity|].
  pose proof (H 0 0 ltac:(cbn; lia) ltac:(lia)) as A. pose proof (H 0 1 ltac:(cbn; lia) ltac:(lia)) as B. pose proof (H 0 2 ltac:(cbn; lia) ltac:(lia)) as C.
  cbn in A, B, C. destruct (data tr) as [|x [|y [|z l]]]; cbn in A, B, C; try contradiction. reflexivity.
Qed.
Theorem C60_regions (INV : nat) (m : list triangle) (ghost : list bool) :
  wf m -> length ghost = length m -> marked_pairs INV m ->
  exists gone, classify INV m ghost = Some (corners m gone) /\ length gone = length m /\
    (forall t, nth_error ghost t = Some true -> nth_error gone t = Some true) /\
    (forall t u, region INV m ghost t u -> nth_error gone t = nth_error gone u) /\
    (forall t, real ghost t -> nth_error gone t = Some true -> exists u, region INV m ghost t u /\ has INV m Nat.odd u) /\
    (forall t, real ghost t -> nth_error gone t = Some false ->
       (exists u, region INV m ghost t u /\ has INV m Nat.even u) \/ forall u, region INV m ghost t u -> ~ has INV m (fun _ => true) u).
Proof.
  intros W Lg Ms. assert (Nv : forall t, nth_error (repeat false (length m)) t <> Some true).
  { intros t E. apply nth_error_In, repeat_spec in E. discriminate. }
  assert (R0 : rinv INV m ghost (repeat false (length m)) ghost).
  { constructor; auto.
    - apply repeat_length.
    - intros t u E. now apply Nv in E.
    - intros t Lt N. destruct (bool_view ghost t) as [X|(X & _)]; [lia|exact X|now apply N in X].
    - intros t E. left. unfold real. congruence.
    - intros t u R E. unfold real in R. congruence.
    - intros t R E. unfold real in R. congruence.
    - intros t E. now apply Nv in E. }
  destruct (regions_ok INV m ghost W Lg Ms (seq 0 (length m)) _ _ R0) as (gone & vis & E & R & _ & V); [intros t Ht; apply in_seq in Ht; lia|].
  assert (Real : forall t, real ghost t -> t < length m) by (intros t H; rewrite <- Lg; apply nth_error_Some; unfold real in H; congruence).
  assert (Same : forall t u, region INV m ghost t u -> nth_error gone t = Some true -> nth_error gone u = Some true).
  { intros t u Htu Et. apply (rv_same _ _ _ _ _ R t u); auto. apply (region_real INV m ghost u t), (region_sym INV m ghost W Lg Ms); auto. }
  exists gone. split; [unfold classify; rewrite E; apply corners_of_ok; intros t i Ht Hi; apply (wf_data m W); auto; lia|]. split; [apply R|]. split; [|split; [|split]].
  - intros t Et. apply (rv_g0 _ _ _ _ _ R); [rewrite <- Lg; apply nth_error_Some; congruence|]. unfold real. congruence.
  - intros t u Htu. assert (Hut : region INV m ghost u t) by (apply (region_sym INV m ghost W Lg Ms); auto).
    pose proof (Real _ (region_real _ _ _ _ _ Htu)) as Lu. pose proof (Real _ (region_real _ _ _ _ _ Hut)) as Lt.
    destruct (bool_view gone t) as [X|(X & N)]; [rewrite (rv_lg _ _ _ _ _ R); auto|rewrite X; symmetry; now apply (Same t)|].
    destruct (bool_view gone u) as [Y|(Y & _)]; [rewrite (rv_lg _ _ _ _ _ R); auto|now apply (Same u t) in Y|congruence].
  - intros t Rt Et. exact (rv_drop _ _ _ _ _ R t Rt Et).
  - intros t Rt Et. apply (rv_keep _ _ _ _ _ R); [|congruence]. apply V; auto. apply in_seq. split; [lia|]. now apply Real.
Qed.
(** When the marks of each region agree, exactly the regions with odd marks go. *)
Theorem C60_consistent (INV : nat) (m : list triangle) (ghost : list bool) :
  wf m -> length ghost = length m -> marked_pairs INV m ->
  (forall t u v, region INV m ghost t u -> region INV m ghost t v -> has INV m Nat.even u -> ~ has INV m Nat.odd v) ->
  exists gone, classify INV m ghost = Some (corners m gone) /\ length gone = length m /\
    (forall t, nth_error ghost t = Some true -> nth_error gone t = Some true) /\
    forall t, real ghost t -> (nth_error gone t = Some true <-> exists u, region INV m ghost t u /\ has INV m Nat.odd u).
Proof.
  intros W Lg Ms Co. destruct (C60_regions INV m ghost W Lg Ms) as (gone & E & L & G & S & D & K). exists gone. split; auto. split; auto. split; auto.
  intros t Rt. split; [apply D; auto|]. intros (u & Ru & Hu).
  destruct (bool_view gone t) as [X|(X & _)]; [|exact X|].
  { rewrite L, <- Lg. apply nth_error_Some. unfold real in Rt. congruence. }
  exfalso. destruct (K t Rt X) as [(v & Rv & Hv)|H].
  - exact (Co t v u Rv Ru Hv Hu).
  - apply (H u Ru). destruct Hu as (j & k & A & B & C & _). exists j, k. auto.
Qed.
Lemma marked_ms : marked_pairs 99 marked.
Proof.
  intros (t & i) g (Ht & Hi). cbn in Ht, Hi.
  do 8 (destruct t as [|t]; [do 3 (destruct i as [|i]; [cbn; intros Q; injection Q as <-; cbn; split; intros Q; (discriminate || reflexivity)|]); lia|]). lia.
Qed.
(** The upper half stays, the lower one goes. *)
Example C60_case : wf marked /\ length outside = length marked /\ marked_pairs 99 marked /\ classify 99 marked outside = Some [0; 1; 3; 1; 2; 3].
Proof. split; [apply marked_wf|]. split; [reflexivity|]. split; [apply marked_ms|reflexivity]. Qed.

(** * C61: the ghosts *)
(** Turning around the apex of the ghosts: from a side to the neighbour of the
    next one. *)
Inductive turns_to (m : list triangle) (start : hedge) : hedge -> Prop :=
| turns_refl : turns_to m start start
| turns_step h g : turns_to m start h -> sym m (next h) = Some g -> turns_to m start g.
Lemma it_turns m start k : wf m -> inside m start -> turns_to m start (it (step m) k start) /\ inside m (it (step m) k start).
Proof.
  intros W I. induction k as [|k (A & B)]; [split; [constructor|exact I]|]. cbn [it]. destruct (step_ok m W _ B) as (E & B'). split; auto. eapply turns_step; eauto.
Qed.
Theorem C61_ghosts (m : list triangle) (start : hedge) : wf m -> inside m start ->
  exists ghost, mark_ghost m start = Some ghost /\ length ghost = length m /\
    forall t, nth_error ghost t = Some true <-> exists h, turns_to m start h /\ fst h = t.
Proof.
  intros W I.
  destruct (orbit_returns (step m) (inside m) (fun h => 3 * fst h + snd h) (3 * length m)) with (x := start) as (k & K0 & Kn & Ek); auto.
  { intros h Hh. apply (step_ok m W h Hh). }
  { intros a b A B E. exact (step_inj m W a b A B E). }
  { intros h (A & B). lia. }
  { intros (a1 & a2) (b1 & b2) (A1 & A2) (B1 & B2). cbn [fst snd] in *. intros E. assert (a1 = b1) by lia. subst. assert (a2 = b2) by lia. now subst. }
  destruct (ghost_loop m W (3 * length m) start start (repeat false (length m)) 0 k) as (ghost & q & E & L & Q0 & Eq & H); auto.
  { apply repeat_length. }
  { intros t. split; [intros Q; apply nth_error_In, repeat_spec in Q; discriminate|intros (i & Li & _); lia]. }
  { lia. }
  exists ghost. split; [exact E|]. split; auto. intros t. rewrite H. split.
  - intros (i & Li & Ei). exists (it (step m) i start). split; [now apply it_turns|exact Ei].
  - intros (h & T & <-). assert (X : exists i, i < q /\ it (step m) i start = h).
    { induction T as [|h g T (i & Li & Ei) Es]; [exists 0; auto|]. assert (Ih : inside m h) by (subst h; now apply it_turns).
      destruct (step_ok m W h Ih) as (Es' & _). assert (g = step m h) by congruence. subst g.
      destruct (Nat.eq_dec (S i) q) as [<-|N]; [exists 0; split; auto; cbn; cbn in Eq; congruence|]. exists (S i). split; [lia|]. cbn. now rewrite Ei. }
    destruct X as (i & Li & Ei). exists i. split; auto. now rewrite Ei.
Qed.
Example C61_case : wf plain /\ inside plain (4, 0) /\ dest plain (4, 0) = Some 99 /\ mark_ghost plain (4, 0) = Some outside.
Proof. split; [apply plain_wf|]. split; [split; cbn; lia|]. vm_compute. auto. Qed.

(** * C62: a half edge for each vertex *)
Theorem C62_vertex_map (INV n : nat) (m : list triangle) (ghost : list bool) :
  wf m -> length ghost = length m -> length m <= INV ->
  (forall t i v, real ghost t -> i < 3 -> get_data m t i = Some v -> v < n) ->
  exists vm, make_vertex_map INV m ghost n = Some vm /\ length vm = n /\
    forall v, v < n ->
      (exists h, nth_error vm v = Some h /\ inside m h /\ org m h = Some v /\ real ghost (fst h)) \/
      (nth_error vm v = Some (INV, 0) /\ forall t i, real ghost t -> i < 3 -> get_data m t i <> Some v).
Proof.
  intros W Lg Li Cn.
  destruct (map_tris_ok INV n m ghost W Lg Li Cn (seq 0 (length m)) (fun _ _ => False) (repeat (INV, 0) n)) as (vm & E & V).
  { constructor; [apply repeat_length|]. intros v Lv. left. split; [|intros t i []]. rewrite nth_error_repeat; auto. }
  { intros t Ht. apply in_seq in Ht. lia. }
  exists vm. split; [exact E|]. split; [apply V|]. intros v Lv. destruct (vi_at _ _ _ _ _ _ V v Lv) as [(A & B)|(h & t & i & A & B & _)].
  - right. split; auto. intros t i R Hi. apply B. right. split; [|auto]. apply in_seq. split; [lia|]. rewrite <- Lg. apply nth_error_Some. unfold real in R. congruence.
  - left. exists h. split; auto.
Qed.
Example C62_case : wf plain /\ length outside = length plain /\ length plain <= 99 /\
  (forall t i v, real outside t -> i < 3 -> get_data plain t i = Some v -> v < 5) /\
  make_vertex_map 99 plain outside 6 = Some [(0, 2); (2, 1); (3, 1); (1, 1); (2, 0); (99, 0)].
Proof.
  split; [apply plain_wf|]. split; [reflexivity|]. split; [cbn; lia|]. split; [|vm_compute; reflexivity].
  intros t i v R Hi. unfold real in R. do 4 (destruct t as [|t]; [do 3 (destruct i as [|i]; [cbn; intros Q; injection Q as <-; lia|]); lia|]).
  do 4 (destruct t as [|t]; [discriminate|]). destruct t; discriminate.
Qed.

(** * C63: the triangle towards a point *)
Theorem C63_direction (n : nat) (ccw : nat -> nat -> nat -> Z) (m : list triangle) (ghost : list bool) (h : hedge) (sp fuel : nat) (dir : direction) (h' : hedge) :
  wf m -> (forall a b c, ccw b a c = - ccw a b c)%Z -> inside m h -> find_direction n ccw m ghost h sp fuel = Some (dir, h') ->
  exists st d a, org m h = Some st /\ inside m h' /\ org m h' = Some st /\ dest m h' = Some d /\ apex m h' = Some a /\
    (0 <= ccw st sp a)%Z /\ (ccw st sp d <= 0)%Z /\
    (dir = LEFTCOLLINEAR <-> ccw st sp a = 0%Z) /\
    (dir = RIGHTCOLLINEAR <-> (0 < ccw st sp a)%Z /\ ccw st sp d = 0%Z) /\
    (dir = WITHIN <-> (0 < ccw st sp a)%Z /\ (ccw st sp d < 0)%Z).
Proof.
  intros W An I E. destruct (find_direction_ok n ccw m W An ghost h sp fuel dir h' I E) as (st & d & a & O & I' & O' & D & A & _ & _ & _ & _ & Sa & Sd & Dir).
  exists st, d, a. do 7 (split; [assumption|]). destruct dir; (split; [|split]); (split; [intros Q|intros Q]); try discriminate; try reflexivity; (assumption || lia).
Qed.
(** With coordinates: the point is in the cone spanned by the two sides of a
    triangle that is not turned over. *)
Definition det (p q r : R * R) : R := ((fst q - fst p) * (snd r - snd p) - (snd q - snd p) * (fst r - fst p))%R.
Definition sgn (x : R) : Z := if Rlt_dec 0 x then 1%Z else if Rlt_dec x 0 then (-1)%Z else 0%Z.
Definition exact_signs (P : nat -> R * R) (ccw : nat -> nat -> nat -> Z) : Prop := forall a b c, ccw a b c = sgn (det (P a) (P b) (P c)).
Lemma sgn_pos x : (0 < sgn x)%Z <-> (0 < x)%R. Proof. unfold sgn. destruct (Rlt_dec 0 x); [split; [auto|lia]|]. destruct (Rlt_dec x 0); split; intros; try lia; try lra. Qed.
Lemma sgn_neg x : (sgn x < 0)%Z <-> (x < 0)%R. Proof. unfold sgn. destruct (Rlt_dec 0 x); [split; intros; [lia|lra]|]. destruct (Rlt_dec x 0); split; intros; try lia; try lra. Qed.
Lemma sgn_zero x : sgn x = 0%Z <-> x = 0%R.
Proof. unfold sgn. destruct (Rlt_dec 0 x); [split; intros; [lia|lra]|]. destruct (Rlt_dec x 0); split; intros; try lia; try lra. Qed.
Lemma exact_anti P ccw : exact_signs P ccw -> forall a b c, (ccw b a c = - ccw a b c)%Z.
Proof.
  intros E a b c. rewrite !E. assert (X : det (P b) (P a) (P c) = (- det (P a) (P b) (P c))%R) by (unfold det; ring). rewrite X. unfold sgn.
  repeat destruct Rlt_dec; try reflexivity; exfalso; lra.
Qed.
Theorem C63_cone (n : nat) (P : nat -> R * R) (ccw : nat -> nat -> nat -> Z) (m : list triangle) (ghost : list bool) (h : hedge) (sp fuel : nat) (dir : direction) (h' : hedge) :
  wf m -> exact_signs P ccw -> inside m h -> find_direction n ccw m ghost h sp fuel = Some (dir, h') ->
  exists st d a, org m h = Some st /\ inside m h' /\ org m h' = Some st /\ dest m h' = Some d /\ apex m h' = Some a /\
    ((0 < det (P st) (P d) (P a))%R -> exists x y : R,
       fst (P sp) = (fst (P st) + x * (fst (P d) - fst (P st)) + y * (fst (P a) - fst (P st)))%R /\
       snd (P sp) = (snd (P st) + x * (snd (P d) - snd (P st)) + y * (snd (P a) - snd (P st)))%R /\
       (0 <= x)%R /\ (0 <= y)%R /\
       (dir = LEFTCOLLINEAR <-> x = 0%R) /\ (dir = RIGHTCOLLINEAR <-> (0 < x)%R /\ y = 0%R) /\ (dir = WITHIN <-> (0 < x)%R /\ (0 < y)%R)).
Proof.
  intros W Ex I E. destruct (C63_direction n ccw m ghost h sp fuel dir h' W (exact_anti P ccw Ex) I E) as (st & d & a & O & I' & O' & D & A & Sa & Sd & H1 & H2 & H3).
  exists st, d, a. do 5 (split; [assumption|]). intros Pos. set (D0 := det (P st) (P d) (P a)) in *.
  rewrite Ex in Sa, Sd, H1, H2, H3. rewrite (Ex st sp d) in H2, H3.
  set (Da := det (P st) (P sp) (P a)) in *. set (Dd := det (P st) (P sp) (P d)) in *.
  assert (Na : (0 <= Da)%R). { destruct (Rle_or_lt 0 Da) as [Q|Q]; auto. apply sgn_neg in Q. lia. }
  assert (Nd : (Dd <= 0)%R). { destruct (Rle_or_lt Dd 0) as [Q|Q]; auto. apply sgn_pos in Q. lia. }
  rewrite sgn_pos, sgn_zero in H2. rewrite sgn_zero in H1. rewrite sgn_pos, sgn_neg in H3.
  exists (Da / D0)%R, (- Dd / D0)%R. assert (Ni : D0 <> 0%R) by lra.
  assert (Inv : (0 < / D0)%R) by now apply Rinv_0_lt_compat.
  split. { unfold Da, Dd, D0, det in *. field. exact Ni. } split. { unfold Da, Dd, D0, det in *. field. exact Ni. }
  assert (Z0 : forall x, (x / D0)%R = 0%R <-> x = 0%R).
  { intros x. split; [|intros ->; unfold Rdiv; ring]. intros Q. replace x with (x / D0 * D0)%R by (field; auto). rewrite Q. ring. }
  assert (P0 : forall x, (0 < x / D0)%R <-> (0 < x)%R).
  { intros x. split; [|intros; unfold Rdiv; now apply Rmult_lt_0_compat]. intros Q. replace x with (x / D0 * D0)%R by (field; auto). now apply Rmult_lt_0_compat. }
  assert (L0 : forall x, (0 <= x)%R -> (0 <= x / D0)%R) by (intros x Q; unfold Rdiv; apply Rmult_le_pos; lra).
  split; [apply L0; lra|]. split; [apply L0; lra|]. rewrite !Z0, !P0. split; [exact H1|]. split; [rewrite H2|rewrite H3]; split; intros (U & V); split; lra.
Qed.
(** The search ends when the triangles around the vertex have no ghost corner and
    are not all strictly on one side. *)
Inductive around (m : list triangle) (h : hedge) : hedge -> Prop :=
| around_refl : around m h h
| around_step g g' : around m h g -> sym m (prev g) = Some g' -> around m h g'.
Lemma it_S {A} (f : A -> A) k x : it f (S k) x = it f k (f x).
Proof. induction k as [|k IH]; [reflexivity|]. cbn [it] in *. now rewrite IH. Qed.
Section Ends.
  Variables (n : nat) (ccw : nat -> nat -> nat -> Z) (m : list triangle) (sp st : nat).
  Hypothesis W : wf m.
  Hypothesis Lsp : sp < n.
  Hypothesis Cn : forall g a b c, inside m g -> org m g = Some st -> dest m g = Some b -> apex m g = Some c -> a = st -> a < n /\ b < n /\ c < n.

  Definition on (h : hedge) : hedge := match onext m h with Some g => g | None => h end.
  Definition op (h : hedge) : hedge := match oprev m h with Some g => g | None => h end.
  Lemma on_ok h : inside m h -> onext m h = Some (on h) /\ inside m (on h) /\ org m (on h) = org m h.
  Proof. intros I. destruct (onext_ok m W h I) as (g & E & I' & O & _). unfold on. rewrite E. auto. Qed.
  Lemma op_ok h : inside m h -> oprev m h = Some (op h) /\ inside m (op h) /\ org m (op h) = org m h.
  Proof. intros I. destruct (oprev_ok m W h I) as (g & E & I' & O & _). unfold op. rewrite E. auto. Qed.
  Lemma op_on h : inside m h -> op (on h) = h.
  Proof.
    intros I. destruct (on_ok h I) as (E & I' & _). unfold onext in E. destruct (wf_nei m W _ (prev_inside m h I)) as (g & S & _ & Sb & _).
    assert (g = on h) by congruence. subst g. unfold op, oprev. rewrite Sb. apply (prev_next m h I).
  Qed.
  Lemma turn_lt a b c : a < n -> b < n -> c < n -> turn n ccw a b c = Some (ccw a b c).
  Proof using. clear -ccw. intros A B C. unfold turn. destruct (Nat.ltb_spec a n), (Nat.ltb_spec b n), (Nat.ltb_spec c n); try lia. reflexivity. Qed.
  Lemma left_ends fuel : forall i h left right, inside m h -> org m h = Some st -> i <= fuel ->
    (forall a, apex m h = Some a -> left = ccw sp st a) ->
    (exists a, apex m (it on i h) = Some a /\ (ccw sp st a <= 0)%Z) -> turn_left n ccw m sp st h left right fuel <> None.
  Proof.
    induction fuel as [|fuel IH]; intros i h left right I O Li El (a & Ea & Ha); cbn [turn_left]; destruct (Z.ltb_spec 0 left) as [Q|Q]; try discriminate.
    - assert (i = 0) by lia. subst i. rewrite (El a Ea) in Q. lia.
    - destruct i as [|i]; [rewrite (El a Ea) in Q; lia|]. destruct (on_ok h I) as (E & I' & O'). rewrite E. destruct (corner_some m W _ I') as (x & y & z & E1 & E2 & E3). rewrite E3.
      destruct (Cn (on h) st y z I') as (A & B & C); auto; [congruence|]. rewrite turn_lt by auto.
      apply (IH i); auto; [congruence|lia|intros a' Ea'; congruence|]. exists a. split; auto. rewrite <- it_S. exact Ea.
  Qed.
  Lemma right_ends fuel : forall i h left right, inside m h -> org m h = Some st -> i <= fuel ->
    (forall a, dest m h = Some a -> right = ccw st sp a) ->
    (exists a, dest m (it op i h) = Some a /\ (ccw st sp a <= 0)%Z) -> turn_right n ccw m sp st h left right fuel <> None.
  Proof.
    induction fuel as [|fuel IH]; intros i h left right I O Li El (a & Ea & Ha); cbn [turn_right]; destruct (Z.ltb_spec 0 right) as [Q|Q]; try discriminate.
    - assert (i = 0) by lia. subst i. rewrite (El a Ea) in Q. lia.
    - destruct i as [|i]; [rewrite (El a Ea) in Q; lia|]. destruct (op_ok h I) as (E & I' & O'). rewrite E. destruct (corner_some m W _ I') as (x & y & z & E1 & E2 & E3). rewrite E2.
      destruct (Cn (op h) st y z I') as (A & B & C); auto; [congruence|]. rewrite turn_lt by auto.
      apply (IH i); auto; [congruence|lia|intros a' Ea'; congruence|]. exists a. split; auto. rewrite <- it_S. exact Ea.
  Qed.
  Lemma it_on h k : inside m h -> inside m (it on k h).
  Proof. intros I. induction k; cbn [it]; auto. now apply on_ok. Qed.
  Lemma around_it h g : inside m h -> around m h g -> exists i j, i <= 3 * length m /\ j <= 3 * length m /\ it on i h = g /\ it op j h = g.
  Proof using W.
    clear Lsp Cn. intros I A.
    destruct (orbit_returns on (inside m) (fun h => 3 * fst h + snd h) (3 * length m)) with (x := h) as (k & K0 & Kn & Ek); auto.
    { intros x Hx. now apply on_ok. }
    { intros a b Ia Ib E. rewrite <- (op_on a Ia), <- (op_on b Ib). now rewrite E. }
    { intros x (X1 & X2). lia. }
    { intros (a1 & a2) (b1 & b2) (A1 & A2) (B1 & B2). cbn [fst snd] in *. intros E. assert (a1 = b1) by lia. subst. assert (a2 = b2) by lia. now subst. }
    assert (X : exists i, i < k /\ it on i h = g).
    { induction A as [|g g' A (i & Li & Ei) Es]; [exists 0; auto|]. assert (Ig : inside m g) by (subst g; now apply it_on).
      destruct (on_ok g Ig) as (Eo & _). unfold onext in Eo. assert (g' = on g) by congruence. subst g'.
      destruct (Nat.eq_dec (S i) k) as [<-|N]; [exists 0; split; auto; cbn [it] in *; congruence|]. exists (S i). split; [lia|]. cbn [it]. now rewrite Ei. }
    destruct X as (i & Li & Ei). exists i, (k - i). split; [lia|]. split; [lia|]. split; auto.
    assert (Y : forall j, j <= k -> it op j h = it on (k - j) h).
    { induction j as [|j IHj]; intros Lj; [rewrite Nat.sub_0_r; auto|]. cbn [it]. rewrite IHj by lia. replace (k - j) with (S (k - S j)) by lia. cbn [it]. apply op_on. now apply it_on. }
    rewrite Y by lia. replace (k - (k - i)) with i by lia. exact Ei.
  Qed.
End Ends.
Theorem C63_ends (n : nat) (ccw : nat -> nat -> nat -> Z) (m : list triangle) (ghost : list bool) (h : hedge) (sp st fuel : nat) :
  wf m -> length ghost = length m -> inside m h -> org m h = Some st -> sp < n -> st < n -> 3 * length m <= fuel ->
  (forall g b c, inside m g -> org m g = Some st -> dest m g = Some b -> apex m g = Some c -> b < n /\ c < n) ->
  (exists g a, around m h g /\ apex m g = Some a /\ (ccw sp st a <= 0)%Z) ->
  (exists g d, around m h g /\ dest m g = Some d /\ (ccw st sp d <= 0)%Z) ->
  find_direction n ccw m ghost h sp fuel <> None.
Proof.
  intros W Lg I O Lp Ls Lf Cn (g1 & a1 & Ar1 & E1 & H1) (g2 & d2 & Ar2 & E2 & H2).
  assert (Cn' : forall g a b c, inside m g -> org m g = Some st -> dest m g = Some b -> apex m g = Some c -> a = st -> a < n /\ b < n /\ c < n).
  { intros g a b c Ig Og Dg Ag ->. split; auto. eapply Cn; eauto. }
  unfold find_direction. destruct (corner_some m W h I) as (st' & d & a & X1 & X2 & X3). assert (st' = st) by congruence. subst st'. rewrite X1, X2, X3.
  destruct (Cn h d a I O X2 X3) as (Ld & La). rewrite !turn_lt by auto.
  destruct (around_it m W h g1 I Ar1) as (i1 & _ & L1 & _ & Y1 & _). destruct (around_it m W h g2 I Ar2) as (_ & j2 & _ & L2 & _ & Y2).
  assert (TL : forall l r, l = ccw sp st a -> turn_left n ccw m sp st h l r fuel <> None).
  { intros l r ->. apply (left_ends n ccw m sp st W Lp Cn' fuel i1); auto; [lia|intros; congruence|]. exists a1. rewrite Y1. auto. }
  assert (TR : forall l r, r = ccw st sp d -> turn_right n ccw m sp st h l r fuel <> None).
  { intros l r ->. apply (right_ends n ccw m sp st W Lp Cn' fuel j2); auto; [lia|intros; congruence|]. exists d2. rewrite Y2. auto. }
  destruct (on_ok m W h I) as (En & In' & _). rewrite En. destruct (nth_error_ex ghost (fst (on m h))) as (b & Eb); [rewrite Lg; apply In'|]. rewrite Eb.
  specialize (TL (ccw sp st a) (ccw st sp d) eq_refl). specialize (TR (ccw sp st a) (ccw st sp d) eq_refl).
  destruct (0 <? ccw sp st a)%Z, (0 <? ccw st sp d)%Z, b; cbn [andb negb];
    try (destruct (turn_left n ccw m sp st h (ccw sp st a) (ccw st sp d) fuel) as [[[? ?] ?]|]; [discriminate|contradiction]);
    try (destruct (turn_right n ccw m sp st h (ccw sp st a) (ccw st sp d) fuel) as [[[? ?] ?]|]; [discriminate|contradiction]); discriminate.
Qed.
Definition placeR (v : nat) : R * R := (IZR (fst (place v)), IZR (snd (place v))).
Lemma sign_at_exact : exact_signs placeR sign_at.
Proof.
  intros a b c. unfold sign_at, det, placeR. cbn [fst snd]. rewrite <- !minus_IZR, <- !mult_IZR, <- minus_IZR. set (z := (_ - _)%Z) at 1. change (Z.sgn z = sgn (IZR z)).
  destruct (Z.lt_trichotomy z 0) as [Q|[->|Q]].
  - rewrite Z.sgn_neg by auto. symmetry. unfold sgn. apply IZR_lt in Q. destruct Rlt_dec; [lra|]. destruct Rlt_dec; [reflexivity|lra].
  - symmetry. now apply sgn_zero.
  - rewrite Z.sgn_pos by auto. symmetry. unfold sgn. apply IZR_lt in Q. destruct Rlt_dec; [reflexivity|lra].
Qed.
(** From the point 0 towards 3, starting below: the search turns to the triangle
    above; towards 2 the point 1 is in the way. *)
Example C63_case : wf plain /\ exact_signs placeR sign_at /\ inside plain (2, 2) /\
  find_direction 5 sign_at plain outside (2, 2) 3 9 = Some (LEFTCOLLINEAR, (0, 2)) /\
  find_direction 5 sign_at plain outside (2, 2) 2 9 = Some (LEFTCOLLINEAR, (2, 2)) /\
  (0 < det (placeR 0) (placeR 1) (placeR 3))%R.
Proof.
  split; [apply plain_wf|]. split; [apply sign_at_exact|]. split; [split; cbn; lia|]. split; [vm_compute; reflexivity|]. split; [vm_compute; reflexivity|].
  unfold det, placeR. cbn. lra.
Qed.

Example C63_ends_case : inside plain (0, 0) /\ org plain (0, 0) = Some 1 /\
  (forall g b c, inside plain g -> org plain g = Some 1 -> dest plain g = Some b -> apex plain g = Some c -> b < 5 /\ c < 5) /\
  (exists g a, around plain (0, 0) g /\ apex plain g = Some a /\ (sign_at 2 1 a <= 0)%Z) /\
  (exists g d, around plain (0, 0) g /\ dest plain g = Some d /\ (sign_at 1 2 d <= 0)%Z).
Proof.
  split; [split; cbn; lia|]. split; [reflexivity|]. split.
  - intros (t & i) b c (Ht & Hi). cbn in Ht, Hi.
    do 8 (destruct t as [|t]; [do 3 (destruct i as [|i]; [cbn; intros Q1 Q2 Q3; try discriminate; injection Q2 as <-; injection Q3 as <-; lia|]); lia|]). lia.
  - split.
    + exists (0, 0), 0. split; [constructor|]. split; [reflexivity|]. vm_compute. discriminate.
    + exists (2, 1), 0. split; [eapply around_step; [constructor|reflexivity]|]. split; [reflexivity|]. vm_compute. discriminate.
Qed.

(** * C64: marking a segment that is a chain of edges *)
Theorem C64_scout (INV n : nat) (ccw : nat -> nat -> nat -> Z) (m : list triangle) (ghost : list bool) (h : hedge) (ep k turns fuel : nat)
    (m' : list triangle) (h' : hedge) (found : bool) :
  wf m -> (forall e, inside m e -> sym m e <> Some e) -> length m <= INV -> (forall a b c, ccw b a c = - ccw a b c)%Z -> inside m h ->
  scout_segment INV n ccw m ghost h ep k turns fuel = Some (m', h', found) ->
  wf m' /\ shape m m' /\
  (forall e, inside m e -> mark m' e <> mark m e -> carries m' k e) /\
  exists st es w, org m h = Some st /\ walk m es st w /\
    (forall e, In e es -> carries m' k e) /\
    (forall e, In e es -> (forall e', In e' es -> sym m e <> Some e') -> forward m' k e) /\
    (forall e u v, In e es -> org m e = Some u -> dest m e = Some v -> v = ep \/ ccw u ep v = 0%Z) /\
    (forall e u, In e es -> org m e = Some u -> u = st \/ u <> ep) /\
    (found = true -> w = ep) /\
    (found = false -> exists d a, inside m h' /\ org m h' = Some w /\ dest m h' = Some d /\ apex m h' = Some a /\ d <> ep /\ a <> ep /\
       (0 < ccw w ep a)%Z /\ (ccw w ep d < 0)%Z).
Proof.
  intros W Ns L An I E. destruct (scout_ok INV n ccw ghost ep k An turns fuel m h m' h' found W Ns L I E) as (st & es & w & A1 & A2 & A3 & A4 & _ & _ & A7 & A8 & A9 & A10 & A11).
  split; [eapply shape_wf; eauto|]. split; auto. split; auto. exists st, es, w. do 6 (split; [assumption|]). destruct found; split; intros Q; try discriminate; auto.
Qed.
(** With coordinates: the vertices of the chain are on the line of the segment. *)
Lemma on_line P ep m es : forall u w, walk m es u w ->
  (forall e a, In e es -> org m e = Some a -> P a <> P ep) ->
  (forall e a b, In e es -> org m e = Some a -> dest m e = Some b -> det (P a) (P ep) (P b) = 0%R) ->
  forall e b, In e es -> dest m e = Some b -> det (P u) (P ep) (P b) = 0%R.
Proof.
  induction es as [|x es IH]; intros u w Wk Ne Co e b He Db; [contradiction|]. destruct Wk as (I & O & v & D & Wk). destruct He as [<-|He].
  - apply (Co x u b); auto. now left.
  - assert (A : det (P v) (P ep) (P b) = 0%R) by (apply (IH v w Wk) with (e := e); auto; intros; [eapply Ne; eauto; now right|eapply Co; eauto; now right]).
    assert (B : det (P u) (P ep) (P v) = 0%R) by (apply (Co x); auto; now left).
    assert (Nv : P v <> P ep).
    { destruct es as [|y es]; [contradiction|]. destruct Wk as (_ & Oy & _). apply (Ne y); [right; now left|exact Oy]. }
    revert A B Nv. destruct (P u) as (ux & uy), (P v) as (vx & vy), (P ep) as (ex & ey), (P b) as (bx & by_). unfold det. cbn [fst snd]. intros A B Nv.
    assert (H1 : ((ex - vx) * ((ex - ux) * (by_ - uy) - (ey - uy) * (bx - ux)) = 0)%R).
    { replace ((ex - vx) * ((ex - ux) * (by_ - uy) - (ey - uy) * (bx - ux)))%R with
        ((ex - ux) * ((ex - vx) * (by_ - vy) - (ey - vy) * (bx - vx)) + (ex - bx) * ((ex - ux) * (vy - uy) - (ey - uy) * (vx - ux)))%R by ring. rewrite A, B. ring. }
    assert (H2 : ((ey - vy) * ((ex - ux) * (by_ - uy) - (ey - uy) * (bx - ux)) = 0)%R).
    { replace ((ey - vy) * ((ex - ux) * (by_ - uy) - (ey - uy) * (bx - ux)))%R with
        ((ey - uy) * ((ex - vx) * (by_ - vy) - (ey - vy) * (bx - vx)) + (ey - by_) * ((ex - ux) * (vy - uy) - (ey - uy) * (vx - ux)))%R by ring. rewrite A, B. ring. }
    destruct (Req_dec ((ex - ux) * (by_ - uy) - (ey - uy) * (bx - ux)) 0) as [Q|Q]; [exact Q|]. exfalso. apply Nv.
    assert (X : (ex - vx = 0)%R) by (apply Rmult_integral in H1; tauto). assert (Y : (ey - vy = 0)%R) by (apply Rmult_integral in H2; tauto). f_equal; lra.
Qed.
Lemma in_walk m es : forall u w e, walk m es u w -> In e es -> inside m e.
Proof. induction es as [|x es IH]; intros u w e Wk He; [contradiction|]. destruct Wk as (I & _ & v & _ & Wk). destruct He as [<-|He]; eauto. Qed.
Theorem C64_line (INV n : nat) (P : nat -> R * R) (ccw : nat -> nat -> nat -> Z) (m : list triangle) (ghost : list bool) (h : hedge) (ep k turns fuel : nat)
    (m' : list triangle) (h' : hedge) (found : bool) (st : nat) :
  wf m -> (forall e, inside m e -> sym m e <> Some e) -> length m <= INV -> exact_signs P ccw -> inside m h ->
  org m h = Some st -> st <> ep -> (forall e a, inside m e -> org m e = Some a -> a <> ep -> P a <> P ep) ->
  scout_segment INV n ccw m ghost h ep k turns fuel = Some (m', h', found) ->
  exists es w, walk m es st w /\ (forall e, In e es -> carries m' k e) /\ (found = true -> w = ep) /\
    forall e b, In e es -> dest m e = Some b -> det (P st) (P ep) (P b) = 0%R.
Proof.
  intros W Ns L Ex I O Nst Np E.
  destruct (C64_scout INV n ccw m ghost h ep k turns fuel m' h' found W Ns L (exact_anti P ccw Ex) I E) as (_ & _ & _ & st' & es & w & O' & Wk & C & _ & Co & Ne & F & _).
  assert (st' = st) by congruence. subst st'. exists es, w. split; auto. split; auto. split; auto. apply (on_line P ep m es st w Wk).
  - intros e a He Oa. apply (Np e a); auto; [eapply in_walk; eauto|]. destruct (Ne e a He Oa) as [->|]; auto.
  - intros e a b He Oa Db. destruct (Co e a b He Oa Db) as [->|Q]; [unfold det; ring|]. apply sgn_zero. now rewrite <- Ex.
Qed.
Lemma plain_own : forall e, inside plain e -> sym plain e <> Some e.
Proof.
  intros (t & i) (Ht & Hi). cbn in Ht, Hi. do 8 (destruct t as [|t]; [do 3 (destruct i as [|i]; [cbn; congruence|]); lia|]). lia.
Qed.
(** From 0 to 2 over 1; from 0 to 4 the wanted edge is there; a segment that
    crosses: the square with only one diagonal. *)
Example C64_case : wf plain /\ (forall e, inside plain e -> sym plain e <> Some e) /\ length plain <= 99 /\ exact_signs placeR sign_at /\ inside plain (2, 2) /\
  org plain (2, 2) = Some 0 /\
  (exists m' h', scout_segment 99 5 sign_at plain outside (2, 2) 2 6 9 9 = Some (m', h', true) /\
     mark m' (0, 2) = Some 6 /\ mark m' (2, 1) = Some 7 /\ mark m' (1, 2) = Some 6 /\ mark m' (3, 1) = Some 7).
Proof.
  split; [apply plain_wf|]. split; [apply plain_own|]. split; [cbn; lia|]. split; [apply sign_at_exact|]. split; [split; cbn; lia|]. split; [reflexivity|].
  eexists. eexists. split; [vm_compute; reflexivity|]. vm_compute. auto.
Qed.
Definition shifted (v : nat) : Z * Z := match v with 1 => (2, 1)%Z | _ => place v end.
Definition sign_shifted (a b c : nat) : Z :=
  Z.sgn ((fst (shifted b) - fst (shifted a)) * (snd (shifted c) - snd (shifted a)) - (snd (shifted b) - snd (shifted a)) * (fst (shifted c) - fst (shifted a))).
(** With the middle point moved up the segment from 0 to 2 crosses the edge from
    4 to 1. *)
Example C64_crossing : scout_segment 99 5 sign_shifted plain outside (0, 2) 2 6 9 9 = Some (plain, (2, 2), false).
Proof. vm_compute. reflexivity. Qed.

Print Assumptions C60_regions.
Print Assumptions C60_consistent.
Print Assumptions C61_ghosts.
Print Assumptions C62_vertex_map.
Print Assumptions C63_direction.
Print Assumptions C63_cone.
Print Assumptions C63_ends.
Print Assumptions C64_scout.
Print Assumptions C64_line.
