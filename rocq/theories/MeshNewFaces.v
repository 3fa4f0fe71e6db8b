(** SurfaceMesh::new, first pass: halfedges, faces and start vertices. *)
From Coq Require Import List Arith Bool Lia Permutation.
From Verif Require Import Lib Mesh MeshSpec MeshFacts MeshProofs MeshAddFace MeshSplitFace.
Import ListNotations.
Local Open Scope opt_scope.

Lemma resize_snoc (a : ids) : resize a (length a + 1) = a ++ [None].
Proof. unfold resize. rewrite firstn_all2 by lia. replace (length a + 1 - length a) with 1 by lia. reflexivity. Qed.

Lemma wr_at (a b : ids) x v : wr (a ++ x :: b) (length a) v = Some (a ++ Some v :: b).
Proof.
  unfold wr, set. rewrite app_length. simpl. rewrite (proj2 (Nat.ltb_lt _ _)) by lia. f_equal.
  induction a as [|y a IH]; simpl; auto. unfold upd in *. simpl. now rewrite IH.
Qed.

Lemma wr_at' (a b : ids) x v i : length a = i -> wr (a ++ x :: b) i v = Some (a ++ Some v :: b).
Proof. intros <-. apply wr_at. Qed.

Definition nones (n : nat) : ids := repeat None n.
Lemma nones_snoc n : nones n ++ [None] = nones (S n).
Proof. unfold nones. change (S n) with (1 + n). rewrite Nat.add_comm, repeat_app. reflexivity. Qed.

(** The setters on an explicit record; rewriting with these keeps the terms small. *)
Lemma mk_v_he a b c d e f g h i j k l m n x : set_v_he (Mesh a b c d e f g h i j k l m n) x = Mesh x b c d e f g h i j k l m n.
Proof. reflexivity. Qed.
Lemma mk_he_next a b c d e f g h i j k l m n x : set_he_next (Mesh a b c d e f g h i j k l m n) x = Mesh a x c d e f g h i j k l m n.
Proof. reflexivity. Qed.
Lemma mk_he_vert a b c d e f g h i j k l m n x : set_he_vert (Mesh a b c d e f g h i j k l m n) x = Mesh a b x d e f g h i j k l m n.
Proof. reflexivity. Qed.
Lemma mk_f_he a b c d e f g h i j k l m n x : set_f_he (Mesh a b c d e f g h i j k l m n) x = Mesh a b c x e f g h i j k l m n.
Proof. reflexivity. Qed.
Lemma mk_he_edge a b c d e f g h i j k l m n x : set_he_edge (Mesh a b c d e f g h i j k l m n) x = Mesh a b c d e f g h x j k l m n.
Proof. reflexivity. Qed.
Lemma mk_he_face a b c d e f g h i j k l m n x : set_he_face (Mesh a b c d e f g h i j k l m n) x = Mesh a b c d e f g h i x k l m n.
Proof. reflexivity. Qed.
Lemma mk_in_next a b c d e f g h i j k l m n x : set_in_next (Mesh a b c d e f g h i j k l m n) x = Mesh a b c d e f g h i j x l m n.
Proof. reflexivity. Qed.
Lemma mk_out_next a b c d e f g h i j k l m n x : set_out_next (Mesh a b c d e f g h i j k l m n) x = Mesh a b c d e f g h i j k x m n.
Proof. reflexivity. Qed.
Lemma mk_sib a b c d e f g h i j k l m n x : set_sib (Mesh a b c d e f g h i j k l m n) x = Mesh a b c d e f g h i j k l x n.
Proof. reflexivity. Qed.
Lemma mk_e_he a b c d e f g h i j k l m n x : set_e_he (Mesh a b c d e f g h i j k l m n) x = Mesh a b c d e f g h i j k l m x.
Proof. reflexivity. Qed.
Ltac flat := rewrite ?mk_v_he, ?mk_he_next, ?mk_he_vert, ?mk_f_he, ?mk_he_edge, ?mk_he_face, ?mk_in_next, ?mk_out_next, ?mk_sib, ?mk_e_he; app_simpl.

Ltac set_simpl := unfold set_v_he, set_he_next, set_he_vert, set_f_he, set_he_edge, set_he_face, set_in_next,
  set_out_next, set_sib, set_e_he; app_simpl.

(** The state between two corners of polygon [fid]. *)
Record mid (m : mesh) (nx : ids) (vs fs : list nat) (nv nf : nat) : Prop := MID {
  mid_next : he_next m = nx;
  mid_vert : he_vert m = map Some vs;
  mid_face : he_face m = map Some fs;
  mid_len : length fs = length vs /\ length nx = length vs;
  mid_edge : he_edge m = nones (length vs);
  mid_in : in_next m = nones (length vs);
  mid_out : out_next m = nones (length vs);
  mid_sib : sib m = nones (length vs);
  mid_nh : n_h m = length vs;
  mid_v : length (v_he m) = nv /\ n_v m = nv;
  mid_f : length (f_he m) = nf /\ n_f m = nf;
  mid_e : e_he m = [] /\ n_e m = 0 }.

Definition points (vh vh' : ids) (N : nat) (q : list nat) : Prop :=
  forall v, (In v q -> exists j, nth_error q j = Some v /\ rd vh' v = Some (N + j)) /\
            (~ In v q -> rd vh' v = rd vh v).

Lemma corners_ok fid q : forall m A vs fs nv nf F,
  mid m (A ++ [None]) vs fs nv nf -> length vs = S (length A) -> (forall v, In v q -> v < nv) ->
  exists m', corners m fid q (Some F) (Some (length A)) = Some (m', Some F, Some (length A + length q)) /\
    mid m' (A ++ map Some (seq (length vs) (length q)) ++ [None]) (vs ++ q) (fs ++ repeat fid (length q)) nv nf /\
    f_he m' = f_he m /\ points (v_he m) (v_he m') (length vs) q.
Proof.
  induction q as [|v q IH]; intros m A vs fs nv nf F [M1 M2 M3 M4 M5 M6 M7 M8 M9 M10 M11 M12] HA Bq.
  - exists m. cbn [corners length seq map app repeat]. rewrite !app_nil_r, Nat.add_0_r. split; [reflexivity|].
    split; [constructor; auto|]. split; [reflexivity|]. intros v. split; [intros []|auto].
  - cbn [corners]. unfold new_halfedges. app_simpl. destruct M4 as [M4 M4'].
    assert (R : forall a : ids, length a = length vs -> resize a (length (he_next m) + 1) = a ++ [None]).
    { intros a Ha. rewrite M1, M4', <- Ha. apply resize_snoc. }
    rewrite (R (he_next m)) by (rewrite M1; auto). rewrite (R (he_vert m)) by (rewrite M2, map_length; auto).
    rewrite (R (he_face m)) by (rewrite M3, map_length; auto).
    rewrite (R (he_edge m)) by (rewrite M5; apply repeat_length).
    rewrite (R (in_next m)) by (rewrite M6; apply repeat_length).
    rewrite (R (out_next m)) by (rewrite M7; apply repeat_length).
    rewrite (R (sib m)) by (rewrite M8; apply repeat_length).
    assert (LH : length (he_next m) = length vs) by (rewrite M1; auto). rewrite LH.
    rewrite (wr_at' (he_vert m)) by (rewrite M2; apply map_length). flat.
    rewrite (wr_at' (he_face m)) by (rewrite M3, map_length; auto). flat.
    destruct (wr_spec (v_he m) v (length vs)) as (vh & E & L & Rv). { destruct M10 as [-> _]. apply Bq. now left. }
    rewrite E. flat. rewrite M1, <- app_assoc. change ([None] ++ [None]) with ([None; None] : ids).
    rewrite wr_at. flat.
    match goal with |- context [corners ?M fid q _ _] => set (m1 := M) end.
    destruct (IH m1 (A ++ [Some (length vs)]) (vs ++ [v]) (fs ++ [fid]) nv nf F) as (m' & E' & M' & F' & P').
    { constructor; unfold m1; set_simpl.
      - rewrite <- app_assoc. reflexivity.
      - rewrite M2, map_app. reflexivity.
      - rewrite M3, map_app. reflexivity.
      - rewrite !app_length. simpl. lia.
      - rewrite M5, nones_snoc, app_length. cbn [length]. f_equal. lia.
      - rewrite M6, nones_snoc, app_length. cbn [length]. f_equal. lia.
      - rewrite M7, nones_snoc, app_length. cbn [length]. f_equal. lia.
      - rewrite M8, nones_snoc, app_length. cbn [length]. f_equal. lia.
      - rewrite M9, app_length. simpl. lia.
      - rewrite L. auto.
      - auto.
      - auto. }
    { rewrite !app_length. simpl. lia. }
    { intros x Hx. apply Bq. now right. }
    exists m'. split; [|split; [|split]].
    + rewrite app_length in E'. simpl length in E'. rewrite HA.
      replace (S (length A)) with (length A + 1) by lia. rewrite E'.
      cbn [length]. do 2 f_equal. f_equal. lia.
    + rewrite app_length in M'. simpl length in M'. replace (length vs + 1) with (S (length vs)) in M' by lia.
      rewrite <- !app_assoc in M'. exact M'.
    + rewrite F'. reflexivity.
    + intros x. destruct (P' x) as [P1 P2]. rewrite app_length in P1. simpl length in P1. unfold m1, set_v_he, set_he_vert, set_he_face, set_f_he, set_he_next in P2. cbn [v_he] in P2.
      split.
      * intros Hx. destruct (in_dec Nat.eq_dec x q) as [I|I].
        -- destruct (P1 I) as (j & Hj & Hr). exists (S j). split; [exact Hj|]. rewrite Hr. f_equal. lia.
        -- destruct Hx as [->|Hx]; [|contradiction]. exists 0. split; auto. rewrite P2 by auto. rewrite Rv, Nat.eqb_refl.
           f_equal. lia.
      * intros Hx. rewrite P2 by (intros C; apply Hx; now right). rewrite Rv.
        rewrite (proj2 (Nat.eqb_neq x v)); auto. intros ->. apply Hx. now left.
Qed.

Definition block (o n : nat) : list nat := seq (o + 1) (n - 1) ++ [o].

Lemma add_polygon_ok fid a q m nx vs fs nv nf :
  mid m nx vs fs nv nf -> fid < nf -> (forall v, In v (a :: q) -> v < nv) ->
  exists m', add_polygon m fid (a :: q) = Some m' /\
    mid m' (nx ++ map Some (block (length vs) (length (a :: q)))) (vs ++ a :: q)
        (fs ++ repeat fid (length (a :: q))) nv nf /\
    (forall f, rd (f_he m') f = if f =? fid then Some (length vs) else rd (f_he m) f) /\
    points (v_he m) (v_he m') (length vs) (a :: q).
Proof.
  intros [M1 M2 M3 M4 M5 M6 M7 M8 M9 M10 M11 M12] Bf Bq.
  unfold add_polygon. cbn [corners]. unfold new_halfedges. app_simpl. destruct M4 as [M4 M4'].
  assert (R : forall a : ids, length a = length vs -> resize a (length (he_next m) + 1) = a ++ [None]).
  { intros x Ha. rewrite M1, M4', <- Ha. apply resize_snoc. }
  rewrite (R (he_next m)) by (rewrite M1; auto). rewrite (R (he_vert m)) by (rewrite M2, map_length; auto).
  rewrite (R (he_face m)) by (rewrite M3, map_length; auto).
  rewrite (R (he_edge m)) by (rewrite M5; apply repeat_length).
  rewrite (R (in_next m)) by (rewrite M6; apply repeat_length).
  rewrite (R (out_next m)) by (rewrite M7; apply repeat_length).
  rewrite (R (sib m)) by (rewrite M8; apply repeat_length).
  assert (LH : length (he_next m) = length vs) by (rewrite M1; auto). rewrite LH.
  rewrite (wr_at' (he_vert m)) by (rewrite M2; apply map_length). flat.
  rewrite (wr_at' (he_face m)) by (rewrite M3, map_length; auto). flat.
  destruct (wr_spec (v_he m) a (length vs)) as (vh & E & L & Rv). { destruct M10 as [-> _]. apply Bq. now left. }
  rewrite E. flat.
  destruct (wr_spec (f_he m) fid (length vs)) as (fh & Ef & Lf & Rf). { destruct M11 as [-> _]. auto. }
  rewrite Ef. flat.
  match goal with |- context [corners ?M fid q _ _] => set (m1 := M) end.
  destruct (corners_ok fid q m1 nx (vs ++ [a]) (fs ++ [fid]) nv nf (length vs)) as (m' & E' & M' & F' & P').
  { constructor; unfold m1; set_simpl.
    - now rewrite M1.
    - rewrite M2, map_app. reflexivity.
    - rewrite M3, map_app. reflexivity.
    - rewrite !app_length. simpl. lia.
    - rewrite M5, nones_snoc, app_length. cbn [length]. f_equal. lia.
    - rewrite M6, nones_snoc, app_length. cbn [length]. f_equal. lia.
    - rewrite M7, nones_snoc, app_length. cbn [length]. f_equal. lia.
    - rewrite M8, nones_snoc, app_length. cbn [length]. f_equal. lia.
    - rewrite M9, app_length. simpl. lia.
    - rewrite L. auto.
    - rewrite Lf. auto.
    - auto. }
  { rewrite !app_length. simpl. lia. }
  { intros x Hx. apply Bq. now right. }
  rewrite M4' in E'. rewrite E'. destruct M' as [N1 N2 N3 N4 N5 N6 N7 N8 N9 N10 N11 N12].
  rewrite N1. rewrite app_assoc.
  replace (length vs + length q) with (length (nx ++ map Some (seq (length (vs ++ [a])) (length q))))
    by (rewrite app_length, map_length, seq_length; lia).
  rewrite wr_at. eexists. split; [reflexivity|]. unfold set_he_next. split; [|split].
  - constructor; app_simpl; auto.
    + unfold block. rewrite <- app_assoc. f_equal. rewrite map_app. rewrite app_length. cbn [length].
      replace (S (length q) - 1) with (length q) by lia. reflexivity.
    + rewrite N2, <- app_assoc. reflexivity.
    + rewrite N3, <- app_assoc. reflexivity.
    + unfold block. rewrite ?app_length, ?map_length, ?app_length, ?seq_length, ?repeat_length in *. simpl in *. lia.
    + rewrite N5, <- app_assoc. reflexivity.
    + rewrite N6, <- app_assoc. reflexivity.
    + rewrite N7, <- app_assoc. reflexivity.
    + rewrite N8, <- app_assoc. reflexivity.
    + rewrite N9, <- app_assoc. reflexivity.
  - intros f. app_simpl. rewrite F'. unfold m1; set_simpl. rewrite Rf. reflexivity.
  - intros x. app_simpl. destruct (P' x) as [P1 P2]. rewrite app_length in P1. simpl length in P1. unfold m1, set_v_he, set_he_vert, set_he_face, set_f_he, set_he_next in P2. cbn [v_he] in P2.
    split.
    + intros Hx. destruct (in_dec Nat.eq_dec x q) as [I|I].
      * destruct (P1 I) as (j & Hj & Hr). exists (S j). split; [exact Hj|]. rewrite Hr. f_equal. lia.
      * destruct Hx as [->|Hx]; [|contradiction]. exists 0. split; auto. rewrite P2 by auto. rewrite Rv, Nat.eqb_refl.
        f_equal. lia.
    + intros Hx. rewrite P2 by (intros C; apply Hx; now right). rewrite Rv.
      rewrite (proj2 (Nat.eqb_neq x a)); auto. intros ->. apply Hx. now left.
Qed.

Fixpoint nexts (o : nat) (ps : list (list nat)) : list nat :=
  match ps with [] => [] | p :: t => block o (length p) ++ nexts (o + length p) t end.
Fixpoint faces (i : nat) (ps : list (list nat)) : list nat :=
  match ps with [] => [] | p :: t => repeat i (length p) ++ faces (S i) t end.
Definition off (ps : list (list nat)) (i : nat) : nat := length (concat (firstn i ps)).

Lemma points_trans a b c N q1 q2 : points a b N q1 -> points b c (N + length q1) q2 -> points a c N (q1 ++ q2).
Proof.
  intros P Q v. destruct (P v) as [P1 P2], (Q v) as [Q1 Q2]. split.
  - intros H. destruct (in_dec Nat.eq_dec v q2) as [I|I].
    + destruct (Q1 I) as (j & J1 & J2). exists (length q1 + j). split.
      * rewrite nth_error_app2 by lia. rewrite <- J1. f_equal. lia.
      * rewrite J2. f_equal. lia.
    + apply in_app_iff in H. destruct H as [H|H]; [|contradiction]. rewrite Q2 by auto.
      destruct (P1 H) as (j & J1 & J2). exists j. split; auto. rewrite nth_error_app1; auto.
      apply nth_error_Some. congruence.
  - intros H. rewrite in_app_iff in H. rewrite Q2, P2; tauto.
Qed.

Lemma add_polygons_ok ps : forall m fid nx vs fs nv nf,
  mid m nx vs fs nv nf -> fid + length ps <= nf -> (forall p, In p ps -> p <> []) ->
  (forall v, In v (concat ps) -> v < nv) ->
  exists m', add_polygons m fid ps = Some m' /\
    mid m' (nx ++ map Some (nexts (length vs) ps)) (vs ++ concat ps) (fs ++ faces fid ps) nv nf /\
    (forall f, f < fid -> rd (f_he m') f = rd (f_he m) f) /\
    (forall i p, nth_error ps i = Some p -> rd (f_he m') (fid + i) = Some (length vs + off ps i)) /\
    points (v_he m) (v_he m') (length vs) (concat ps).
Proof.
  induction ps as [|p ps IH]; intros m fid nx vs fs nv nf M Bf Np Bv.
  - exists m. simpl. rewrite !app_nil_r. split; [reflexivity|]. split; [exact M|]. split; [auto|].
    split; [intros [|i] p H; discriminate|]. intros v. split; [intros []|auto].
  - simpl in Bf. destruct p as [|a q]; [destruct (Np [] (or_introl eq_refl) eq_refl)|].
    destruct (add_polygon_ok fid a q m nx vs fs nv nf M) as (m1 & E1 & M1 & F1 & P1); [lia| |].
    { intros v Hv. apply Bv. apply (in_app_iff (a :: q)). now left. }
    destruct (IH m1 (S fid) _ _ _ _ _ M1) as (m2 & E2 & M2 & F2 & G2 & P2).
    { lia. } { intros p Hp. apply Np. now right. } { intros v Hv. apply Bv. apply (in_app_iff (a :: q)). now right. }
    exists m2. split; [|split; [|split; [|split]]].
    + cbn [add_polygons]. rewrite E1. exact E2.
    + cbn [nexts faces concat]. rewrite map_app, !app_assoc. rewrite app_length in M2. exact M2.
    + intros f Hf. rewrite F2 by lia. rewrite F1. rewrite (proj2 (Nat.eqb_neq _ _)) by lia. reflexivity.
    + intros [|i] p Hp.
      * rewrite Nat.add_0_r. rewrite F2 by lia. rewrite F1, Nat.eqb_refl. unfold off. simpl. f_equal. lia.
      * replace (fid + S i) with (S fid + i) by lia. rewrite (G2 i p Hp). unfold off. cbn [firstn concat].
        rewrite !app_length. f_equal. lia.
    + cbn [concat]. eapply points_trans; eauto. rewrite <- app_length. exact P2.
Qed.

(** * Reading the vectors *)
Lemma off_S ps i p : nth_error ps i = Some p -> off ps (S i) = off ps i + length p.
Proof.
  revert i. induction ps as [|q ps IH]; intros [|i] H; simpl in H; try discriminate.
  - inversion H; subst. unfold off. simpl. rewrite app_nil_r. reflexivity.
  - specialize (IH i H). unfold off in *. cbn [firstn concat] in *. rewrite !app_length in *. lia.
Qed.

Lemma locate ps h : h < length (concat ps) ->
  exists i p j, nth_error ps i = Some p /\ j < length p /\ h = off ps i + j.
Proof.
  revert h. induction ps as [|p ps IH]; simpl; intros h H; [lia|]. rewrite app_length in H.
  destruct (Nat.lt_ge_cases h (length p)).
  - exists 0, p, h. auto.
  - destruct (IH (h - length p)) as (i & q & j & H1 & H2 & H3); [lia|].
    exists (S i), q, j. split; [exact H1|]. split; [exact H2|]. unfold off in *. cbn [firstn concat]. rewrite app_length. lia.
Qed.

Lemma off_le ps i p : nth_error ps i = Some p -> off ps i + length p <= length (concat ps).
Proof.
  revert i. induction ps as [|q ps IH]; intros [|i] H; simpl in H; try discriminate.
  - inversion H; subst. unfold off. simpl. rewrite app_length. lia.
  - specialize (IH i H). unfold off in *. cbn [firstn concat]. rewrite !app_length. lia.
Qed.

Lemma verts_at ps i p j : nth_error ps i = Some p -> j < length p ->
  nth_error (concat ps) (off ps i + j) = nth_error p j.
Proof.
  revert i. induction ps as [|q ps IH]; intros [|i] H Hj; simpl in H; try discriminate.
  - inversion H; subst. unfold off. simpl. apply nth_error_app1. auto.
  - cbn [concat]. rewrite nth_error_app2 by (unfold off; cbn [firstn concat]; rewrite app_length; lia).
    rewrite <- (IH i H Hj). f_equal. unfold off. cbn [firstn concat]. rewrite app_length. lia.
Qed.

Lemma block_len o n : 0 < n -> length (block o n) = n.
Proof. intros H. unfold block. rewrite app_length, seq_length. simpl. lia. Qed.

Lemma block_at o n j : j < n -> nth_error (block o n) j = Some (o + (j + 1) mod n).
Proof.
  intros H. unfold block. destruct (Nat.eq_dec (j + 1) n) as [E|E].
  - rewrite nth_error_app2 by (rewrite seq_length; lia). rewrite seq_length.
    replace (j - (n - 1)) with 0 by lia. rewrite E, Nat.mod_same by lia. simpl. f_equal. lia.
  - rewrite nth_error_app1 by (rewrite seq_length; lia). rewrite Nat.mod_small by lia.
    rewrite (nth_error_nth' _ 0) by (rewrite seq_length; lia). rewrite seq_nth by lia. f_equal. lia.
Qed.

Lemma nexts_len ps : forall o, (forall p, In p ps -> p <> []) -> length (nexts o ps) = length (concat ps).
Proof.
  induction ps as [|p ps IH]; intros o H; simpl; auto. rewrite !app_length, IH by (intros; apply H; now right).
  rewrite block_len; auto. specialize (H p (or_introl eq_refl)). destruct p; [congruence|simpl; lia].
Qed.

Lemma nexts_at ps : forall o i p j, (forall p, In p ps -> p <> []) -> nth_error ps i = Some p -> j < length p ->
  nth_error (nexts o ps) (off ps i + j) = Some (o + off ps i + (j + 1) mod length p).
Proof.
  induction ps as [|q ps IH]; intros o [|i] p j N H Hj; simpl in H; try discriminate; cbn [nexts].
  - inversion H; subst. unfold off. cbn [firstn concat length plus].
    rewrite nth_error_app1 by (rewrite block_len; lia). rewrite block_at by auto. f_equal. lia.
  - assert (Hq : length (block o (length q)) = length q).
    { apply block_len. specialize (N q (or_introl eq_refl)). destruct q; [congruence|simpl; lia]. }
    assert (O : off (q :: ps) (S i) = length q + off ps i) by (unfold off; cbn [firstn concat]; apply app_length).
    rewrite nth_error_app2 by lia. replace (off (q :: ps) (S i) + j - length (block o (length q))) with (off ps i + j) by lia.
    rewrite (IH _ i p j); auto; [|intros; apply N; now right]. f_equal. lia.
Qed.

Lemma faces_len ps : forall i, length (faces i ps) = length (concat ps).
Proof. induction ps as [|p ps IH]; intros i; simpl; auto. rewrite !app_length, repeat_length, IH. reflexivity. Qed.

Lemma nth_repeat_some {A} (x : A) n j : j < n -> nth_error (repeat x n) j = Some x.
Proof. revert j. induction n; intros [|j] H; simpl; try lia; auto. apply IHn. lia. Qed.

Lemma faces_at ps : forall k i p j, nth_error ps i = Some p -> j < length p ->
  nth_error (faces k ps) (off ps i + j) = Some (k + i).
Proof.
  induction ps as [|q ps IH]; intros k [|i] p j H Hj; simpl in H; try discriminate; cbn [faces].
  - inversion H; subst. unfold off. cbn [firstn concat length plus].
    rewrite nth_error_app1 by (rewrite repeat_length; lia). rewrite nth_repeat_some by auto. f_equal. lia.
  - assert (O : off (q :: ps) (S i) = length q + off ps i) by (unfold off; cbn [firstn concat]; apply app_length).
    rewrite nth_error_app2 by (rewrite repeat_length; lia). rewrite repeat_length.
    replace (off (q :: ps) (S i) + j - length q) with (off ps i + j) by lia.
    rewrite (IH _ i p j); auto. f_equal. lia.
Qed.

Lemma windows_len l : length (windows l) = length l.
Proof. destruct l as [|a t]; auto. unfold windows. rewrite combine_length, app_length. cbn [length]. lia. Qed.

Lemma nth_error_combine {A B} (l : list A) (k : list B) j : 
  nth_error (combine l k) j = match nth_error l j, nth_error k j with Some a, Some b => Some (a, b) | _, _ => None end.
Proof.
  revert k j. induction l as [|a l IH]; intros [|b k] [|j]; simpl; auto.
  - destruct (nth_error l j); reflexivity.
Qed.

Lemma windows_at l j : j < length l ->
  nth_error (windows l) j = Some (nth j l 0, nth ((j + 1) mod length l) l 0).
Proof.
  destruct l as [|a t]; [simpl; lia|]. intros H. unfold windows. rewrite nth_error_combine.
  rewrite (nth_error_nth' _ 0 H). cbn [length] in *. destruct (Nat.eq_dec j (length t)) as [->|E].
  - rewrite nth_error_app2 by lia. rewrite Nat.sub_diag. replace (length t + 1) with (S (length t)) by lia.
    rewrite Nat.mod_same by lia. reflexivity.
  - rewrite nth_error_app1 by lia. rewrite (nth_error_nth' t 0) by lia.
    rewrite Nat.mod_small by lia. replace (j + 1) with (S j) by lia. reflexivity.
Qed.

Lemma ws_at ps i p j : nth_error ps i = Some p -> j < length p ->
  nth_error (concat (map windows ps)) (off ps i + j) = nth_error (windows p) j.
Proof.
  revert i. induction ps as [|q ps IH]; intros [|i] H Hj; simpl in H; try discriminate.
  - inversion H; subst. unfold off. simpl. apply nth_error_app1. rewrite windows_len. auto.
  - assert (O : off (q :: ps) (S i) = length q + off ps i) by (unfold off; cbn [firstn concat]; apply app_length).
    cbn [map concat]. rewrite nth_error_app2; rewrite windows_len; [|lia].
    rewrite <- (IH i H Hj). f_equal. lia.
Qed.

Lemma ws_len ps : length (concat (map windows ps)) = length (concat ps).
Proof. induction ps as [|p ps IH]; simpl; auto. rewrite !app_length, windows_len, IH. reflexivity. Qed.

Lemma rd_map l h : rd (map Some l) h = nth_error l h.
Proof. unfold rd. rewrite nth_error_map. destruct (nth_error l h); reflexivity. Qed.

Lemma path_range (f : nat -> option nat) o n z : forall k, k < n ->
  (forall j, j + 1 < n -> f (o + j) = Some (o + j + 1)) -> f (o + (n - 1)) = Some z ->
  path f (o + k) (seq (o + k + 1) (n - k - 1)) z.
Proof.
  intros k. remember (n - k - 1) as r eqn:R. revert k R. induction r as [|r IH]; intros k R Hk Hf Hz; simpl.
  - replace k with (n - 1) by lia. exact Hz.
  - split; [apply Hf; lia|]. replace (o + k + 1) with (o + (k + 1)) by lia.
    replace (S (o + (k + 1))) with (o + (k + 1) + 1) by lia. apply IH; auto; lia.
Qed.

Lemma linked_range (f : nat -> option nat) o n : 0 < n ->
  (forall j, j < n -> f (o + j) = Some (o + (j + 1) mod n)) -> linked f (seq o n).
Proof.
  intros Hn H. destruct n as [|n]; [lia|]. cbn [seq linked].
  pose proof (path_range f o (S n) o 0) as P. rewrite Nat.add_0_r in P.
  replace (o + 1) with (S o) in P by lia. replace (S n - 0 - 1) with n in P by lia. apply P; [lia| |].
  - intros j Hj. rewrite H by lia. rewrite Nat.mod_small by lia. rewrite Nat.add_assoc. reflexivity.
  - rewrite H by lia. replace (S n - 1 + 1) with (S n) by lia. rewrite Nat.mod_same by lia. f_equal. lia.
Qed.

(** The state after the first pass. *)
Record pass1 (m : mesh) (ps : list (list nat)) (nv : nat) : Prop := P1 {
  p1_len : he_next m = map Some (nexts 0 ps) /\ he_vert m = map Some (concat ps) /\ he_face m = map Some (faces 0 ps);
  p1_nones : he_edge m = nones (length (concat ps)) /\ in_next m = nones (length (concat ps)) /\
    out_next m = nones (length (concat ps)) /\ sib m = nones (length (concat ps));
  p1_counts : n_h m = length (concat ps) /\ length (v_he m) = nv /\ n_v m = nv /\ length (f_he m) = length ps /\
    n_f m = length ps /\ e_he m = [] /\ n_e m = 0;
  p1_face : forall i p, nth_error ps i = Some p -> rd (f_he m) i = Some (off ps i);
  p1_vert : forall v, (exists h, rd (v_he m) v = Some h /\ rd (he_vert m) h = Some v) \/
    (rd (v_he m) v = None /\ ~ In v (concat ps)) }.

Lemma pass1_ok ps nv : (forall p, In p ps -> p <> []) -> (forall v, In v (concat ps) -> v < nv) ->
  exists m, add_polygons (Mesh (repeat None nv) [] [] (repeat None (length ps)) nv 0 (length ps) 0 [] [] [] [] [] []) 0 ps
    = Some m /\ pass1 m ps nv.
Proof.
  intros Np Bv. set (m0 := Mesh _ _ _ _ _ _ _ _ _ _ _ _ _ _).
  destruct (add_polygons_ok ps m0 0 [] [] [] nv (length ps)) as (m & E & M & _ & F & P); auto.
  { constructor; simpl; auto; rewrite repeat_length; auto. }
  exists m. split; [exact E|]. destruct M as [M1 M2 M3 M4 M5 M6 M7 M8 M9 M10 M11 M12]. simpl in *.
  constructor; auto.
  - tauto.
  - intros v. destruct (P v) as [P1 P2]. destruct (in_dec Nat.eq_dec v (concat ps)) as [I|I].
    + left. destruct (P1 I) as (j & H1 & H2). exists j. split; auto. rewrite M2, rd_map. exact H1.
    + right. split; auto. rewrite P2 by auto. unfold rd. 
      destruct (nth_error (repeat None nv) v) as [[x|]|] eqn:Q; auto.
      apply nth_error_In in Q. apply repeat_spec in Q. discriminate.
Qed.
