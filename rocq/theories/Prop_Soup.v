(** C38 (renumbering of polygon vertices), C39 (triangles and parents of a
    soup), C46 (remove_duplicates), C47 (degenerate triangles), C51 (lists of
    coplanar triangles). *)
From Coq Require Import ZArith Reals List Arith Bool Lia Lra Permutation Sorted.
From Flocq Require Import Core BinarySingleNaN.
From Verif Require Import Lib Geo F64 F64Facts PointTests Prop_PointTests Soup SoupProofs SoupFloat.
Import ListNotations.

(** * C38 *)

(** Whatever the order in which the hash map is walked: the new indices are
    0, 1, ... for the distinct old ones, and looking a new index up in the
    second list gives the old one back. *)
Theorem C38_unique_indices iter l : (forall m, Permutation (iter m) m) ->
  exists new ori, unique_indices iter l = Some (new, ori) /\ NoDup ori /\ (forall x, In x ori <-> In x l) /\
    length new = length l /\ (forall k i, nth_error new k = Some i -> nth_error ori i = nth_error l k).
Proof. apply unique_indices_ok. Qed.
(** The polygon's triangulation is the triangulation of its renumbered
    vertices, with the old indices put back: every index returned is one of the
    segment list, and the 2-dimensional points are the coordinates of the vertices
    along x and y, counted from o. *)
Definition along (o x p : f64 * f64 * f64) : f64 :=
  match o, x, p with (o0, o1, o2), (x0, x1, x2), (p0, p1, p2) =>
    fadd (fadd (fmul (fsub p0 o0) x0) (fmul (fsub p1 o1) x1)) (fmul (fsub p2 o2) x2) end.
Theorem C38_triangulate_polygon iter tri points segments o x y r : (forall m, Permutation (iter m) m) ->
  triangulate_polygon iter tri points segments o x y = Some r ->
  (forall v, In v r -> In v segments) /\
  exists new ori pts t, NoDup ori /\ (forall v, In v ori <-> In v segments) /\
    (forall k i, nth_error new k = Some i -> nth_error ori i = nth_error segments k) /\
    length new = length segments /\ length pts = length ori /\
    (forall i v, nth_error ori i = Some v -> exists p, point3 points v = Some p /\ nth_error pts i = Some (along o x p, along o y p)) /\
    tri pts new = Some t /\ map Some r = map (nth_error ori) t.
Proof.
  intros P H. unfold triangulate_polygon in H.
  destruct (unique_indices_ok iter segments P) as (new & ori & E & ND & I & L & U). rewrite E in H.
  match type of H with match ?o with _ => _ end = _ => destruct o as [pts|] eqn:Ep; [|discriminate] end.
  destruct (tri pts new) as [t|] eqn:Et; [|discriminate].
  apply omap_some in H. destruct H as (Lr & Hr). apply omap_some in Ep. destruct Ep as (Lp & Hp).
  assert (M : map Some r = map (nth_error ori) t).
  { symmetry. apply nth_error_ext_len; [rewrite !map_length; auto|]. intros i z Hz.
    rewrite nth_error_map in Hz. destruct (nth_error t i) as [j|] eqn:Ej; [|discriminate]. cbn in Hz. inversion Hz; subst.
    rewrite nth_error_map. destruct (nth_error r i) as [v|] eqn:Ev; [cbn; f_equal; symmetry; eauto|].
    apply nth_error_None in Ev. assert (i < length t) by (apply nth_error_Some; congruence). lia. }
  split.
  - intros v Hv. apply I. apply (in_map Some) in Hv. rewrite M in Hv. apply in_map_iff in Hv. destruct Hv as (j & Hj & _).
    eapply nth_error_In; eauto.
  - exists new, ori, pts, t. repeat split; auto; try apply I.
    intros i v Ev. destruct (nth_error pts i) as [q|] eqn:Eq.
    + specialize (Hp _ _ _ Ev Eq). destruct (point3 points v) as [p|]; [|discriminate]. exists p. split; [reflexivity|].
      injection Hp as <-. destruct o as ((o0, o1), o2), x as ((x0, x1), x2), y as ((y0, y1), y2), p as ((p0, p1), p2). reflexivity.
    + apply nth_error_None in Eq. apply nth_error_lt in Ev. lia.
Qed.
Example C38_case : unique_indices (@rev _) [7; 3; 3; 9; 9; 7] = Some ([0; 1; 1; 2; 2; 0], [7; 3; 9]).
Proof. reflexivity. Qed.
Example C38_square :
  let f := fl in
  triangulate_polygon (fun m => m) (fun pts segs => if (length pts =? 4) && (length segs =? 8) then Some [0; 1; 2; 0; 2; 3] else None)
    (flat_map (fun i => [f (Z.of_nat i) 0; f (Z.of_nat (i * i)) 0; f 0 0]%Z) (seq 0 10))
    [5; 8; 8; 2; 2; 6; 6; 5] (f 0 0, f 0 0, f 0 0)%Z (f 1 0, f 0 0, f 0 0)%Z (f 0 0, f 1 0, f 0 0)%Z
  = Some [5; 8; 2; 5; 2; 6].
Proof. vm_compute. reflexivity. Qed.

(** * C39 *)

Definition coords (p : f64 * f64 * f64) : list f64 := [fst (fst p); snd (fst p); snd p].
Lemma axis_chunk_at axes q o x y : axis_chunk axes q = Some (o, x, y) -> forall j, j < 9 -> nth_error axes (9 * q + j) = nth_error (coords o ++ coords x ++ coords y) j.
Proof.
  unfold axis_chunk. intros E j Hj.
  assert (A : forall (l : list f64) k i, nth_error (skipn k l) i = nth_error l (k + i)) by (induction l as [|v l IH]; intros [|k] i; cbn; auto; destruct i; reflexivity).
  assert (B : forall (l : list f64) k i, i < k -> nth_error (firstn k l) i = nth_error l i) by (induction l as [|v l IH]; intros [|k] [|i] H; cbn; auto; try lia; apply IH; lia).
  rewrite <- A, <- (B _ 9 j Hj). destruct (firstn 9 _) as [|a0 [|a1 [|a2 [|a3 [|a4 [|a5 [|a6 [|a7 [|a8 [|a9 l]]]]]]]]]]; try discriminate. injection E as <- <- <-. reflexivity.
Qed.
(** One parent per triangle; the triangles of face q with their local number j
    stand after those of the earlier faces, with q as parent, and there are no
    others.  Face q is projected with the nine entries of the axes from 9q on.
    ([triple l k] is the list of the entries 3k, 3k+1, 3k+2 of l.)  The
    triangulation of a face has a multiple of three entries. *)
Theorem C39_soup iter tri points edges axes triangles parents :
  (forall pts s t, tri pts s = Some t -> exists m, length t = 3 * m) ->
  triangulate_polygon_soup iter tri points edges axes = Some (triangles, parents) ->
  exists fs : list (list nat), length fs = min (length edges) ((length axes + 8) / 9) /\
    (forall q f, nth_error fs q = Some f -> exists segments o x y, nth_error edges q = Some segments /\
       (forall j, j < 9 -> nth_error axes (9 * q + j) = nth_error (coords o ++ coords x ++ coords y) j) /\ triangulate_polygon iter tri points segments o x y = Some f) /\
    triangles = concat fs /\
    length triangles = 3 * length parents /\ Sorted le parents /\
    (forall k q, nth_error parents k = Some q <->
       exists f j, nth_error fs q = Some f /\ 3 * j < length f /\ k = length (concat (firstn q fs)) / 3 + j) /\
    (forall q f j, nth_error fs q = Some f -> 3 * j < length f ->
       triple triangles (length (concat (firstn q fs)) / 3 + j) = triple f j).
Proof.
  intros T3 H. unfold triangulate_polygon_soup in H. apply soup_loop_ok in H. destruct H as (fs & Lf & Hf & E).
  cbn [app] in E. inversion E; subst. rewrite Nat.sub_0_r in Lf. cbn [Nat.add] in Hf.
  assert (F : Forall full fs).
  { apply Forall_forall. intros f Hin. apply In_nth_error in Hin. destruct Hin as (i & Hi).
    destruct (Hf i f Hi) as (s & _ & O). destruct (axis_chunk axes i) as [((o & x) & y)|]; [|discriminate].
    unfold triangulate_polygon in O. destruct (unique_indices iter s) as [(new & ori)|]; [|discriminate].
    match type of O with match ?o with _ => _ end = _ => destruct o as [pts|]; [|discriminate] end.
    destruct (tri pts new) as [t|] eqn:Et; [|discriminate]. apply omap_some in O. destruct O as (L & _).
    apply T3 in Et. destruct Et as (m & Em). unfold full. rewrite L, Em, (Nat.mul_comm 3 m), Nat.div_mul by lia. lia. }
  assert (J : forall f j, In f fs -> 3 * j < length f <-> j < length f / 3).
  { intros f j Hin. rewrite Forall_forall in F. specialize (F f Hin). unfold full in F. lia. }
  exists fs. split; auto. split.
  { intros q f Hq. destruct (Hf q f Hq) as (s & Hs & O). destruct (axis_chunk axes q) as [((o & x) & y)|] eqn:Ea; [|discriminate].
    exists s, o, x, y. split; [exact Hs|]. split; [now apply axis_chunk_at|exact O]. }
  destruct (concat_full fs F) as (Fc & Lp). split; auto. split; [rewrite Lp; exact Fc|]. split; [apply parents_sorted|]. split.
  - intros k q. rewrite parents_at by auto. split.
    + intros (q' & f & j & -> & Hq & Hj & ->). exists f, j. split; auto. split; auto. apply J; auto. eapply nth_error_In; eauto.
    + intros (f & j & Hq & Hj & ->). exists q, f, j. apply J in Hj; [auto|eapply nth_error_In; eauto].
  - intros q f j Hq Hj. apply triple_concat; auto. apply J in Hj; auto. eapply nth_error_In; eauto.
Qed.
Example C39_case : let f := fl in
  triangulate_polygon_soup (fun m => m)
    (fun pts segs => if length pts =? 4 then Some [0; 1; 2; 0; 2; 3] else if length pts =? 3 then Some [2; 0; 1] else None)
    (flat_map (fun i => [f (Z.of_nat i) 0; f (Z.of_nat (i * i)) 0; f 0 0]%Z) (seq 0 10))
    [[5; 8; 8; 2; 2; 6; 6; 5]; [1; 2; 2; 3; 3; 1]] (repeat (f 1 0) 18)%Z
  = Some ([5; 8; 2; 5; 2; 6; 3; 1; 2], [0; 0; 1]).
Proof. vm_compute. reflexivity. Qed.

(** * C51 *)
Theorem C51_insert_coplanar src dest n : StronglySorted lt dest ->
  StronglySorted lt (insert_coplanar_triangles src dest n) /\ NoDup (insert_coplanar_triangles src dest n) /\
  forall x, In x (insert_coplanar_triangles src dest n) <-> In x dest \/ (In x src /\ x < n).
Proof.
  intros H. destruct (insert_coplanar_ok n src dest H) as (A & B). split; auto. split; auto.
  clear -A. induction A as [|a l Sl IH Hl]; constructor; auto. intros I. rewrite Forall_forall in Hl. apply Hl in I. lia.
Qed.
Example C51_case : insert_coplanar_triangles [7; 2; 30; 7; 0] [1; 2; 9] 10 = [0; 1; 2; 7; 9].
Proof. reflexivity. Qed.

(** * C47 *)
Definition pos (p : f64 * f64 * f64) : vec3 := let '(x, y, z) := p in V3 (B2R x) (B2R y) (B2R z).
(** Triangle number k has the corners a, b, c after merging, and is no
    degenerate one. *)
Definition proper_triangle (points : list f64) (pmap triangles : list nat) (k a b c : nat) : Prop :=
  exists t0 t1 t2 pa pb pc,
    nth_error triangles (3 * k) = Some t0 /\ nth_error triangles (3 * k + 1) = Some t1 /\ nth_error triangles (3 * k + 2) = Some t2 /\
    nth_error pmap t0 = Some a /\ nth_error pmap t1 = Some b /\ nth_error pmap t2 = Some c /\
    a <> b /\ b <> c /\ c <> a /\
    point3 points a = Some pa /\ point3 points b = Some pb /\ point3 points c = Some pc /\
    ~ collinear (pos pa) (pos pb) (pos pc).
Definition mis_f64 p q r := mis_alignment (pos p) (pos q) (pos r).

Lemma keep_spec points pmap shells : forall m tris idx, length tris = 3 * m -> idx + m <= length shells ->
  (forall t, In t tris -> exists a, nth_error pmap t = Some a) -> (forall a, In a pmap -> exists p, point3 points a = Some p) ->
  exists kept, keep_triangles mis_f64 points pmap shells tris idx [] [] =
      Some (flat_map (fun kt => let '(k, (a, b, c)) := kt in [a; b; c]) kept, map (fun kt => nth (idx + fst kt) shells 0) kept) /\
    StronglySorted lt (map fst kept) /\
    (forall k a b c, In (k, (a, b, c)) kept <-> k < m /\ proper_triangle points pmap tris k a b c).
Proof.
  induction m as [|m IH]; intros tris idx L Ls Ht Hp.
  - destruct tris; cbn in L; [|lia]. exists []. cbn. split; auto. split; [constructor|]. intros; split; [tauto|lia].
  - destruct tris as [|t0 [|t1 [|t2 rest]]]; cbn [length] in L; try lia.
    destruct (IH rest (S idx)) as (kept & E & So & In'); [lia|lia|intros; apply Ht; cbn; auto|auto|].
    assert (Sh : forall k a b c, proper_triangle points pmap (t0 :: t1 :: t2 :: rest) (S k) a b c <-> proper_triangle points pmap rest k a b c).
    { intros k a b c. unfold proper_triangle. replace (3 * S k) with (S (S (S (3 * k)))) by lia. cbn [nth_error Nat.add]. reflexivity. }
    set (kept' := map (fun kt => (S (fst kt), snd kt)) kept).
    assert (K1 : flat_map (fun kt => let '(k, (a, b, c)) := kt in [a; b; c]) kept' =
                 flat_map (fun kt : nat * (nat * nat * nat) => let '(k, (a, b, c)) := kt in [a; b; c]) kept).
    { unfold kept'. clear. induction kept as [|(k, ((a, b), c)) kept IH]; cbn; auto. now rewrite IH. }
    assert (K2 : map (fun kt => nth (idx + fst kt) shells 0) kept' = map (fun kt => nth (S idx + fst kt) shells 0) kept).
    { unfold kept'. rewrite map_map. apply map_ext. intros (k, x). cbn [fst]. f_equal. lia. }
    assert (K3 : StronglySorted lt (map fst kept')).
    { unfold kept'. rewrite map_map. cbn [fst]. clear -So. induction kept as [|(k, x) kept IH]; cbn in *; constructor; inversion So as [|? ? S1 S2]; subst; auto.
      rewrite Forall_forall in *. intros y Hy. apply in_map_iff in Hy. destruct Hy as (z & <- & Hz). apply -> Nat.succ_lt_mono. apply S2. now apply in_map. }
    assert (K4 : forall k a b c, In (k, (a, b, c)) kept' <-> 0 < k /\ k < S m /\ proper_triangle points pmap (t0 :: t1 :: t2 :: rest) k a b c).
    { intros k a b c. unfold kept'. rewrite in_map_iff. split.
      - intros ((k' & abc) & H & Hin). cbn in H. inversion H; subst. apply In' in Hin. destruct Hin as (A & B). split; [lia|]. split; [lia|]. now apply Sh.
      - intros (A & B & C). destruct k as [|k]; [lia|]. exists (k, (a, b, c)). split; auto. apply In'. split; [lia|]. now apply Sh. }
    destruct (Ht t0) as (a & Ha); [cbn; auto|]. destruct (Ht t1) as (b & Hb); [cbn; auto|]. destruct (Ht t2) as (c & Hc); [cbn; auto|].
    destruct (Hp a) as (pa & Pa); [eapply nth_error_In; eauto|]. destruct (Hp b) as (pb & Pb); [eapply nth_error_In; eauto|].
    destruct (Hp c) as (pc & Pc); [eapply nth_error_In; eauto|].
    assert (Uniq : forall a' b' c', proper_triangle points pmap (t0 :: t1 :: t2 :: rest) 0 a' b' c' ->
       a' = a /\ b' = b /\ c' = c /\ a <> b /\ b <> c /\ c <> a /\ ~ collinear (pos pa) (pos pb) (pos pc)).
    { intros a' b' c' (u0 & u1 & u2 & qa & qb & qc & H0 & H1 & H2 & H3 & H4 & H5 & H6 & H7 & H8 & H9 & H10 & H11 & H12).
      cbn in H0, H1, H2. inversion H0; inversion H1; inversion H2; subst. rewrite Ha in H3. rewrite Hb in H4. rewrite Hc in H5.
      inversion H3; inversion H4; inversion H5; subst. rewrite Pa in H9. rewrite Pb in H10. rewrite Pc in H11.
      inversion H9; inversion H10; inversion H11; subst. auto 10. }
    cbn [keep_triangles]. rewrite Ha, Hb, Hc.
    destruct ((a =? b) || (b =? c) || (c =? a)) eqn:D.
    { rewrite E. exists kept'. rewrite K1, K2. split; auto. split; auto. intros k a' b' c'. rewrite K4. split; [tauto|]. intros (A & B).
      split; auto. destruct k; [|lia]. exfalso. apply Uniq in B. destruct B as (_ & _ & _ & B1 & B2 & B3 & _).
      apply orb_prop in D. destruct D as [D|D]; [apply orb_prop in D; destruct D as [D|D]|]; apply Nat.eqb_eq in D; auto. }
    apply orb_false_elim in D. destruct D as (D & D3). apply orb_false_elim in D. destruct D as (D1 & D2).
    apply Nat.eqb_neq in D1, D2, D3. rewrite Pa, Pb, Pc.
    destruct (mis_f64 pa pb pc) eqn:M; cbn [negb].
    + assert (Hs : exists s, nth_error shells idx = Some s) by (destruct (nth_error shells idx) eqn:Es; eauto; apply nth_error_None in Es; lia).
      destruct Hs as (s & Hs). rewrite Hs. cbn [app].
      pose proof (keep_acc mis_f64 points pmap shells (length rest) rest (S idx) [a; b; c] [s] (le_n _)) as Ac. rewrite E in Ac. rewrite Ac.
      exists ((0, (a, b, c)) :: kept'). cbn [flat_map map fst]. rewrite K1, K2. split.
      { rewrite Nat.add_0_r, (nth_error_nth _ _ 0 Hs). reflexivity. }
      split.
      * constructor; auto. apply Forall_forall. intros k Hk. apply in_map_iff in Hk. destruct Hk as ((k' & ((x & y) & z)) & <- & Hk). apply K4 in Hk. cbn. lia.
      * intros k a' b' c'. cbn [In]. rewrite K4. split.
        { intros [H|H]; [|tauto]. inversion H; subst. split; [lia|]. exists t0, t1, t2, pa, pb, pc. cbn. repeat split; auto.
          unfold mis_f64 in M. now apply mis_alignment_true in M. }
        intros (A & B). destruct k as [|k]; [left|right; split; [lia|split; auto]]. apply Uniq in B. destruct B as (-> & -> & -> & _). reflexivity.
    + rewrite E. exists kept'. rewrite K1, K2. split; auto. split; auto. intros k a' b' c'. rewrite K4. split; [tauto|]. intros (A & B).
      split; auto. destruct k; [|lia]. exfalso. apply Uniq in B. destruct B as (_ & _ & _ & _ & _ & _ & B). apply B. now apply mis_alignment_spec.
Qed.

(** The triangles passed on are, in order, exactly the proper ones, each with
    its shell number. *)
Theorem C47_degenerate points pmap shells m triangles : length triangles = 3 * m -> m <= length shells ->
  (forall t, In t triangles -> exists a, nth_error pmap t = Some a) -> (forall a, In a pmap -> exists p, point3 points a = Some p) ->
  exists kept : list (nat * (nat * nat * nat)),
    keep_triangles mis_f64 points pmap shells triangles 0 [] [] =
      Some (flat_map (fun kt => let '(k, (a, b, c)) := kt in [a; b; c]) kept, map (fun kt => nth (fst kt) shells 0) kept) /\
    StronglySorted lt (map fst kept) /\
    (forall k a b c, In (k, (a, b, c)) kept <-> k < m /\ proper_triangle points pmap triangles k a b c).
Proof. intros L Ls Ht Hp. apply (keep_spec points pmap shells m triangles 0); auto. Qed.

(** Three triangles: a proper one, one with two equal corners after merging,
    and a proper one with the merged corner. *)
Example C47_case : exists kept : list (nat * (nat * nat * nat)),
  keep_triangles mis_f64 [fl 0 0; fl 0 0; fl 0 0; fl 1 0; fl 0 0; fl 0 0; fl 0 0; fl 1 0; fl 0 0]%Z [0; 1; 2; 1] [7; 8; 9]
    [0; 1; 2; 1; 2; 3; 3; 0; 2] 0 [] [] =
    Some (flat_map (fun kt => let '(k, (a, b, c)) := kt in [a; b; c]) kept, map (fun kt => nth (fst kt) [7; 8; 9] 0) kept) /\
  map fst kept = [0; 2] /\ In (2, (1, 0, 2)) kept.
Proof.
  set (points := [_; _; _; _; _; _; _; _; _]).
  destruct (C47_degenerate points [0; 1; 2; 1] [7; 8; 9] 3 [0; 1; 2; 1; 2; 3; 3; 0; 2] eq_refl (le_n _)) as (kept & E & So & I).
  - intros t Ht. cbn in Ht. repeat (destruct Ht as [<-|Ht]; [eexists; reflexivity|]). destruct Ht.
  - intros t Ht. cbn in Ht. repeat (destruct Ht as [<-|Ht]; [eexists; apply point3_at; cbn; lia|]). destruct Ht.
  - exists kept. split; auto.
    destruct (pow2_val 0) as (V1 & _ & _); [lia|]. unfold pow2 in V1. cbn [bpow] in V1.
    assert (V0 : B2R (fl 0 0) = 0%R) by reflexivity.
    assert (A : In (0, (0, 1, 2)) kept).
    { apply I. split; [lia|]. do 6 eexists. do 6 (split; [reflexivity|]). do 3 (split; [discriminate|]).
      do 3 (split; [apply point3_at; cbn; lia|]). unfold collinear, pos, at3, points. cbn [nth Nat.mul Nat.add]. rewrite V1, V0.
      unfold cross, vsub, vzero. cbn [vx vy vz]. intros H. inversion H. lra. }
    assert (B : In (2, (1, 0, 2)) kept).
    { apply I. split; [lia|]. do 6 eexists. do 6 (split; [reflexivity|]). do 3 (split; [discriminate|]).
      do 3 (split; [apply point3_at; cbn; lia|]). unfold collinear, pos, at3, points. cbn [nth Nat.mul Nat.add]. rewrite V1, V0.
      unfold cross, vsub, vzero. cbn [vx vy vz]. intros H. inversion H. lra. }
    split; auto.
    assert (F : forall k, In k (map fst kept) -> k = 0 \/ k = 2).
    { intros k Hk. apply in_map_iff in Hk. destruct Hk as ((k' & ((a & b) & c)) & <- & Hk). cbn [fst]. apply I in Hk. destruct Hk as (L & P).
      destruct k' as [|[|[|k']]]; auto; [|lia]. exfalso. destruct P as (t0 & t1 & t2 & pa & pb & pc & H0 & H1 & H2 & H3 & H4 & H5 & H6 & H7 & H8 & _).
      cbn in H0, H1, H2. inversion H0; inversion H1; inversion H2; subst. cbn in H3, H5. congruence. }
    apply (in_map fst) in A, B. cbn [fst] in A, B. revert A B F So. generalize (map fst kept). clear. intros l A B F So.
    destruct l as [|a [|b l]]; cbn [In] in *; [tauto|lia|].
    inversion So as [|? ? S1 S2]; subst. inversion S1 as [|? ? S3 S4]; subst. rewrite Forall_forall in S2, S4.
    pose proof (F a (or_introl eq_refl)). pose proof (F b (or_intror (or_introl eq_refl))). pose proof (S2 b (or_introl eq_refl)).
    assert (a = 0 /\ b = 2) by lia. destruct l as [|c l]; [destruct H2; subst; auto|].
    pose proof (F c (or_intror (or_intror (or_introl eq_refl)))). pose proof (S4 c (or_introl eq_refl)). lia.
Qed.

(** * C46 *)
(** [sort] orders the indices by the lexicographic order of the points. *)
Definition sorts (points : list f64) (sort : list nat -> list nat) : Prop :=
  forall l, (forall i, In i l -> 3 * i + 3 <= length points) ->
    Permutation (sort l) l /\ Sorted (fun i k => ~ lex_lt (val3 (at3 points k)) (val3 (at3 points i))) (sort l).

(** There is such a function. *)
Lemma lex_dec p q : {lex_lt p q} + {~ lex_lt p q}.
Proof.
  destruct p as ((a, b), c), q as ((d, e), f). cbn.
  destruct (Rlt_dec a d); [left; lra|]. destruct (Req_EM_T a d); [|right; lra].
  destruct (Rlt_dec b e); [left; lra|]. destruct (Req_EM_T b e); [|right; lra]. destruct (Rlt_dec c f); [left; lra|right; lra].
Qed.
Example sorts_exist points : exists sort, sorts points sort.
Proof.
  set (V i := val3 (at3 points i)).
  set (ins := fix ins x l := match l with [] => [x] | y :: t => if lex_dec (V y) (V x) then y :: ins x t else x :: l end).
  exists (fold_right ins []). intros l _. fold (V). split.
  - induction l as [|x l IH]; cbn [fold_right]; auto. eapply Permutation_trans; [|apply perm_skip, IH].
    generalize (fold_right ins [] l). clear. intros l. induction l as [|y t IH]; cbn [ins]; auto. destruct (lex_dec (V y) (V x)); auto.
    eapply Permutation_trans; [apply perm_skip, IH|apply perm_swap].
  - change (Sorted (fun i k => ~ lex_lt (V k) (V i)) (fold_right ins [] l)).
    induction l as [|x l IH]; cbn [fold_right]; auto.
    revert IH. generalize (fold_right ins [] l). clear. intros l. induction l as [|y t IH]; cbn [ins]; intros Sl; auto.
    destruct (lex_dec (V y) (V x)) as [H|H].
    + inversion Sl as [|? ? S1 S2]; subst. specialize (IH S1). constructor; auto.
      destruct t as [|z t]; cbn [ins]; [constructor; intros G; eapply lex_irrefl, lex_trans; eauto|].
      destruct (lex_dec (V z) (V x)); constructor; [inversion S2; auto|intros G; eapply lex_irrefl, lex_trans; eauto].
    + constructor; auto.
Qed.

Theorem C46_merge_partial points epsilon sort :
  (forall x, In x points -> is_finite x = true) -> 3 <= length points -> sorts points sort ->
  is_finite epsilon = true -> B2R epsilon <> 0%R -> (-1021 <= get_exponent epsilon <= 1023)%Z ->
  (forall x, In x points -> (Rabs (B2R x) <= bpow radix2 1023 /\ Rabs (B2R x) <= bpow radix2 1022 * bpow radix2 (get_exponent epsilon - 1))%R) ->
  exists out pmap, remove_duplicates sort points epsilon = Some (out, pmap) /\ length pmap = length points / 3 /\
    (** every point goes to an output point nearer than epsilon *)
    (forall i, i < length points / 3 -> exists o, nth_error pmap i = Some o /\ 3 * o + 3 <= length out /\
       forall axis, axis < 3 -> is_finite (nth (3 * o + axis) out fzero) = true /\
         (Rabs (B2R (nth (3 * o + axis) out fzero) - B2R (nth (3 * i + axis) points fzero)) <= Rabs (B2R epsilon) / 4)%R) /\
    (** two points go to the same one exactly if they are equal *)
    (forall i j, i < length points / 3 -> j < length points / 3 ->
       nth_error pmap i = nth_error pmap j <-> val3 (at3 points i) = val3 (at3 points j)) /\
    (** no output point is superfluous *)
    (forall o, 3 * o + 3 <= length out -> exists i, i < length points / 3 /\ nth_error pmap i = Some o).
Proof.
  intros Fin Ln So Fe Ne He Mag. set (n := length points / 3) in *.
  assert (In3 : forall i, i < n -> 3 * i + 3 <= length points) by (intros; apply in_points; auto).
  unfold remove_duplicates. unfold feq. rewrite Beqb_correct by auto.
  rewrite Req_bool_false by (cbn; auto). fold n.
  destruct (So (seq 0 n)) as (Pm & Srt); [intros i Hi; apply in_seq in Hi; apply In3; lia|].
  assert (N1 : 1 <= n) by (unfold n; change 1 with (3 / 3); apply Nat.div_le_mono; lia).
  assert (Ps : forall i, In i (sort (seq 0 n)) <-> i < n).
  { intros i. split; intros H; [eapply Permutation_in in H; [|exact Pm]; apply in_seq in H; lia|].
    eapply Permutation_in; [apply Permutation_sym, Pm|]. apply in_seq. lia. }
  assert (NDs : NoDup (sort (seq 0 n))) by (eapply Permutation_NoDup; [apply Permutation_sym, Pm|apply seq_NoDup]).
  destruct (sort (seq 0 n)) as [|i0 l] eqn:Es.
  { apply Permutation_length in Pm. rewrite seq_length in Pm. cbn [length] in Pm. lia. }
  apply Sorted_StronglySorted in Srt.
  2:{ intros a b c Hab Hbc Hac. apply Hab. destruct (lex_total (val3 (at3 points b)) (val3 (at3 points c))) as [H|[H|H]]; [|now rewrite H|tauto].
      eapply lex_trans; eauto. }
  inversion NDs as [|? ? Ni0 NDl]; subst.
  destruct (merge_ok points Fin l i0 (repeat 0 n) [i0] i0) as (pmap & ex & E & Lp & H3 & H4 & H5 & H6); auto.
  { intros i Hi. apply Ps. auto. }
  { apply repeat_length. }
  rewrite E. cbn [app] in *.
  set (base := pow2 (get_exponent epsilon - 1)). set (approx := map (snap base) points).
  assert (La : length approx = length points) by apply map_length.
  assert (Hex : forall e, In e (i0 :: ex) -> e < n).
  { intros e [<-|He']; [apply Ps; now left|]. apply Ps. right. now apply H5. }
  assert (O : omap (point3 approx) (i0 :: ex) = Some (map (at3 approx) (i0 :: ex))).
  { apply omap_some. split; [apply map_length|]. intros i x y Hx Hy. rewrite nth_error_map, Hx in Hy. cbn in Hy. inversion Hy; subst.
    apply point3_at. rewrite La. apply In3, Hex. eapply nth_error_In; eauto. }
  rewrite O. eexists. exists pmap. split; [reflexivity|]. split; auto.
  assert (Rep : forall i, i < n -> exists o k, nth_error pmap i = Some o /\ nth_error (i0 :: ex) o = Some k /\ val3 (at3 points k) = val3 (at3 points i)).
  { intros i Hi. apply Ps in Hi. destruct Hi as [<-|Hi]; [|apply H3; auto].
    exists 0, i0. rewrite H4 by auto. rewrite nth_error_repeat by (apply Ps; now left). auto. }
  assert (Srt2 : StronglySorted (fun i k => lex_lt (val3 (at3 points i)) (val3 (at3 points k))) (i0 :: ex)).
  { constructor; auto. apply Forall_forall. intros e He'. now apply H5. }
  assert (Inj : forall l', StronglySorted (fun i k => lex_lt (val3 (at3 points i)) (val3 (at3 points k))) l' ->
     forall o o' k k', nth_error l' o = Some k -> nth_error l' o' = Some k' -> val3 (at3 points k) = val3 (at3 points k') -> o = o').
  { clear. intros l'. induction 1 as [|a t St IH Ha]; intros o o' k k' Hk Hk' Hv; [destruct o; discriminate|].
    rewrite Forall_forall in Ha. destruct o as [|o], o' as [|o']; cbn in Hk, Hk'; auto.
    - exfalso. inversion Hk; subst. apply nth_error_In in Hk'. apply Ha in Hk'. rewrite Hv in Hk'. eapply lex_irrefl; eauto.
    - exfalso. inversion Hk'; subst. apply nth_error_In in Hk. apply Ha in Hk. rewrite Hv in Hk. eapply lex_irrefl; eauto.
    - f_equal. eauto. }
  split; [|split].
  - intros i Hi. destruct (Rep i Hi) as (o & k & A & C & D). exists o. split; auto.
    assert (Ck : nth_error (map (at3 approx) (i0 :: ex)) o = Some (at3 approx k)) by (rewrite nth_error_map, C; auto).
    destruct (flat3_nth _ _ _ Ck) as (F1 & F2). cbn zeta in F1, F2. split; [exact F1|].
    assert (Hk : k < n) by (apply Hex; eapply nth_error_In; eauto). pose proof (In3 k Hk). pose proof (In3 i Hi).
    intros axis Hax.
    set (out := flat_map _ (map (at3 approx) (i0 :: ex))) in *.
    assert (F3 : nth (3 * o + axis) out fzero = nth (3 * k + axis) approx fzero).
    { unfold at3 in F2. pose proof (f_equal (fun t => fst (fst t)) F2) as G1. pose proof (f_equal (fun t => snd (fst t)) F2) as G2.
      pose proof (f_equal snd F2) as G3. cbn [fst snd] in G1, G2, G3. destruct axis as [|[|[|axis]]]; [|auto|auto|lia]. now rewrite !Nat.add_0_r. }
    assert (D3 : B2R (nth (3 * k + axis) points fzero) = B2R (nth (3 * i + axis) points fzero)).
    { unfold at3, val3 in D. pose proof (f_equal (fun t => fst (fst t)) D) as G1. pose proof (f_equal (fun t => snd (fst t)) D) as G2.
      pose proof (f_equal snd D) as G3. cbn [fst snd] in G1, G2, G3. destruct axis as [|[|[|axis]]]; [|auto|auto|lia]. now rewrite !Nat.add_0_r. }
    assert (Sn : nth (3 * k + axis) approx fzero = snap base (nth (3 * k + axis) points fzero)).
    { unfold approx. rewrite (nth_indep _ fzero (snap base fzero)) by (rewrite map_length; lia). apply map_nth. }
    assert (Ix : In (nth (3 * k + axis) points fzero) points) by (apply nth_In; lia).
    destruct (Mag _ Ix) as (M1 & M2).
    destruct (snap_ok (nth (3 * k + axis) points fzero) (get_exponent epsilon - 1)) as (Q1 & Q2); auto; [lia|].
    fold base in Q1, Q2. rewrite F3, Sn. split; auto. rewrite <- D3. eapply Rle_trans; [exact Q2|].
    pose proof (exponent_spec epsilon Fe ltac:(lia) Ne) as X.
    replace (get_exponent epsilon) with (1 + (get_exponent epsilon - 1))%Z in X by lia. rewrite bpow_plus in X. cbn [bpow] in X. change (IZR (Z.pow_pos radix2 1)) with 2%R in X. lra.
  - intros i j Hi Hj. destruct (Rep i Hi) as (o & k & A & C & D). destruct (Rep j Hj) as (o' & k' & A' & C' & D'). rewrite A, A'. split.
    + intros Q. inversion Q; subst. rewrite C in C'. inversion C'; subst. congruence.
    + intros Q. f_equal. eapply (Inj (i0 :: ex)); eauto. congruence.
  - intros o Ho. rewrite flat3_length, map_length in Ho.
    destruct (nth_error (i0 :: ex) o) as [k|] eqn:Ek; [|apply nth_error_None in Ek; cbn [length] in *; lia].
    assert (Hk : k < n) by (apply Hex; eapply nth_error_In; eauto). exists k. split; auto.
    destruct (Rep k Hk) as (o' & k' & A & C & D). rewrite A. f_equal. eapply (Inj (i0 :: ex)); eauto.
Qed.
(** The output points need not be distinct: equality is tested before
    rounding. *)
Theorem C46_distinct_refuted : forall sort, 
  let points := [fl 0 0; fl 0 0; fl 0 0; fl 1 (-3); fl 0 0; fl 0 0]%Z in
  sorts points sort ->
  exists out pmap, remove_duplicates sort points (fl 1 0) = Some (out, pmap) /\ length out = 6 /\
    nth_error pmap 0 <> nth_error pmap 1 /\
    forall axis, axis < 3 -> B2R (nth axis out fzero) = B2R (nth (3 + axis) out fzero).
Proof.
  intros sort points So. destruct (So [0; 1]) as (P & Sd); [intros i [<-|[<-|[]]]; cbn; lia|].
  assert (Es : sort [0; 1] = [0; 1]).
  { apply Permutation_length_2_inv in P || apply Permutation_sym in P; apply Permutation_length_2_inv in P. destruct P as [P|P]; rewrite P in *; auto.
    exfalso. inversion Sd as [|? ? _ Hd]; subst. inversion Hd as [|? ? Hd']; subst. apply Hd'.
    unfold at3, points. cbn [nth Nat.mul Nat.add val3]. left.
    destruct (pow2_val (-3)) as (V & _ & _); [lia|]. unfold pow2 in V. rewrite V.
    replace (B2R (fl 0 0)) with 0%R by reflexivity. apply bpow_gt_0. }
  unfold remove_duplicates. replace (feq (fl 1 0) fzero) with false by (vm_compute; reflexivity).
  change (length points / 3) with 2. cbn [seq]. rewrite Es. cbn [merge_loop repeat length].
  rewrite !point3_at by (cbn; lia). replace (point_eqb (at3 points 1) (at3 points 0)) with false by (vm_compute; reflexivity).
  cbn [set length Nat.ltb Nat.leb upd app merge_loop omap]. rewrite !point3_at by (cbn; lia).
  set (base := pow2 _). assert (Eb : base = pow2 (-1)) by (unfold base; f_equal; vm_compute; reflexivity). rewrite Eb.
  eexists. eexists. split; [reflexivity|]. split; [reflexivity|]. split; [discriminate|].
  assert (Z : forall x y, is_finite (snap (pow2 (-1)) x) = true -> is_finite (snap (pow2 (-1)) y) = true ->
     feq (snap (pow2 (-1)) x) (snap (pow2 (-1)) y) = true -> B2R (snap (pow2 (-1)) x) = B2R (snap (pow2 (-1)) y)).
  { intros x y Fx Fy E. unfold feq in E. rewrite Beqb_correct in E by auto. revert E. case Req_bool_spec; congruence. }
  intros axis Ha. destruct axis as [|[|[|axis]]]; [| | |lia]; apply Z; vm_compute; reflexivity.
Qed.
(** With epsilon zero nothing is merged, and the map has an entry per
    coordinate rather than per point. *)
Theorem C46_epsilon_zero sort points : remove_duplicates sort points fzero = Some (points, seq 0 (length points)).
Proof. reflexivity. Qed.
Theorem C46_empty_panics sort epsilon : Permutation (sort []) [] -> feq epsilon fzero = false -> remove_duplicates sort [] epsilon = None.
Proof. intros P E. unfold remove_duplicates. rewrite E. cbn [length Nat.div seq]. change (fst (Nat.divmod 0 2 0 2)) with 0. cbn [seq]. apply Permutation_sym, Permutation_nil in P. now rewrite P. Qed.
Example C46_case :
  match remove_duplicates (fun l => match l with [a; b; c] => [b; a; c] | _ => l end)
    [fl 5 0; fl 1 0; fl 1 (-1); fl 2 0; fl 0 0; fl 0 0; fl 5 0; fl 1 0; fl 1 (-1)]%Z (fl 1 (-4)) with
  | Some (out, pmap) => map B2SF out = map B2SF [fl 2 0; fl 0 0; fl 0 0; fl 5 0; fl 1 0; fl 1 (-1)]%Z /\ pmap = [1; 0; 1]
  | None => False
  end.
Proof. vm_compute. split; reflexivity. Qed.
Print Assumptions C38_unique_indices.
Print Assumptions C38_triangulate_polygon.
Print Assumptions C39_soup.
Print Assumptions C51_insert_coplanar.
Print Assumptions C47_degenerate.
Print Assumptions C46_merge_partial.
Print Assumptions C46_distinct_refuted.
