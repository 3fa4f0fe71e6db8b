(** Tracing the constraints through the tetrahedra: the walk along the sides (C72),
    the marks (C73), the rows of the marks (C74). *)
From Coq Require Import List Arith Bool ZArith Permutation Lia.
From Verif Require Import Lib Geo Tet TetSpec TetProofs TetFace TetFaceProofs Prop_Tet Bsp BspSpec Prop_Bsp Trace TraceSpec TraceWalk TraceMark TraceFlood TraceRun.
Import ListNotations.
Local Open Scope opt_scope.

(** * C72: the walk along the three sides *)

(** The walk makes no bad access and leaves the mesh as it was.  When it comes to
    its end there is a path of vertices, edges and faces along each side, in which
    each step goes to a vertex, edge or face of a real tetrahedron about the
    last one that the segment meets, and the tetrahedra collected are just those
    about the steps of the three paths.  It ends in its own panic only if on one
    of the sides, from some place that the segment comes to, there is no such step,
    and needs more than [fuel] steps only if there are as many on one of the sides
    without coming to the end. *)
Theorem C72_sides g m a b c fuel : linked m -> consistent m -> ghost_last m -> placed m -> hull_closed g m -> fair g -> proper m (a, b, c) ->
  exists o, constraint_sides_intersections g m (a, b, c) (no_info m) fuel = Some (m, o) /\
    match o with
    | Done i => NoDup (intersected i) /\ (forall t, In t (intersected i) -> real m t) /\
        exists l1 l2 l3, whole_path g m a b l1 /\ whole_path g m b c l2 /\ whole_path g m c a l3 /\
          forall t, In t (intersected i) <-> along m (l1 ++ l2 ++ l3) t
    | Lost => exists va vb, In (va, vb) [(a, b); (b, c); (c, a)] /\ lost g m va vb
    | Out => exists va vb, In (va, vb) [(a, b); (b, c); (c, a)] /\ longer g m va vb fuel
    end.
Proof.
  intros L C GL PL HC FG (ND & Ha & Hb & Hc).
  destruct (sides_ok g m L C GL PL HC FG a b c (no_info m) fuel ND Ha Hb Hc (no_info_ok m)) as (o & E & H). exists o. split; auto.
  destruct o as [i| |]; auto. destruct H as ((NDi & _ & _) & l1 & l2 & l3 & W1 & W2 & W3 & Al).
  assert (Al' : forall t, In t (intersected i) <-> along m (l1 ++ l2 ++ l3) t) by (intros u; rewrite Al; cbn; tauto).
  split; auto. split; [|exists l1, l2, l3; auto].
  intros t Ht. apply Al' in Ht. destruct Ht as (t1 & s1 & Hin & A).
  apply in_app_or in Hin. destruct Hin as [Hin|Hin]; [apply (whole_real g m L C GL PL HC a b l1); auto; exists t1, s1; auto|].
  apply in_app_or in Hin. destruct Hin as [Hin|Hin]; [apply (whole_real g m L C GL PL HC b c l2)|apply (whole_real g m L C GL PL HC c a l3)]; auto; exists t1, s1; auto.
Qed.

(** More steps for the model change nothing once the walk has come to an end, in
    one way or the other. *)
Lemma side_loop_more g va vb k : forall m t s i m' o fuel, side_loop g m va vb t s i k = Some (m', o) -> o <> Out -> k <= fuel ->
  side_loop g m va vb t s i fuel = Some (m', o).
Proof.
  induction k as [|k IH]; intros m t s i m' o fuel H N Hf; cbn [side_loop] in H; destruct fuel as [|fuel]; try lia; cbn [side_loop].
  - destruct (nth_error s 0) as [c0|]; [|discriminate]. destruct (c0 =? vb); [auto|]. inversion H; subst; congruence.
  - destruct (nth_error s 0) as [c0|]; [|discriminate]. destruct (c0 =? vb); [auto|]. inversion H; subst; congruence.
  - destruct (nth_error s 0) as [c0|]; [|discriminate]. destruct (c0 =? vb); [auto|].
    destruct (side_step g m va vb t s i) as [[[m1 i1] r]|]; [|discriminate]. destruct r as [[t1 s1]| |]; auto. apply IH; auto. lia.
Qed.
Lemma one_side_more g va vb k fuel m i m' o : one_side g m va vb i k = Some (m', o) -> o <> Out -> k <= fuel -> one_side g m va vb i fuel = Some (m', o).
Proof.
  unfold one_side. intros H N Hf. destruct (vert_on_constraint_side g m va vb None i) as [[[m1 i1] r]|]; [|discriminate].
  destruct r as [[t s]| |]; auto. eapply side_loop_more; eauto.
Qed.
Lemma sides_more g k fuel l : forall m i m' o, sides_from g m l i k = Some (m', o) -> o <> Out -> k <= fuel -> sides_from g m l i fuel = Some (m', o).
Proof.
  induction l as [|[va vb] l IH]; intros m i m' o H N Hf; cbn [sides_from] in *; auto.
  destruct (one_side g m va vb i k) as [[m1 o1]|] eqn:E; [|discriminate].
  destruct o1 as [i1| |]; try (rewrite (one_side_more g va vb k fuel m i m1 _ E) by (auto; discriminate); auto).
  inversion H; subst; congruence.
Qed.
Theorem C72_steps g m c i k fuel m' o : constraint_sides_intersections g m c i k = Some (m', o) -> o <> Out -> k <= fuel ->
  constraint_sides_intersections g m c i fuel = Some (m', o).
Proof. apply sides_more. Qed.

(** * C73: the marks *)

(** insert_constraints makes no bad access and leaves the mesh as it was.  When it
    comes to its end there is one list of marks for each place of each
    tetrahedron, in increasing order, and constraint [j] is in the list of the
    place [k] of [t] just if it is to be written there.  It ends in its own panic
    only if on a side of some constraint there is no way on, and needs more than
    [fuel] steps only if there are as many on a side without coming to the end. *)
Theorem C73_marks g m l fuel : linked m -> consistent m -> ghost_last m -> placed m -> hull_closed g m -> fair g -> n_points m <= length (tets m) ->
  (forall c, In c l -> proper m c) ->
  exists o, insert_constraints g m l fuel = Some (m, o) /\
    match o with
    | Done mark => all_marked m mark /\ exists Ps, Forall2 (places g m) l Ps /\
        forall k t lm, mark_at mark k t = Some lm -> increasing lm /\
          forall j, In j lm <-> exists P, nth_error Ps j = Some P /\ P k t
    | Lost => exists c va vb, In c l /\ In (va, vb) (sides c) /\ lost g m va vb
    | Out => exists c va vb, In c l /\ In (va, vb) (sides c) /\ longer g m va vb fuel
    end.
Proof.
  intros L C GL PL HC FG Few Pr. unfold insert_constraints.
  destruct (insert_from_ok g m L C GL PL HC FG Few fuel l 0 _ Pr (shaped_new m)) as (o & E & H). exists o. split; auto.
  destruct o as [mark| |]; auto. destruct H as (S & Ps & HP & Hm). split; [intros k t K T; exact (shaped_at m mark k t S K T)|].
  exists Ps. split; auto. intros k t lm Elm.
  assert (KT : k < 5 /\ t < length (tets m)).
  { destruct S as (S5 & Sr). unfold mark_at in Elm. destruct (nth_error mark k) as [row|] eqn:Er; [|discriminate].
    split; [rewrite <- S5; apply nth_error_Some; congruence|]. rewrite <- (Sr row) by (eapply nth_error_In; eauto). apply nth_error_Some; congruence. }
  destruct (shaped_at m _ k t (shaped_new m) (proj1 KT) (proj2 KT)) as (l0 & E0).
  destruct (Hm k t l0 E0) as (new & En & Inc & Hn). rewrite (new_empty m k t l0 E0) in En. cbn [app] in En. rewrite Elm in En. inversion En; subst new.
  split; auto. intros j. rewrite Hn. split.
  - intros (i & P & -> & H). exists P. auto.
  - intros (P & H). exists j, P. auto.
Qed.

(** * C74: the rows *)

(** Along the sides every real tetrahedron gets at most one row.  It gets the row
    of a face just if the face is in the plane of the constraint, the fourth
    vertex is not, and the face lies in the closed triangle or has an edge that
    crosses a side.  If it gets row 4 then it has vertices strictly on both
    sides of the plane, or all its vertices on the same side or in the plane. *)
Theorem C74_side_rows_partial g m a b c t : linked m -> ghost_last m -> n_points m <= length (tets m) -> proper m (a, b, c) -> real m t ->
  exists r, improper g m (a, b, c) t = Some r /\
    (forall k, k < 4 -> (r = Some k <-> face_row g m (a, b, c) t k)) /\
    (forall k, r = Some k -> k < 5) /\
    (r = Some 4 -> exists x, nth_error (tets m) t = Some x /\
       ((exists u v, In u (data x) /\ In v (data x) /\ (plane_side g (a, b, c) u < 0 < plane_side g (a, b, c) v)%Z) \/
        (forall u v, In u (data x) -> In v (data x) -> plane_side g (a, b, c) u = plane_side g (a, b, c) v))).
Proof.
  intros L GL Few (_ & Hc) R. destruct (improper_total g m a b c L GL Hc Few t R) as (r & E & H). exists r. split; auto. split; [|split].
  - intros k K. rewrite <- (improper_face_iff g m a b c L GL Hc Few t k R), E. split; [intros ->; auto|]. intros (E' & _). congruence.
  - intros k ->. destruct H as (x & _ & [(K & _)|(-> & _)]); lia.
  - intros ->. destruct H as (x & Ex & [(K & _)|(_ & H)]); [lia|]. eauto.
Qed.

(** Away from the sides the row is as the specification says, and there is none
    (5) just if there is no such row. *)
Theorem C74_interior_rows g m a b c t : linked m -> ghost_last m -> proper m (a, b, c) -> t < length (tets m) ->
  exists r, tet_type g m (a, b, c) t = Some r /\ r <= 5 /\ forall k, (r = k /\ k < 5) <-> interior_row g m (a, b, c) t k.
Proof.
  intros L GL (_ & Hc) Lt. destruct (tet_type_total g m a b c L GL Hc t Lt) as (r & E & Le & _). exists r. split; auto. split; auto.
  intros k. rewrite <- (tet_type_iff g m a b c L GL Hc t k Lt), E. split; intros (H & K); split; congruence || auto.
Qed.

(** * Concrete cases *)

(** The geometric questions, on integer coordinates. *)
Local Open Scope Z_scope.
Definition zat (pts : list zpoint) (i : nat) : zpoint := nth i pts (0, 0, 0).
Definition zsub (p q : zpoint) : zpoint := let '(a, b, c) := p in let '(d, e, f) := q in (a - d, b - e, c - f).
Definition zcross (p q : zpoint) : zpoint := let '(a, b, c) := p in let '(d, e, f) := q in (b * f - c * e, c * d - a * f, a * e - b * d).
Definition zdot (p q : zpoint) : Z := let '(a, b, c) := p in let '(d, e, f) := q in a * d + b * e + c * f.
Definition znull (p : zpoint) : bool := let '(a, b, c) := p in (a =? 0) && (b =? 0) && (c =? 0).
Definition z_geom (pts : list zpoint) : geom :=
  let P := zat pts in
  let o a b c d := Z.sgn (z_o3 pts a b c d) in
  let turn a b p := zcross (zsub (P b) (P a)) (zsub (P p) (P a)) in
  let inseg p a b := znull (turn a b p) && (0 <? zdot (zsub (P p) (P a)) (zsub (P b) (P a))) && (zdot (zsub (P p) (P a)) (zsub (P b) (P a)) <? zdot (zsub (P b) (P a)) (zsub (P b) (P a))) in
  {| g_o3 := z_o3 pts;
     g_seg_tri := fun u1 u2 v1 v2 v3 => (o u1 v1 v2 v3 * o u2 v1 v2 v3 =? -1) && (o u1 u2 v1 v2 =? o u1 u2 v2 v3) && (o u1 u2 v1 v2 =? o u1 u2 v3 v1) && negb (o u1 u2 v1 v2 =? 0);
     g_seg_ctri := fun u1 u2 v1 v2 v3 => (o u1 v1 v2 v3 * o u2 v1 v2 v3 =? -1) && (0 <=? o u1 u2 v1 v2 * o u1 u2 v2 v3) && (0 <=? o u1 u2 v1 v2 * o u1 u2 v3 v1) && (0 <=? o u1 u2 v2 v3 * o u1 u2 v3 v1);
     g_segs := fun u1 u2 v1 v2 => (o u1 u2 v1 v2 =? 0) && (zdot (turn u1 u2 v1) (turn u1 u2 v2) <? 0) && (zdot (turn v1 v2 u1) (turn v1 v2 u2) <? 0);
     g_half := fun p q v1 v2 => 0 <? zdot (turn v1 v2 p) (turn v1 v2 q);
     g_in_seg := inseg;
     g_in_tri := fun p a b c => inseg p a b || inseg p b c || inseg p c a ||
       ((o p a b c =? 0) && (0 <? zdot (turn a b p) (turn a b c)) && (0 <? zdot (turn b c p) (turn b c a)) && (0 <? zdot (turn c a p) (turn c a b))) |}.
Local Close Scope Z_scope.

(** Deciding the hypotheses. *)
Definition placedb (m : tetmesh) : bool := forallb (fun v => match nth_error (p2t m) v with
  | Some (Some t) => match nth_error (tets m) t with
      | Some x => existsb (Nat.eqb v) (data x) && negb (match nth_error (data x) 3 with Some d => d =? n_points m | None => false end)
      | None => false end
  | _ => false end) (seq 0 (n_points m)).
Lemma placedb_ok m : placedb m = true -> placed m.
Proof.
  unfold placedb. rewrite forallb_forall. intros H v Hv. specialize (H v (proj2 (in_seq _ 0 v) (conj (Nat.le_0_l v) Hv))).
  destruct (nth_error (p2t m) v) as [[t|]|] eqn:E; try discriminate. destruct (nth_error (tets m) t) as [x|] eqn:Ex; [|discriminate].
  apply andb_prop in H. destruct H as (A & B). apply existsb_exists in A. destruct A as (y & Hy & Ey). apply Nat.eqb_eq in Ey. subst y.
  exists t. split; auto. split; exists x; split; auto.
  - intros E3. rewrite E3, Nat.eqb_refl in B. discriminate.
  - intros w [<-|[]]; auto.
Qed.
Definition perms (a b c : nat) : list (nat * nat * nat) := [(a, b, c); (a, c, b); (b, a, c); (b, c, a); (c, a, b); (c, b, a)].
Lemma perms_ok p q r a b c : Permutation [p; q; r] [a; b; c] -> In (p, q, r) (perms a b c).
Proof.
  intros P. unfold perms. cbn [In]. assert (Hp : In p [a; b; c]) by (apply (Permutation_in _ P); now left).
  destruct Hp as [<-|[<-|[<-|[]]]].
  - apply Permutation_cons_inv in P. assert (Hq : In q [b; c]) by (apply (Permutation_in _ P); now left).
    destruct Hq as [<-|[<-|[]]]; [apply Permutation_cons_inv, Permutation_length_1 in P; subst; auto|].
    apply (Permutation_cons_app_inv [b] []) in P. apply Permutation_length_1 in P. subst; auto.
  - apply (Permutation_cons_app_inv [a] [c]) in P. cbn [app] in P. assert (Hq : In q [a; c]) by (apply (Permutation_in _ P); now left).
    destruct Hq as [<-|[<-|[]]]; [apply Permutation_cons_inv, Permutation_length_1 in P; subst; auto 10|].
    apply (Permutation_cons_app_inv [a] []) in P. apply Permutation_length_1 in P. subst; auto 10.
  - apply (Permutation_cons_app_inv [a; b] []) in P. cbn [app] in P. assert (Hq : In q [a; b]) by (apply (Permutation_in _ P); now left).
    destruct Hq as [<-|[<-|[]]]; [apply Permutation_cons_inv, Permutation_length_1 in P; subst; auto 10|].
    apply (Permutation_cons_app_inv [a] []) in P. apply Permutation_length_1 in P. subst; auto 10.
Qed.
Definition hullb (g : geom) (m : tetmesh) : bool :=
  forallb (fun t => forallb (fun v => let f := TF (Some t) v in
    if match nth_error (tets m) t with Some x => match nth_error (data x) 3 with Some d => d =? n_points m | None => false end | None => true end then true else
    match org m f, dest m f, apex m f, fsym m f with
    | Some a, Some b, Some c, Some h =>
      match tet h with
      | Some u => match nth_error (tets m) u with
        | Some y => if match nth_error (data y) 3 with Some d => d =? n_points m | None => false end
                    then forallb (fun u1 => forallb (fun u2 => forallb (fun pqr => let '(p, q, r) := pqr in negb (g_seg_tri g u1 u2 p q r)) (perms a b c))
                           (seq 0 (n_points m))) (seq 0 (n_points m))
                    else true
        | None => false end
      | None => true end
    | _, _, _, _ => false
    end) (seq 0 12)) (seq 0 (length (tets m))).
Lemma hullb_ok g m : hullb g m = true -> hull_closed g m.
Proof.
  unfold hullb. rewrite forallb_forall. intros H f a b c d h t0 t u1 u2 p q r T0 R K F Th N H1 H2 P.
  destruct (corners_valid m _ _ _ _ _ K) as (t1 & T1 & L0 & V). destruct f as [ft v]. cbn [tet ver] in *. subst ft. inversion T1; subst t1.
  specialize (H t0 (proj2 (in_seq _ 0 t0) (conj (Nat.le_0_l t0) L0))). cbn beta in H. rewrite forallb_forall in H.
  specialize (H v (proj2 (in_seq _ 0 v) (conj (Nat.le_0_l v) V))). cbn zeta in H. destruct R as (x0 & Ex0 & R0). rewrite Ex0 in H.
  destruct (match nth_error (data x0) 3 with Some d => d =? n_points m | None => false end) eqn:E0;
    [destruct (nth_error (data x0) 3) as [d0|]; [apply Nat.eqb_eq in E0; subst; congruence|discriminate]|].
  pose proof K as (A & B & C & _). rewrite A, B, C, F, Th in H.
  destruct (nth_error (tets m) t) as [y|] eqn:Ey; [|discriminate].
  destruct (match nth_error (data y) 3 with Some d => d =? n_points m | None => false end) eqn:E3.
  - rewrite forallb_forall in H. specialize (H u1 (proj2 (in_seq _ 0 u1) (conj (Nat.le_0_l u1) H1))). cbn beta in H.
    rewrite forallb_forall in H. specialize (H u2 (proj2 (in_seq _ 0 u2) (conj (Nat.le_0_l u2) H2))). cbn beta in H.
    rewrite forallb_forall in H. specialize (H (p, q, r) (perms_ok p q r a b c P)). cbn beta iota in H. now apply negb_true_iff in H.
  - exfalso. apply N. exists y. split; auto. intros E. rewrite E, Nat.eqb_refl in E3. discriminate.
Qed.

(** Exact answers are fair. *)
Section ZFair.
  Variable pts : list zpoint.
  Local Open Scope Z_scope.
  Let O a b c d : Z := z_o3 pts a b c d.
  Let T a b p : zpoint := zcross (zsub (zat pts b) (zat pts a)) (zsub (zat pts p) (zat pts a)).
  Local Ltac open := intros; unfold O, T, z_o3, z_orient, zcross, zsub, zdot, zat;
    repeat match goal with |- context [nth ?i pts ?d] => let x := fresh in let y := fresh in let z := fresh in destruct (nth i pts d) as ((x, y), z) end; ring.
  Lemma O_swap1 a b c d : O b a c d = - O a b c d. Proof. open. Qed.
  Lemma O_swap2 a b c d : O a c b d = - O a b c d. Proof. open. Qed.
  Lemma O_swap3 a b c d : O a b d c = - O a b c d. Proof. open. Qed.
  Lemma T_swap a b p q : zdot (T b a p) (T b a q) = zdot (T a b p) (T a b q). Proof. open. Qed.
  Lemma T_comm a b p q : zdot (T a b p) (T a b q) = zdot (T a b q) (T a b p). Proof. open. Qed.
  Lemma T_first a b q : zdot (T a b a) (T a b q) = 0. Proof. open. Qed.
  Lemma T_second a b q : zdot (T a b b) (T a b q) = 0. Proof. open. Qed.
  Lemma O_eq12 a c d : O a a c d = 0. Proof. open. Qed.

  Lemma seg_tri_swap1 u1 u2 v1 v2 v3 : g_seg_tri (z_geom pts) u1 u2 v1 v2 v3 = g_seg_tri (z_geom pts) u1 u2 v2 v1 v3.
  Proof.
    cbn [g_seg_tri z_geom]. change (z_o3 pts) with O. rewrite (O_swap2 u1 v1 v2 v3), (O_swap2 u2 v1 v2 v3), (O_swap3 u1 u2 v1 v2), (O_swap3 u1 u2 v3 v1), (O_swap3 u1 u2 v2 v3).
    rewrite !Z.sgn_opp, Z.mul_opp_opp. apply eq_true_iff_eq. rewrite !andb_true_iff, !negb_true_iff, !Z.eqb_eq, !Z.eqb_neq. lia.
  Qed.
  Lemma seg_tri_swap2 u1 u2 v1 v2 v3 : g_seg_tri (z_geom pts) u1 u2 v1 v2 v3 = g_seg_tri (z_geom pts) u1 u2 v1 v3 v2.
  Proof.
    cbn [g_seg_tri z_geom]. change (z_o3 pts) with O. rewrite (O_swap3 u1 v1 v2 v3), (O_swap3 u2 v1 v2 v3), (O_swap3 u1 u2 v1 v2), (O_swap3 u1 u2 v3 v1), (O_swap3 u1 u2 v2 v3).
    rewrite !Z.sgn_opp, Z.mul_opp_opp. apply eq_true_iff_eq. rewrite !andb_true_iff, !negb_true_iff, !Z.eqb_eq, !Z.eqb_neq. lia.
  Qed.
  Lemma segs_swap u1 u2 v1 v2 : g_segs (z_geom pts) u1 u2 v1 v2 = g_segs (z_geom pts) u1 u2 v2 v1.
  Proof.
    cbn [g_segs z_geom]. change (z_o3 pts) with O. rewrite (O_swap3 u1 u2 v1 v2), Z.sgn_opp.
    fold (T u1 u2 v1) (T u1 u2 v2) (T v1 v2 u1) (T v1 v2 u2) (T v2 v1 u1) (T v2 v1 u2).
    rewrite (T_swap v1 v2), (T_comm u1 u2 v2 v1). f_equal. f_equal. apply eq_true_iff_eq. rewrite !Z.eqb_eq. lia.
  Qed.
  Lemma z_fair : fair (z_geom pts).
  Proof.
    split; [|split; [|split]].
    - intros a b s s' P M. assert (Ls := Permutation_length P).
      destruct s as [|p [|q [|r [|? ?]]]]; try contradiction; destruct s' as [|p' [|q' [|r' [|? ?]]]]; try discriminate Ls.
      + apply Permutation_length_1 in P. now subst.
      + apply Permutation_length_2 in P. destruct P as [(-> & ->)|(-> & ->)]; auto. cbn [meets] in *. now rewrite segs_swap.
      + apply perms_ok in P. unfold perms in P. cbn [meets In] in *.
        destruct P as [P|[P|[P|[P|[P|[P|[]]]]]]]; injection P as <- <- <-; rewrite <- M; try reflexivity;
          first [apply seg_tri_swap1|apply seg_tri_swap2|
                 rewrite seg_tri_swap1; apply seg_tri_swap2|rewrite seg_tri_swap2; apply seg_tri_swap1|
                 rewrite seg_tri_swap1, seg_tri_swap2; apply seg_tri_swap1].
    - intros u1 u2 v1 v2 v3. unfold same_side. cbn [g_o3 z_geom]. change (z_o3 pts) with O. rewrite (O_swap2 u1 v1 v2 v3), (O_swap2 u2 v1 v2 v3), !Z.sgn_opp. lia.
    - assert (G3 : forall a b p q r, g_seg_tri (z_geom pts) a b p q r = true -> a <> p /\ b <> p).
      { intros a b p q r M. cbn [g_seg_tri z_geom] in M. change (z_o3 pts) with O in M. rewrite !andb_true_iff in M. destruct M as (((M & _) & _) & _). apply Z.eqb_eq in M.
        split; intros ->; rewrite O_eq12 in M; cbn [Z.sgn] in M; lia. }
      assert (G2 : forall a b p q, g_segs (z_geom pts) a b p q = true -> a <> p /\ b <> p).
      { intros a b p q M. cbn [g_segs z_geom] in M. rewrite !andb_true_iff, !Z.ltb_lt in M. destruct M as (_ & M).
        fold (T p q a) (T p q b) in M. split; intros ->; [|rewrite T_comm in M]; rewrite T_first in M; lia. }
      intros a b s Ls M. destruct s as [|p [|q [|r [|? ?]]]]; cbn in Ls; try lia; try contradiction; cbn [meets In] in *.
      + assert (M' := M). rewrite segs_swap in M'. apply G2 in M, M'. intuition congruence.
      + assert (M1 := M). assert (M2 := M). rewrite seg_tri_swap1 in M1. rewrite seg_tri_swap2, seg_tri_swap1 in M2. apply G3 in M, M1, M2. intuition congruence.
    - intros v a b M. cbn [g_in_seg z_geom] in M. rewrite !andb_true_iff, !Z.ltb_lt in M. destruct M as ((_ & M1) & M2). split; intros ->.
      + revert M1. unfold zdot, zsub. destruct (zat pts a) as ((x, y), z), (zat pts b) as ((x', y'), z'). rewrite !Z.sub_diag. cbn [Z.mul Z.add]. lia.
      + lia.
  Qed.
End ZFair.

(** The mesh of six points meets the hypotheses.  The constraints (1, 2, 3), which
    cuts through the edge from 4 to 5, and (0, 1, 2), a face of the mesh, are marked. *)
Example six_hypotheses : linked six_mesh /\ consistent six_mesh /\ ghost_last six_mesh /\ placed six_mesh /\ hull_closed (z_geom six) six_mesh /\ fair (z_geom six) /\
  n_points six_mesh <= length (tets six_mesh) /\ proper six_mesh (1, 2, 3) /\ proper six_mesh (0, 1, 2).
Proof.
  split; [apply six_linked|]. split; [apply six_consistent|]. split; [apply six_ghost|]. split; [apply placedb_ok; vm_compute; reflexivity|].
  split; [apply hullb_ok; vm_compute; reflexivity|]. split; [apply z_fair|]. split; [cbn; lia|]. split; (split; [repeat constructor; cbn; intuition discriminate|cbn; lia]).
Qed.
Example C72_case : exists i, constraint_sides_intersections (z_geom six) six_mesh (1, 2, 3) (no_info six_mesh) 10 = Some (six_mesh, Done i) /\ In 10 (intersected i).
Proof. eexists; split; [vm_compute; reflexivity|]. cbn. tauto. Qed.
Example C73_case : exists mark, insert_constraints (z_geom six) six_mesh [(1, 2, 3); (0, 1, 2)] 10 = Some (six_mesh, Done mark) /\
  map (fun t => mark_at mark 4 t) (seq 9 3) = [Some [0]; Some [0]; Some [0]] /\ mark_at mark 2 5 = Some [1] /\ mark_at mark 3 2 = Some [1].
Proof. eexists; split; [vm_compute; reflexivity|]. repeat split; vm_compute; reflexivity. Qed.
Example C74_case : face_row (z_geom six) six_mesh (4, 0, 1) 5 0 /\ interior_row (z_geom six) six_mesh (1, 2, 3) 10 4.
Proof.
  split.
  - apply (improper_face_iff (z_geom six) six_mesh 4 0 1 six_linked six_ghost); [cbn; lia|cbn; lia| |split; [vm_compute; reflexivity|lia]].
    eexists; split; [reflexivity|discriminate].
  - apply (tet_type_iff (z_geom six) six_mesh 1 2 3 six_linked six_ghost); [cbn; lia|cbn; lia|split; [vm_compute; reflexivity|lia]].
Qed.

(** * C74: a tetrahedron that only touches the constraint *)
Definition seven : list zpoint := [(0, 0, 0); (-10, 0, 0); (10, 0, 0); (1, 11, 0); (0, -8, 5); (4, -8, -5); (-3, -9, -6)]%Z.
Definition seven_mesh : tetmesh := Eval vm_compute in
  match tetrahedralize (z_o3 seven) (z_isp seven) 7 [1; 3; 4; 5; 6; 0; 2] 200 with Some m => m | None => empty_mesh 0 end.
Lemma seven_linked : linked seven_mesh.
Proof.
  intros t x Hx. cbn [tets seven_mesh] in Hx.
  do 16 (destruct t as [|t]; [cbn in Hx; inversion Hx; subst; clear Hx; cbn [data nei mask length];
      split; [reflexivity|split; [reflexivity|split; [repeat constructor; cbn; intuition discriminate|split; [vm_compute; discriminate|split; [reflexivity|]]]]];
      intros i g Hg; (do 4 (destruct i as [|i]; [cbn in Hg; inversion Hg; subst; eexists; eexists; split; [reflexivity|split; [reflexivity|]];
        intros j v Hj Nj; (do 4 (destruct j as [|j]; [cbn in Hj; inversion Hj; subst; first [congruence|cbn; tauto]|])); destruct j; discriminate|])); destruct i; discriminate|]).
  destruct t; discriminate.
Qed.
Lemma seven_consistent : consistent seven_mesh.
Proof.
  intros t v a b c d Lt V H.
  do 16 (destruct t as [|t]; [do 12 (destruct v as [|v]; [destruct H as (A & B & C & D); vm_compute in A, B, C, D;
    injection A as <-; injection B as <-; injection C as <-; injection D as <-;
    (eexists; eexists; eexists; split; [vm_compute; reflexivity|split; [cbn; lia|split; [lia|split; [vm_compute; reflexivity|]]]]);
    repeat split; vm_compute; reflexivity|]); lia|]).
  cbn in Lt. lia.
Qed.
Lemma seven_ghost : ghost_last seven_mesh.
Proof.
  intros t x i p Hx Hp. cbn [tets seven_mesh] in Hx.
  do 16 (destruct t as [|t]; [cbn in Hx; inversion Hx; subst; clear Hx; cbn [data] in Hp;
    do 4 (destruct i as [|i]; [cbn in Hp; inversion Hp; subst; cbn; split; lia|]); destruct i; discriminate|]).
  destruct t; discriminate.
Qed.

(** A tetrahedron that has one vertex in the plane of the constraint gets row 4
    although a plane [h] through that vertex [d] has the other vertices strictly on
    one side and the constraint on the other, so that the two have at most [d] in
    common: vert_point_in_inner_triangle is true on the sides as well. *)
Theorem C74_touch_refuted : exists pts order m a b c mark t x d h,
  tetrahedralize (z_o3 pts) (z_isp pts) 7 order 200 = Some m /\
  linked m /\ consistent m /\ ghost_last m /\ placed m /\ hull_closed (z_geom pts) m /\ n_points m <= length (tets m) /\ proper m (a, b, c) /\
  insert_constraints (z_geom pts) m [(a, b, c)] 30 = Some (m, Done mark) /\ mark_at mark 4 t = Some [0] /\
  nth_error (tets m) t = Some x /\ In d (data x) /\ zdot h (zat pts d) = 0%Z /\
  (forall v, In v (data x) -> v <> d -> (zdot h (zat pts v) < 0)%Z) /\
  (forall v, In v [a; b; c] -> (0 <= zdot h (zat pts v))%Z).
Proof.
  exists seven, [1; 3; 4; 5; 6; 0; 2], seven_mesh, 1, 2, 3. do 2 eexists. exists (Tetra [6; 5; 0; 4] (match nth_error (tets seven_mesh) 6 with Some x => nei x | None => [] end) 0), 0, (0, 1, 0)%Z.
  split; [vm_compute; reflexivity|]. split; [apply seven_linked|]. split; [apply seven_consistent|]. split; [apply seven_ghost|].
  split; [apply placedb_ok; vm_compute; reflexivity|]. split; [apply hullb_ok; vm_compute; reflexivity|]. split; [cbn; lia|].
  split; [split; [repeat constructor; cbn; intuition discriminate|cbn; lia]|].
  split; [vm_compute; reflexivity|]. split; [instantiate (1 := 6); vm_compute; reflexivity|]. split; [vm_compute; reflexivity|].
  split; [cbn; tauto|]. split; [reflexivity|]. split.
  - cbn [data]. intros v [<-|[<-|[<-|[<-|[]]]]] N; try congruence; vm_compute; reflexivity.
  - intros v [<-|[<-|[<-|[]]]]; vm_compute; discriminate.
Qed.

Print Assumptions C72_sides.
Print Assumptions C72_steps.
Print Assumptions C73_marks.
Print Assumptions C74_side_rows_partial.
Print Assumptions C74_interior_rows.
Print Assumptions C74_touch_refuted.
