(** C79: the test whether a triangle meets a cell never misses one that does. *)
From Coq Require Import Reals Lra Psatz List Bool.
From Verif Require Import Lib Geo Dispatch Orient PointTests Prop_PointTests Prop_Poly CellTest.
Import ListNotations.
Local Open Scope R_scope.

(** * Specification *)
(** Strictly inside of the plane of a face: the first cell of a face is on the side
    where orient3d is negative. *)
Definition inner_side (f : cell_face vec3) (x : vec3) : R :=
  (if cf_first f then 1 else -1) * - orient3 (cf0 f) (cf1 f) (cf2 f) x.
Definition in_cell (cell : list (cell_face vec3)) (x : vec3) : Prop := forall f, In f cell -> 0 < inner_side f x.
(** A point of the closed triangle. *)
Definition in_triangle (a b c x : vec3) : Prop :=
  exists s t u, 0 <= s /\ 0 <= t /\ 0 <= u /\ s + t + u = 1 /\ x = vadd (vscale s a) (vadd (vscale t b) (vscale u c)).
(** A point of the convex hull of a list of points. *)
Inductive in_hull : list vec3 -> vec3 -> Prop :=
| hull_one p : in_hull [p] p
| hull_add p l x t : 0 <= t <= 1 -> in_hull l x -> in_hull (p :: l) (vadd (vscale t p) (vscale (1 - t) x)).

(** * Affine functions *)
Definition affine (h : vec3 -> R) : Prop := forall p q t, h (vadd (vscale t p) (vscale (1 - t) q)) = t * h p + (1 - t) * h q.
Lemma orient3_affine a b c : affine (orient3 a b c).
Proof. intros p q t. unfold orient3, det3, dot, cross, vsub, vadd, vscale. cbn [vx vy vz]. ring. Qed.
Lemma hull_sign h l x s : affine h -> (forall v, In v l -> 0 <= s * h v) -> in_hull l x -> 0 <= s * h x.
Proof.
  intros A H Hx. induction Hx as [p|p l x t Ht Hx IH]; [apply H; now left|].
  rewrite A. assert (0 <= s * h p) by (apply H; now left). assert (0 <= s * h x) by (apply IH; intros; apply H; now right).
  replace (s * (t * h p + (1 - t) * h x)) with (t * (s * h p) + (1 - t) * (s * h x)) by ring.
  assert (0 <= t * (s * h p)) by (apply Rmult_le_pos; lra). assert (0 <= (1 - t) * (s * h x)) by (apply Rmult_le_pos; lra). lra.
Qed.
Lemma orient3_triangle p q r a b c s t u : s + t + u = 1 ->
  orient3 p q r (vadd (vscale s a) (vadd (vscale t b) (vscale u c))) = s * orient3 p q r a + t * orient3 p q r b + u * orient3 p q r c.
Proof. intros E. replace s with (1 - t - u) by lra. unfold orient3, det3, dot, cross, vsub, vadd, vscale. cbn [vx vy vz]. ring. Qed.
(** Moving against the normal changes the side; the step is small. *)
Lemma orient3_normal a b c x k : orient3 a b c (vadd x (vscale k (cross (vsub b a) (vsub c a)))) =
  orient3 a b c x - k * dot (cross (vsub b a) (vsub c a)) (cross (vsub b a) (vsub c a)).
Proof. unfold orient3, det3, dot, cross, vsub, vadd, vscale. cbn [vx vy vz]. ring. Qed.
Lemma inner_move f x n : exists g, forall k, inner_side f (vadd x (vscale k n)) = inner_side f x + k * g.
Proof.
  exists (inner_side f (vadd x n) - inner_side f x). intros k. unfold inner_side, orient3, det3, dot, cross, vsub, vadd, vscale. cbn [vx vy vz]. ring.
Qed.
Lemma small_move cell x n : in_cell cell x -> exists e, 0 < e /\ forall k, - e <= k <= e -> in_cell cell (vadd x (vscale k n)).
Proof.
  induction cell as [|f cell IH]; intros H.
  - exists 1. split; [lra|]. intros k _ f [].
  - destruct IH as (e & He & IH); [intros g Hg; apply H; now right|].
    destruct (inner_move f x n) as (g & G). pose proof (H f (or_introl eq_refl)) as Pf.
    set (p := inner_side f x) in *. set (d := p / (2 * (Rabs g + 1))).
    assert (A : 0 <= Rabs g) by apply Rabs_pos.
    assert (Dp : 0 < d) by (apply Rmult_lt_0_compat; [lra|apply Rinv_0_lt_compat; lra]).
    assert (De : d * (Rabs g + 1) = p / 2) by (unfold d; field; lra).
    exists (Rmin e d). split; [unfold Rmin; destruct (Rle_dec e d); lra|].
    intros k Hk f' [<-|Hf].
    + rewrite G. fold p. pose proof (Rmin_r e d).
      assert (K : Rabs (k * g) <= d * Rabs g).
      { rewrite Rabs_mult. apply Rmult_le_compat_r; auto. apply Rabs_le. lra. }
      assert (d * Rabs g <= p / 2) by lra. pose proof (Rle_abs (- (k * g))) as Q. rewrite Rabs_Ropp in Q. lra.
    + apply IH; auto. pose proof (Rmin_l e d). lra.
Qed.

(** * The loops *)
Section Claims.
Variable (V : Type) (pos : V -> vec3) (a b c : vec3).
Variable (ov : V -> Orientation) (o3 : vec3 -> vec3 -> vec3 -> vec3 -> Orientation) (sg : R).
(** The sides of the vertices are those of the plane of the triangle, with either sign. *)
Hypothesis SG : sg = 1 \/ sg = -1.
Hypothesis OV : forall v, ov v = ori_of (sg * orient3 a b c (pos v)).
Hypothesis O3 : forall p q r x, o3 p q r x = ori_of (- orient3 p q r x).
Let h v := sg * orient3 a b c (pos v).

Lemma first_ori_spec base : right_base base -> forall l,
  first_ori_loop ov base l = Zero <-> exists v, In v l /\ sgn_of base * h v < 0.
Proof.
  intros RB. induction l as [|v l IH]; cbn [first_ori_loop].
  - split; [intros E; destruct RB; congruence|intros (v & [] & _)].
  - rewrite OV. fold (h v).
    assert (Skip : ~ sgn_of base * h v < 0 -> ((exists w, In w l /\ sgn_of base * h w < 0) <-> (exists w, In w (v :: l) /\ sgn_of base * h w < 0))).
    { intros N. split; intros (w & Hw & Q); [exists w; cbn; auto|]. destruct Hw as [<-|Hw]; [tauto|eauto]. }
    assert (Here : sgn_of base * h v < 0 -> exists w, In w (v :: l) /\ sgn_of base * h w < 0) by (intros Q; exists v; cbn; auto).
    destruct (ori_cases (h v)) as [(S1 & ->)|[(S1 & ->)|(S1 & ->)]]; destruct RB as [-> | ->]; cbn [ori_eqb negb sgn_of] in *;
      try (rewrite IH; apply Skip; lra); split; auto; intros _; apply Here; lra.
Qed.
Lemma first_ori_undef : forall l, first_ori_loop ov Undefined l = Zero <-> (exists v, In v l /\ h v < 0) /\ (exists v, In v l /\ 0 < h v).
Proof.
  induction l as [|v l IH]; cbn [first_ori_loop]; [split; [discriminate|intros ((v & [] & _) & _)]|].
  rewrite OV. fold (h v).
  destruct (ori_cases (h v)) as [(S1 & ->)|[(S1 & ->)|(S1 & ->)]].
  - replace (ori_eqb Undefined Undefined) with true by reflexivity. rewrite (first_ori_spec Negative (or_intror eq_refl)). cbn [sgn_of]. split.
    + intros (w & Hw & Q). split; [exists v; cbn; auto|]. exists w. cbn. split; auto. lra.
    + intros (_ & w & [<-|Hw] & Q); [lra|]. exists w. split; auto. lra.
  - rewrite IH. split; intros ((u & Hu & Q) & (w & Hw & Q')).
    + split; [exists u|exists w]; cbn; auto.
    + split; [exists u|exists w]; (split; [|auto]); [destruct Hu as [<-|Hu]|destruct Hw as [<-|Hw]]; auto; lra.
  - replace (ori_eqb Undefined Undefined) with true by reflexivity. rewrite (first_ori_spec Positive (or_introl eq_refl)). cbn [sgn_of]. split.
    + intros (w & Hw & Q). split; [exists w; cbn; split; auto; lra|]. exists v. cbn. auto.
    + intros ((w & [<-|Hw] & Q) & _); [lra|]. exists w. split; auto. lra.
Qed.
Lemma faces_loop_spec tri : forall cell, faces_loop o3 tri cell = true <-> forall f, In f cell -> exists p, In p tri /\ 0 < inner_side f p.
Proof.
  induction cell as [|f cell IH]; cbn [faces_loop]; [split; [intros _ f []|auto]|].
  set (base := if cf_first f then Positive else Negative). set (oris := map (o3 (cf0 f) (cf1 f) (cf2 f)) tri).
  assert (RB : right_base base) by (unfold base; destruct (cf_first f); [now left|now right]).
  assert (B : forall p, o3 (cf0 f) (cf1 f) (cf2 f) p = base <-> 0 < inner_side f p).
  { intros p. rewrite O3. destruct (ori_side base (- orient3 (cf0 f) (cf1 f) (cf2 f) p) RB) as (_ & ->).
    unfold inner_side, base. destruct (cf_first f); cbn [sgn_of]; lra. }
  assert (Q : (exists p, In p tri /\ 0 < inner_side f p) <-> In base oris).
  { unfold oris. rewrite in_map_iff. split; intros (p & H1 & H2); exists p; split; auto; now apply B. }
  destruct (forallb (fun x => ori_eqb x Zero) oris) eqn:Z.
  - split; [discriminate|]. intros H. exfalso. rewrite forallb_forall in Z. assert (I : In base oris) by (apply Q, H; now left).
    apply Z in I. destruct (ori_eqb_spec base Zero) as [E|]; [destruct RB; congruence|discriminate].
  - destruct (forallb (fun x => negb (ori_eqb x base)) (filter (fun x => negb (ori_eqb x Zero)) oris)) eqn:F.
    + split; [discriminate|]. intros H. exfalso. rewrite forallb_forall in F. assert (I : In base oris) by (apply Q, H; now left).
      assert (I' : In base (filter (fun x => negb (ori_eqb x Zero)) oris)).
      { apply filter_In. split; auto. destruct (ori_eqb_spec base Zero) as [E|]; auto. destruct RB; congruence. }
      apply F in I'. destruct (ori_eqb_spec base base); [discriminate|congruence].
    + assert (I : exists p, In p tri /\ 0 < inner_side f p).
      { apply Q. destruct (in_dec (fun x y : Orientation => ltac:(decide equality) : {x = y} + {x <> y}) base oris) as [|N]; auto. exfalso.
        assert (forallb (fun x => negb (ori_eqb x base)) (filter (fun x => negb (ori_eqb x Zero)) oris) = true); [|congruence].
        apply forallb_forall. intros x Hx. apply filter_In in Hx. destruct Hx as (Hx & _). destruct (ori_eqb_spec x base) as [->|]; auto. }
      rewrite IH. split; intros H; [intros g [<-|Hg]; auto|intros g Hg; apply H; now right].
Qed.

(** What the answer says: the plane of the triangle has vertices of the cell strictly
    on both sides, and no plane of a face has the triangle outside. *)
Theorem C79_iff verts cell : is_triangle_intersects_cell ov o3 [a; b; c] verts cell = true <->
  ((exists v, In v verts /\ orient3 a b c (pos v) < 0) /\ (exists v, In v verts /\ 0 < orient3 a b c (pos v))) /\
  (forall f, In f cell -> exists p, In p [a; b; c] /\ 0 < inner_side f p).
Proof.
  unfold is_triangle_intersects_cell. rewrite <- faces_loop_spec. pose proof (first_ori_undef verts) as F.
  assert (E : first_ori_loop ov Undefined verts = Zero <-> (exists v, In v verts /\ orient3 a b c (pos v) < 0) /\ (exists v, In v verts /\ 0 < orient3 a b c (pos v))).
  { rewrite F. unfold h. destruct SG as [-> | ->]; split; intros ((u & Hu & Q) & (w & Hw & Q'));
      (split; [first [exists u; split; [exact Hu|lra] | exists w; split; [exact Hw|lra]]|first [exists w; split; [exact Hw|lra] | exists u; split; [exact Hu|lra]]]). }
  destruct (ori_eqb_spec (first_ori_loop ov Undefined verts) Zero) as [Z|Z]; cbn [negb]; [tauto|]. split; [discriminate|tauto].
Qed.

(** If the triangle has a point inside the cell the answer is yes: no inner triangle is lost. *)
Theorem C79_met verts cell x : cross (vsub b a) (vsub c a) <> V3 0 0 0 ->
  (forall y, in_cell cell y -> in_hull (map pos verts) y) -> in_cell cell x -> in_triangle a b c x ->
  is_triangle_intersects_cell ov o3 [a; b; c] verts cell = true.
Proof.
  intros Nd Hull In_ Tri. apply C79_iff.
  destruct Tri as (s & t & u & Hs & Ht & Hu & Sm & Ex).
  set (n := cross (vsub b a) (vsub c a)) in *.
  assert (Np : 0 < dot n n).
  { unfold dot. destruct n as [x0 y0 z0]. cbn [vx vy vz].
    destruct (Req_EM_T x0 0) as [->|X]; [destruct (Req_EM_T y0 0) as [->|Y]; [destruct (Req_EM_T z0 0) as [->|Z]|]|]; [congruence| | |].
    - pose proof (Rsqr_pos_lt z0 Z). unfold Rsqr in *. lra.
    - pose proof (Rsqr_pos_lt y0 Y). pose proof (Rle_0_sqr z0). unfold Rsqr in *. lra.
    - pose proof (Rsqr_pos_lt x0 X). pose proof (Rle_0_sqr y0). pose proof (Rle_0_sqr z0). unfold Rsqr in *. lra. }
  assert (Z : orient3 a b c x = 0).
  { rewrite Ex, orient3_triangle by auto. assert (E : orient3 a b c a = 0 /\ orient3 a b c b = 0 /\ orient3 a b c c = 0) by (unfold orient3, det3, dot, cross, vsub; cbn [vx vy vz]; repeat split; ring).
    destruct E as (-> & -> & ->). ring. }
  destruct (small_move cell x n In_) as (e & He & Mv).
  assert (Up : orient3 a b c (vadd x (vscale (- e) n)) = e * dot n n) by (unfold n; rewrite orient3_normal, Z; ring).
  assert (Dn : orient3 a b c (vadd x (vscale e n)) = - (e * dot n n)) by (unfold n; rewrite orient3_normal, Z; ring).
  assert (Ep : 0 < e * dot n n) by (apply Rmult_lt_0_compat; auto).
  assert (Dec : forall k, (exists v, In v verts /\ k * orient3 a b c (pos v) < 0) \/ (forall v, In v verts -> 0 <= k * orient3 a b c (pos v))).
  { intros k. clear. induction verts as [|v l IH]; [right; intros v []|]. destruct (Rlt_le_dec (k * orient3 a b c (pos v)) 0); [left; exists v; cbn; auto|].
    destruct IH as [(w & Hw & Q)|Q]; [left; exists w; cbn; auto|right; intros w [<-|Hw]; auto]. }
  assert (Side : forall k y, in_cell cell y -> k * orient3 a b c y < 0 -> exists v, In v verts /\ k * orient3 a b c (pos v) < 0).
  { intros k y Hy Q. destruct (Dec k) as [|All]; auto. exfalso.
    assert (0 <= k * orient3 a b c y); [|lra]. apply (hull_sign _ (map pos verts)); [apply orient3_affine| |auto].
    intros v Hv. apply in_map_iff in Hv. destruct Hv as (w & <- & Hw). auto. }
  split; [split|].
  - destruct (Side 1 (vadd x (vscale e n))) as (v & Hv & Q); [apply Mv; lra|lra|]. exists v. split; auto. lra.
  - destruct (Side (-1) (vadd x (vscale (- e) n))) as (v & Hv & Q); [apply Mv; lra|lra|]. exists v. split; auto. lra.
  - intros f Hf. pose proof (In_ f Hf) as Q.
    assert (E : inner_side f x = s * inner_side f a + t * inner_side f b + u * inner_side f c) by (unfold inner_side; rewrite Ex, orient3_triangle by auto; ring).
    destruct (Rlt_le_dec 0 (inner_side f a)) as [|A]; [exists a; cbn; auto|].
    destruct (Rlt_le_dec 0 (inner_side f b)) as [|B]; [exists b; cbn; auto|].
    destruct (Rlt_le_dec 0 (inner_side f c)) as [|C]; [exists c; cbn; auto|].
    exfalso. assert (s * inner_side f a <= 0) by nra. assert (t * inner_side f b <= 0) by nra. assert (u * inner_side f c <= 0) by nra. lra.
Qed.
End Claims.

(** * A tetrahedron *)
Definition tet_cell : list (cell_face vec3) :=
  [CellFace (V3 0 0 0) (V3 1 0 0) (V3 0 1 0) true; CellFace (V3 0 0 0) (V3 1 0 0) (V3 0 0 1) false;
   CellFace (V3 0 0 0) (V3 0 1 0) (V3 0 0 1) true; CellFace (V3 1 0 0) (V3 0 1 0) (V3 0 0 1) false].
Definition tet_verts : list vec3 := [V3 0 0 0; V3 1 0 0; V3 0 1 0; V3 0 0 1].
Definition exact3 (p q r x : vec3) : Orientation := ori_of (- orient3 p q r x).
Lemma tet_inside x : in_cell tet_cell x <-> 0 < vx x /\ 0 < vy x /\ 0 < vz x /\ vx x + vy x + vz x < 1.
Proof.
  unfold in_cell, tet_cell. split.
  - intros H. pose proof (H _ (or_introl eq_refl)) as H1. pose proof (H _ (or_intror (or_introl eq_refl))) as H2.
    pose proof (H _ (or_intror (or_intror (or_introl eq_refl)))) as H3. pose proof (H _ (or_intror (or_intror (or_intror (or_introl eq_refl))))) as H4.
    unfold inner_side, orient3, det3, dot, cross, vsub in *. cbn [cf0 cf1 cf2 cf_first vx vy vz] in *. lra.
  - intros H f [<-|[<-|[<-|[<-|[]]]]]; unfold inner_side, orient3, det3, dot, cross, vsub; cbn [cf0 cf1 cf2 cf_first vx vy vz]; lra.
Qed.
Lemma tet_hull x : in_cell tet_cell x -> in_hull (map (fun v => v) tet_verts) x.
Proof.
  intros H. apply tet_inside in H. destruct H as (X & Y & Z & S). destruct x as [x y z]. cbn [vx vy vz] in *. cbn [map tet_verts].
  set (k0 := x + y + z). set (k1 := y + z).
  assert (E : V3 x y z = vadd (vscale (1 - k0) (V3 0 0 0)) (vscale (1 - (1 - k0))
     (vadd (vscale (x / k0) (V3 1 0 0)) (vscale (1 - x / k0) (vadd (vscale (y / k1) (V3 0 1 0)) (vscale (1 - y / k1) (V3 0 0 1))))))).
  { unfold vadd, vscale. cbn [vx vy vz]. assert (x + y + z <> 0) by lra. assert (y + z <> 0) by lra. unfold k0, k1. f_equal; field; auto. }
  rewrite E.
  assert (F : forall p q, 0 < p -> 0 < q -> 0 <= p / (p + q) <= 1).
  { intros p q P Q. assert (0 < / (p + q)) by (apply Rinv_0_lt_compat; lra). unfold Rdiv. split; [apply Rmult_le_pos; lra|].
    apply Rmult_le_reg_r with (p + q); [lra|]. rewrite Rmult_assoc, Rinv_l by lra. lra. }
  apply hull_add; [unfold k0; lra|]. apply hull_add; [unfold k0; replace (x + y + z) with (x + (y + z)) by ring; apply F; lra|].
  apply hull_add; [unfold k1; apply F; lra|]. constructor.
Qed.
(** A triangle through the tetrahedron: the hypotheses of C79_met hold. *)
Example C79_case : (forall v, exact3 (V3 0 0 (1/4)) (V3 2 0 (1/4)) (V3 0 2 (1/4)) v = ori_of (-1 * orient3 (V3 0 0 (1/4)) (V3 2 0 (1/4)) (V3 0 2 (1/4)) v)) /\
  cross (vsub (V3 2 0 (1/4)) (V3 0 0 (1/4))) (vsub (V3 0 2 (1/4)) (V3 0 0 (1/4))) <> V3 0 0 0 /\
  (forall y, in_cell tet_cell y -> in_hull (map (fun v => v) tet_verts) y) /\
  in_cell tet_cell (V3 (1/4) (1/4) (1/4)) /\ in_triangle (V3 0 0 (1/4)) (V3 2 0 (1/4)) (V3 0 2 (1/4)) (V3 (1/4) (1/4) (1/4)) /\
  is_triangle_intersects_cell (exact3 (V3 0 0 (1/4)) (V3 2 0 (1/4)) (V3 0 2 (1/4))) exact3 [V3 0 0 (1/4); V3 2 0 (1/4); V3 0 2 (1/4)] tet_verts tet_cell = true.
Proof.
  assert (A : forall v, exact3 (V3 0 0 (1/4)) (V3 2 0 (1/4)) (V3 0 2 (1/4)) v = ori_of (-1 * orient3 (V3 0 0 (1/4)) (V3 2 0 (1/4)) (V3 0 2 (1/4)) v)).
  { intros v. unfold exact3. f_equal. ring. }
  assert (B : cross (vsub (V3 2 0 (1/4)) (V3 0 0 (1/4))) (vsub (V3 0 2 (1/4)) (V3 0 0 (1/4))) <> V3 0 0 0).
  { unfold cross, vsub. cbn [vx vy vz]. intros E. injection E as _ _ E. lra. }
  assert (C : in_cell tet_cell (V3 (1/4) (1/4) (1/4))) by (apply tet_inside; cbn [vx vy vz]; lra).
  assert (D : in_triangle (V3 0 0 (1/4)) (V3 2 0 (1/4)) (V3 0 2 (1/4)) (V3 (1/4) (1/4) (1/4))).
  { exists (3/4), (1/8), (1/8). do 4 (split; [lra|]). unfold vadd, vscale. cbn [vx vy vz]. f_equal; lra. }
  split; [exact A|]. split; [exact B|]. split; [exact tet_hull|]. split; [exact C|]. split; [exact D|].
  apply (C79_met vec3 (fun v => v) (V3 0 0 (1/4)) (V3 2 0 (1/4)) (V3 0 2 (1/4)) _ exact3 (-1) (or_intror eq_refl) A (fun _ _ _ _ => eq_refl) tet_verts tet_cell _ B tet_hull C D).
Qed.
(** A triangle beside it, with its plane through it: rejected because of a face. *)
Example C79_apart : is_triangle_intersects_cell (exact3 (V3 2 0 (1/4)) (V3 4 0 (1/4)) (V3 2 2 (1/4))) exact3 [V3 2 0 (1/4); V3 4 0 (1/4); V3 2 2 (1/4)] tet_verts tet_cell = false.
Proof.
  destruct (is_triangle_intersects_cell _ _ _ _ _) eqn:E; auto. exfalso.
  apply (C79_iff vec3 (fun v => v) (V3 2 0 (1/4)) (V3 4 0 (1/4)) (V3 2 2 (1/4)) _ exact3 (-1)) in E; auto; [|intros v; unfold exact3; f_equal; ring].
  destruct E as (_ & E). destruct (E (CellFace (V3 1 0 0) (V3 0 1 0) (V3 0 0 1) false)) as (p & Hp & Q); [cbn; auto|].
  cbn in Hp. unfold inner_side, orient3, det3, dot, cross, vsub in Q. cbn [cf0 cf1 cf2 cf_first] in Q.
  destruct Hp as [<-|[<-|[<-|[]]]]; cbn [vx vy vz] in Q; lra.
Qed.

(** Yes does not mean that they meet: this triangle has no point in the closed
    tetrahedron, but only a direction across an edge of each separates them. *)
Theorem C79_exact_refuted : ~ (forall (a b c : vec3) verts cell,
  cross (vsub b a) (vsub c a) <> V3 0 0 0 -> (forall y, in_cell cell y -> in_hull verts y) -> (forall v f, In v verts -> In f cell -> 0 <= inner_side f v) ->
  is_triangle_intersects_cell (exact3 a b c) exact3 [a; b; c] verts cell = true ->
  exists x, in_triangle a b c x /\ in_hull verts x).
Proof.
  intros H. destruct (H (V3 0 (-1) 0) (V3 1 1 2) (V3 0 (-1) 1) tet_verts tet_cell) as (x & T & Hu).
  - unfold cross, vsub. cbn [vx vy vz]. intros E. injection E as E _ _. lra.
  - intros y Hy. apply tet_hull in Hy. now rewrite map_id in Hy.
  - intros v f Hv Hf. cbn in Hv, Hf. destruct Hf as [<-|[<-|[<-|[<-|[]]]]], Hv as [<-|[<-|[<-|[<-|[]]]]];
      unfold inner_side, orient3, det3, dot, cross, vsub; cbn [cf0 cf1 cf2 cf_first vx vy vz]; lra.
  - apply (C79_iff vec3 (fun v => v) (V3 0 (-1) 0) (V3 1 1 2) (V3 0 (-1) 1) _ exact3 (-1)); auto; [intros v; unfold exact3; f_equal; ring|].
    split; [split|].
    + first [exists (V3 1 0 0); split; [cbn; auto|unfold orient3, det3, dot, cross, vsub; cbn [vx vy vz]; lra]
            |exists (V3 0 1 0); split; [cbn; auto|unfold orient3, det3, dot, cross, vsub; cbn [vx vy vz]; lra]
            |exists (V3 0 0 0); split; [cbn; auto|unfold orient3, det3, dot, cross, vsub; cbn [vx vy vz]; lra]].
    + first [exists (V3 1 0 0); split; [cbn; auto|unfold orient3, det3, dot, cross, vsub; cbn [vx vy vz]; lra]
            |exists (V3 0 1 0); split; [cbn; auto|unfold orient3, det3, dot, cross, vsub; cbn [vx vy vz]; lra]
            |exists (V3 0 0 0); split; [cbn; auto|unfold orient3, det3, dot, cross, vsub; cbn [vx vy vz]; lra]].
    + intros f [<-|[<-|[<-|[<-|[]]]]]; unfold inner_side, orient3, det3, dot, cross, vsub; cbn [cf0 cf1 cf2 cf_first];
        first [exists (V3 1 1 2); split; [cbn; auto|cbn [vx vy vz]; lra]|exists (V3 0 (-1) 0); split; [cbn; auto|cbn [vx vy vz]; lra]
              |exists (V3 0 (-1) 1); split; [cbn; auto|cbn [vx vy vz]; lra]].
  - assert (A : 0 <= 2 - (2 * vx x - 3 * vy x + 2 * vz x)).
    { rewrite <- (Rmult_1_l (2 - _)). revert Hu. apply (hull_sign (fun x => 2 - (2 * vx x - 3 * vy x + 2 * vz x))).
      - intros p q t. unfold vadd, vscale. cbn [vx vy vz]. ring.
      - intros v Hv. cbn in Hv. destruct Hv as [<-|[<-|[<-|[<-|[]]]]]; cbn [vx vy vz]; lra. }
    destruct T as (s & t & u & S1 & S2 & S3 & S4 & ->). unfold vadd, vscale in A. cbn [vx vy vz] in A. lra.
Qed.

Print Assumptions C79_iff.
Print Assumptions C79_met.
Print Assumptions C79_exact_refuted.
