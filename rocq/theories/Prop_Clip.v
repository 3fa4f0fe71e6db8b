(** C48: the recorded sides of the vertices of the complex are exact.
    C56: an edge is cut exactly where it crosses the plane. *)
From Coq Require Import Reals Lra Psatz List Arith Bool Lia.
From Verif Require Import Lib Geo Dispatch Orient PointTests Prop_Dispatch Prop_PointTests Clip.
Import ListNotations.
Local Open Scope R_scope.

(** * Specification *)
(** [x] is where the point [p] lies: on its line and its plane, or on its three
    planes. *)
Definition located (p : bpoint) (x : vec3) : Prop :=
  match p with
  | Explicit e => x = e
  | LPI l => on_line (lp l) (lq l) x /\ on_plane (lr l) (ls l) (lt_ l) x
  | TPI t => on_plane (v1 t) (v2 t) (v3 t) x /\ on_plane (w1 t) (w2 t) (w3 t) x /\ on_plane (u1 t) (u2 t) (u3 t) x
  end.
(** The exact side of [x] with respect to a plane. *)
Definition exact_side (pa pb pc x : vec3) : Orientation := ori_of (Prop_Dispatch.o3 pa pb pc x).
(** A vertex either is its own parent or lies strictly between two earlier
    ones: it was created by cutting the edge between them. *)
Record history (points : list bpoint) (parents : list (nat * nat)) (pos : nat -> vec3) : Prop := {
  h_len : length parents = length points;
  h_loc : forall k p, nth_error points k = Some p -> located p (pos k);
  h_par : forall k a b, nth_error parents k = Some (a, b) -> k <> a ->
    (a < k)%nat /\ (b < k)%nat /\ in_open_segment (pos k) (pos a) (pos b) }.
Definition recorded (pa pb pc : vec3) (pos : nat -> vec3) (m : omap_) : Prop :=
  forall v o, mget m v = Some o -> o = exact_side pa pb pc (pos v).

(** * The points built from a plane lie on it *)
Lemma same_point_spec p q : same_point p q = true <-> p = q.
Proof.
  unfold same_point. destruct p as [a b c], q as [d e f]. cbn [vx vy vz].
  destruct (Reqb_spec a d), (Reqb_spec b e), (Reqb_spec c f); cbn; split; intros H; try discriminate; try congruence;
    injection H; intros; congruence.
Qed.
Lemma plane_a a b c : on_plane a b c a. Proof. unfold on_plane; geo; ring. Qed.
Lemma plane_b a b c : on_plane a b c b. Proof. unfold on_plane; geo; ring. Qed.
Lemma plane_c a b c : on_plane a b c c. Proof. unfold on_plane; geo; ring. Qed.
Lemma orient3_line r s t p q k : orient3 r s t (vadd p (vscale k (vsub q p))) = (1 - k) * orient3 r s t p + k * orient3 r s t q.
Proof. geo; ring. Qed.
Lemma line_in_plane r s t p q x : on_plane r s t p -> on_plane r s t q -> on_line p q x -> on_plane r s t x.
Proof. unfold on_plane. intros Hp Hq (k & ->). rewrite orient3_line, Hp, Hq. ring. Qed.
Lemma built_spec p pa pb pc x : located p x -> is_point_built_from_plane p pa pb pc = true -> on_plane pa pb pc x.
Proof.
  destruct p as [e|l|t]; cbn [located is_point_built_from_plane]; intros L H.
  - rewrite !orb_true_iff, !same_point_spec in H. subst. destruct H as [[->| ->]| ->]; [apply plane_a|apply plane_b|apply plane_c].
  - rewrite !orb_true_iff, !andb_true_iff, !same_point_spec in H. destruct L as (L1 & L2).
    destruct l as [p q r s t]. cbn [lp lq lr ls lt_] in *.
    destruct H as [[[[(<- & <-)|(<- & <-)]|[(<- & <-)|(<- & <-)]]|[(<- & <-)|(<- & <-)]]|((<- & <-) & <-)]; auto;
      (eapply line_in_plane; [| |exact L1]; auto using plane_a, plane_b, plane_c).
  - rewrite !orb_true_iff, !andb_true_iff, !same_point_spec in H. destruct t as [a1 a2 a3 b1 b2 b3 c1 c2 c3].
    cbn [v1 v2 v3 w1 w2 w3 u1 u2 u3] in *. destruct L as (L1 & L2 & L3).
    destruct H as [[((<- & <-) & <-)|((<- & <-) & <-)]|((<- & <-) & <-)]; auto.
Qed.

(** * C48 *)
Section C48.
Variable o3f : vec3 -> vec3 -> vec3 -> bpoint -> option Orientation.
Variable (points : list bpoint) (parents : list (nat * nat)) (pos : nat -> vec3).
Hypothesis Hist : history points parents pos.
Variable (pa pb pc : vec3).
(** The predicate is exact on the points of the complex: C31 and C53. *)
Hypothesis O3 : forall k p, nth_error points k = Some p -> o3f pa pb pc p = Some (exact_side pa pb pc (pos k)).

Lemma side_between x a b : in_open_segment x a b ->
  let oa := exact_side pa pb pc a in let ob := exact_side pa pb pc b in
  (oa = ob -> exact_side pa pb pc x = oa) /\ (oa = Zero -> exact_side pa pb pc x = ob) /\ (ob = Zero -> exact_side pa pb pc x = oa).
Proof.
  intros (_ & t & Ht & ->). unfold exact_side, Prop_Dispatch.o3. unfold lerp.
  rewrite orient3_line. set (A := orient3 pa pb pc a). set (B := orient3 pa pb pc b). cbn zeta.
  assert (Pm : forall k y, 0 < k -> ori_of (k * y) = ori_of y).
  { intros k y Hk. destruct (Rtotal_order y 0) as [H|[H|H]].
    - rewrite (ori_neg y), (ori_neg (k * y)); auto. replace (k * y) with (- (k * - y)) by ring. apply Ropp_lt_gt_0_contravar. apply Rmult_lt_0_compat; lra.
    - subst. rewrite Rmult_0_r. reflexivity.
    - rewrite (ori_pos y), (ori_pos (k * y)); auto. apply Rmult_lt_0_compat; lra. }
  split; [|split].
  - intros E. destruct (Rtotal_order A 0) as [H|[H|H]].
    + assert (B < 0). { destruct (Rtotal_order B 0) as [K|[K|K]]; auto; rewrite (ori_pos (- A)) in E by lra; [rewrite K, Ropp_0, ori_zero in E; discriminate|rewrite (ori_neg (- B)) in E by lra; discriminate]. }
      rewrite (ori_pos (- A)) by lra. apply ori_pos. assert (0 < (1 - t) * - A) by (apply Rmult_lt_0_compat; lra). assert (0 < t * - B) by (apply Rmult_lt_0_compat; lra). lra.
    + assert (B = 0). { rewrite H, Ropp_0, ori_zero in E. destruct (Rtotal_order B 0) as [K|[K|K]]; auto; [rewrite (ori_pos (- B)) in E by lra; discriminate|rewrite (ori_neg (- B)) in E by lra; discriminate]. }
      rewrite H, H0. f_equal. ring.
    + assert (0 < B). { destruct (Rtotal_order B 0) as [K|[K|K]]; auto; rewrite (ori_neg (- A)) in E by lra; [rewrite (ori_pos (- B)) in E by lra; discriminate|rewrite K, Ropp_0, ori_zero in E; discriminate]. }
      rewrite (ori_neg (- A)) by lra. apply ori_neg. assert (0 < (1 - t) * A) by (apply Rmult_lt_0_compat; lra). assert (0 < t * B) by (apply Rmult_lt_0_compat; lra). lra.
  - intros E. apply ori_eq_zero in E. rewrite <- (Pm t (- B)) by lra. f_equal. replace A with 0 by lra. ring.
  - intros E. apply ori_eq_zero in E. rewrite <- (Pm (1 - t) (- A)) by lra. f_equal. replace B with 0 by lra. ring.
Qed.

Lemma mhas_get m v : mhas m v = true <-> exists o, mget m v = Some o.
Proof. unfold mhas. destruct (mget m v); split; eauto; intros H; try discriminate; destruct H; discriminate. Qed.
Definition extends (m m' : omap_) : Prop := forall v o, mget m v = Some o -> mget m' v = Some o.
Lemma mget_cons v w o m : mget ((w, o) :: m) v = if v =? w then Some o else mget m v.
Proof. reflexivity. Qed.
Lemma insert_ok m v : recorded pa pb pc pos m -> mget m v = None ->
  recorded pa pb pc pos ((v, exact_side pa pb pc (pos v)) :: m) /\ extends m ((v, exact_side pa pb pc (pos v)) :: m) /\
  mget ((v, exact_side pa pb pc (pos v)) :: m) v = Some (exact_side pa pb pc (pos v)).
Proof.
  intros R N. split; [|split].
  - intros w o. rewrite mget_cons. destruct (Nat.eqb_spec w v) as [->|]; [congruence|auto].
  - intros w o H. rewrite mget_cons. destruct (Nat.eqb_spec w v) as [->|]; [congruence|auto].
  - rewrite mget_cons, Nat.eqb_refl. auto.
Qed.
Lemma direct_ok m v : recorded pa pb pc pos m -> mget m v = None -> (v < length points)%nat ->
  orient_direct o3f points pa pb pc v m = Some ((v, exact_side pa pb pc (pos v)) :: m).
Proof.
  intros R N L. unfold orient_direct. destruct (nth_error points v) as [p|] eqn:E; [|apply nth_error_None in E; lia].
  destruct (is_point_built_from_plane p pa pb pc) eqn:B.
  - do 3 f_equal. symmetry. unfold exact_side. apply ori_eq_zero. unfold Prop_Dispatch.o3.
    pose proof (built_spec p pa pb pc (pos v) (h_loc _ _ _ Hist v p E) B) as Q. unfold on_plane in Q. lra.
  - rewrite (O3 _ _ E). reflexivity.
Qed.

(** Whatever correct entries the map starts with, the call ends without panic,
    keeps them, adds only correct entries, and every vertex asked for has one.
    The recursion is no deeper than the largest vertex number. *)
Theorem C48_exact : forall fuel verts m,
  (forall v, In v verts -> (v < length points)%nat /\ (v < fuel)%nat) -> recorded pa pb pc pos m -> (0 < fuel)%nat ->
  exists m', verts_orient_wrt_plane o3f points parents fuel pa pb pc verts m = Some m' /\
    recorded pa pb pc pos m' /\ (forall v o, mget m v = Some o -> mget m' v = Some o) /\
    forall v, In v verts -> mget m' v = Some (exact_side pa pb pc (pos v)).
Proof.
  induction fuel as [|fuel IH]; intros verts m B R F; [lia|]. clear F.
  cbn [verts_orient_wrt_plane].
  match goal with |- context [oiter ?f _ _] => set (body := f) end.
  assert (Bd : forall v m, (v < length points)%nat -> (v < S fuel)%nat -> recorded pa pb pc pos m ->
    exists m', body v m = Some m' /\ recorded pa pb pc pos m' /\ extends m m' /\ mget m' v = Some (exact_side pa pb pc (pos v))).
  { clear verts m B R. intros v m L Fv R. unfold body.
    destruct (mhas m v) eqn:Hm.
    - apply mhas_get in Hm. destruct Hm as (o & Ho). exists m. split; [auto|]. split; [auto|]. split; [intros ? ? ?; auto|]. rewrite Ho. f_equal. auto.
    - assert (N : mget m v = None) by (unfold mhas in Hm; destruct (mget m v); auto; discriminate).
      destruct (nth_error parents v) as [[a b]|] eqn:Ep; [|apply nth_error_None in Ep; rewrite (h_len _ _ _ Hist) in Ep; lia].
      destruct (Nat.eqb_spec v a) as [Ev|Ev].
      + rewrite direct_ok by auto. eexists. split; [reflexivity|]. apply insert_ok; auto.
      + destruct (h_par _ _ _ Hist v a b Ep Ev) as (La & Lb & Seg).
        assert (Sub : exists m1, (if negb (mhas m a) || negb (mhas m b) then verts_orient_wrt_plane o3f points parents fuel pa pb pc [a; b] m else Some m) = Some m1 /\
            recorded pa pb pc pos m1 /\ extends m m1 /\ mget m1 a = Some (exact_side pa pb pc (pos a)) /\ mget m1 b = Some (exact_side pa pb pc (pos b))).
        { destruct (mhas m a) eqn:Ha; [destruct (mhas m b) eqn:Hb|].
          - cbn [negb orb]. apply mhas_get in Ha, Hb. destruct Ha as (x & Ha), Hb as (y & Hb). exists m. split; [auto|]. split; [auto|]. split; [intros ? ? ?; auto|].
            split; [rewrite Ha|rewrite Hb]; f_equal; auto.
          - cbn [negb orb]. destruct (IH [a; b] m) as (m1 & E1 & R1 & X1 & G1); auto; [intros w [<-|[<-|[]]]; lia|lia|].
            exists m1. split; [auto|]. split; [auto|]. split; [exact X1|]. split; apply G1; cbn; auto.
          - cbn [negb orb]. destruct (IH [a; b] m) as (m1 & E1 & R1 & X1 & G1); auto; [intros w [<-|[<-|[]]]; lia|lia|].
            exists m1. split; [auto|]. split; [auto|]. split; [exact X1|]. split; apply G1; cbn; auto. }
        destruct Sub as (m1 & E1 & R1 & X1 & Ga & Gb). rewrite E1, Ga, Gb.
        (* a vertex between its parents is not recorded by the recursion *)
        assert (Fin : forall o, o = exact_side pa pb pc (pos v) -> exists m', Some ((v, o) :: m1) = Some m' /\ recorded pa pb pc pos m' /\ extends m m' /\ mget m' v = Some (exact_side pa pb pc (pos v))).
        { intros o ->. eexists. split; [reflexivity|]. split; [|split].
          - intros w o. rewrite mget_cons. destruct (Nat.eqb_spec w v) as [->|]; [congruence|auto].
          - intros w o H. rewrite mget_cons. destruct (Nat.eqb_spec w v) as [->|]; [|auto]. apply X1 in H. apply R1 in H. congruence.
          - rewrite mget_cons, Nat.eqb_refl. auto. }
        destruct (side_between (pos v) (pos a) (pos b) Seg) as (S1 & S2 & S3).
        destruct (ori_eqb_spec (exact_side pa pb pc (pos a)) (exact_side pa pb pc (pos b))) as [e|_]; [apply Fin; symmetry; auto|].
        destruct (ori_eqb_spec (exact_side pa pb pc (pos a)) Zero) as [e|_]; [apply Fin; symmetry; auto|].
        destruct (ori_eqb_spec (exact_side pa pb pc (pos b)) Zero) as [e|_]; [apply Fin; symmetry; auto|].
        unfold orient_direct. destruct (nth_error points v) as [p|] eqn:E; [|apply nth_error_None in E; lia].
        destruct (is_point_built_from_plane p pa pb pc) eqn:Bp.
        * apply Fin. symmetry. unfold exact_side. apply ori_eq_zero. unfold Prop_Dispatch.o3.
          pose proof (built_spec p pa pb pc (pos v) (h_loc _ _ _ Hist v p E) Bp) as Q. unfold on_plane in Q. lra.
        * rewrite (O3 _ _ E). apply Fin. reflexivity. }
  clearbody body. revert m R. induction verts as [|v verts IHv]; intros m R; cbn [oiter].
  - exists m. repeat split; auto. intros v [].
  - destruct (B v) as (L1 & L2); [now left|]. destruct (Bd v m L1 L2 R) as (m1 & E1 & R1 & X1 & G1). rewrite E1.
    destruct (IHv ltac:(intros; apply B; now right) m1 R1) as (m2 & E2 & R2 & X2 & G2). exists m2. split; [auto|]. split; [auto|]. split.
    + intros w o H. apply X2, X1, H.
    + intros w [<-|Hw]; auto.
Qed.
End C48.

(** * C56 *)
Definition nrm (r s t : vec3) : vec3 := cross (vsub s r) (vsub t r).
Lemma orient3_nrm r s t x : orient3 r s t x = - dot (nrm r s t) (vsub x r).
Proof. unfold nrm. geo. ring. Qed.
Lemma vnz (d : vec3) : d <> vzero -> 0 < dot d d.
Proof.
  intros N. destruct d as [x y z]. unfold dot. cbn [vx vy vz].
  assert (Q : forall r, 0 <= r * r) by (intros; apply Rle_0_sqr). pose proof (Q x). pose proof (Q y). pose proof (Q z).
  destruct (Req_EM_T x 0) as [->|Nx]; [destruct (Req_EM_T y 0) as [->|Ny]; [destruct (Req_EM_T z 0) as [->|Nz]|]|].
  - exfalso. apply N. reflexivity.
  - pose proof (Rsqr_pos_lt z Nz). unfold Rsqr in H2. lra.
  - pose proof (Rsqr_pos_lt y Ny). unfold Rsqr in H2. lra.
  - pose proof (Rsqr_pos_lt x Nx). unfold Rsqr in H2. lra.
Qed.
Lemma perp_two n1 n2 d e : cross n1 n2 <> vzero -> dot n1 d = 0 -> dot n2 d = 0 -> dot n1 e = 0 -> dot n2 e = 0 -> e <> vzero -> exists t, d = vscale t e.
Proof.
  intros W D1 D2 E1 E2 Ne. set (w := cross n1 n2) in *. pose proof (vnz w W) as Pw.
  assert (Par : forall x, dot n1 x = 0 -> dot n2 x = 0 -> exists k, x = vscale k w).
  { intros x X1 X2. exists (dot x w / dot w w).
    assert (C : cross x w = vzero).
    { unfold w. destruct n1 as [a1 a2 a3], n2 as [b1 b2 b3], x as [x1 x2 x3]. unfold dot in X1, X2. cbn [vx vy vz] in X1, X2.
      unfold cross, vzero. cbn [vx vy vz]. apply vec3_eq; cbn [vx vy vz].
      - transitivity (a1 * (b1 * x1 + b2 * x2 + b3 * x3) - b1 * (a1 * x1 + a2 * x2 + a3 * x3)); [ring|rewrite X1, X2; ring].
      - transitivity (a2 * (b1 * x1 + b2 * x2 + b3 * x3) - b2 * (a1 * x1 + a2 * x2 + a3 * x3)); [ring|rewrite X1, X2; ring].
      - transitivity (a3 * (b1 * x1 + b2 * x2 + b3 * x3) - b3 * (a1 * x1 + a2 * x2 + a3 * x3)); [ring|rewrite X1, X2; ring]. }
    clearbody w. destruct w as [w1 w2 w3], x as [x1 x2 x3]. unfold dot in *. unfold cross, vzero in C. unfold vscale. cbn [vx vy vz] in *.
    injection C as C1 C2 C3. set (q := w1 * w1 + w2 * w2 + w3 * w3) in *.
    assert (forall x y, x * q = y -> x = y / q) as Dv by (intros x y <-; field; lra).
    apply vec3_eq; cbn [vx vy vz].
    - replace ((x1 * w1 + x2 * w2 + x3 * w3) / q * w1) with ((x1 * w1 + x2 * w2 + x3 * w3) * w1 / q) by (unfold Rdiv; ring). apply Dv. unfold q.
      transitivity ((x1 * w1 + x2 * w2 + x3 * w3) * w1 + w2 * (x1 * w2 - x2 * w1) - w3 * (x3 * w1 - x1 * w3)); [ring|rewrite C2, C3; ring].
    - replace ((x1 * w1 + x2 * w2 + x3 * w3) / q * w2) with ((x1 * w1 + x2 * w2 + x3 * w3) * w2 / q) by (unfold Rdiv; ring). apply Dv. unfold q.
      transitivity ((x1 * w1 + x2 * w2 + x3 * w3) * w2 + w3 * (x2 * w3 - x3 * w2) - w1 * (x1 * w2 - x2 * w1)); [ring|rewrite C1, C3; ring].
    - replace ((x1 * w1 + x2 * w2 + x3 * w3) / q * w3) with ((x1 * w1 + x2 * w2 + x3 * w3) * w3 / q) by (unfold Rdiv; ring). apply Dv. unfold q.
      transitivity ((x1 * w1 + x2 * w2 + x3 * w3) * w3 + w1 * (x3 * w1 - x1 * w3) - w2 * (x2 * w3 - x3 * w2)); [ring|rewrite C1, C2; ring]. }
  destruct (Par d D1 D2) as (a & ->), (Par e E1 E2) as (b & ->).
  assert (b <> 0). { intros ->. apply Ne. unfold vscale, vzero. f_equal; ring. }
  exists (a / b). unfold vscale. cbn [vx vy vz]. f_equal; field; auto.
Qed.
(** A plane given by three corners. *)
Definition plane3 := (vec3 * vec3 * vec3)%type.
Definition on (p : plane3) (x : vec3) : Prop := let '(r, s, t) := p in on_plane r s t x.
Definition nrm3 (p : plane3) : vec3 := let '(r, s, t) := p in nrm r s t.
Definition org3 (p : plane3) : vec3 := let '(r, s, t) := p in r.
Lemma on_nrm p x : on p x <-> dot (nrm3 p) (vsub x (org3 p)) = 0.
Proof. destruct p as ((r & s) & t). cbn. unfold on_plane. rewrite orient3_nrm. split; lra. Qed.
Lemma on_diff p x y : on p x -> on p y -> dot (nrm3 p) (vsub x y) = 0.
Proof.
  intros Hx Hy. apply on_nrm in Hx, Hy. replace (dot (nrm3 p) (vsub x y)) with (dot (nrm3 p) (vsub x (org3 p)) - dot (nrm3 p) (vsub y (org3 p))); [lra|].
  unfold dot, vsub. cbn [vx vy vz]. ring.
Qed.
Lemma vsub_nz (a b : vec3) : a <> b -> vsub a b <> vzero.
Proof. intros N H. apply N. destruct a, b. unfold vsub, vzero in H. cbn in H. injection H as ? ? ?. f_equal; lra. Qed.
Lemma common_line P Q a b x : cross (nrm3 P) (nrm3 Q) <> vzero -> a <> b -> on P a -> on P b -> on Q a -> on Q b -> (on P x /\ on Q x <-> on_line a b x).
Proof.
  intros W Ne Pa Pb Qa Qb. split.
  - intros (Px & Qx).
    assert (Nz : vsub b a <> vzero) by (apply vsub_nz; congruence).
    destruct (perp_two (nrm3 P) (nrm3 Q) (vsub x a) (vsub b a) W (on_diff _ _ _ Px Pa) (on_diff _ _ _ Qx Qa) (on_diff _ _ _ Pb Pa) (on_diff _ _ _ Qb Qa) Nz) as (t & E).
    exists t. rewrite <- E. destruct x as [x1 x2 x3], a as [a1 a2 a3]. unfold vadd, vsub. cbn [vx vy vz]. f_equal; ring.
  - intros L. destruct P as ((r & s) & t), Q as ((r' & s') & t'). cbn [on] in *. split; [apply (line_in_plane _ _ _ a b)|apply (line_in_plane _ _ _ a b)]; auto.
Qed.
Lemma crossing A B C u v : orient3 A B C u * orient3 A B C v < 0 ->
  u <> v /\ (forall z, on_line u v z /\ on_plane A B C z <-> in_open_segment z u v /\ on_plane A B C z) /\
  exists z, in_open_segment z u v /\ on_plane A B C z.
Proof.
  intros H. assert (Ne : u <> v). { intros ->. assert (0 <= orient3 A B C v * orient3 A B C v) by apply Rle_0_sqr. lra. }
  set (fu := orient3 A B C u) in *. set (fv := orient3 A B C v) in *.
  assert (Sg : (0 < fu /\ fv < 0) \/ (fu < 0 /\ 0 < fv)).
  { destruct (Rtotal_order fu 0) as [K|[K|K]], (Rtotal_order fv 0) as [J|[J|J]]; try lra; exfalso; try (rewrite K in H; lra); try (rewrite J in H; lra).
    - assert (0 < - fu * - fv) by (apply Rmult_lt_0_compat; lra). lra.
    - assert (0 < fu * fv) by (apply Rmult_lt_0_compat; lra). lra. }
  split; [auto|]. split.
  - intros z. split; [|intros ((_ & t & _ & ->) & P); split; auto; exists t; reflexivity].
    intros ((t & ->) & P). split; auto. split; auto. exists t. split; [|reflexivity].
    unfold on_plane in P. rewrite orient3_line in P. fold fu fv in P. 
    destruct (Rle_lt_dec t 0) as [L|L]; [exfalso|destruct (Rlt_le_dec t 1) as [L'|L']; [lra|exfalso]].
    + destruct Sg as [(S1 & S2)|(S1 & S2)].
      * assert (0 <= - t * - fv) by (apply Rmult_le_pos; lra). assert (fu <= (1 - t) * fu) by (assert (0 <= - t * fu) by (apply Rmult_le_pos; lra); lra). lra.
      * assert (0 <= - t * fv) by (apply Rmult_le_pos; lra). assert ((1 - t) * fu <= fu) by (assert (0 <= - t * - fu) by (apply Rmult_le_pos; lra); lra). lra.
    + destruct Sg as [(S1 & S2)|(S1 & S2)].
      * assert (0 <= (t - 1) * fu) by (apply Rmult_le_pos; lra). assert (t * fv <= fv) by (assert (0 <= (t - 1) * - fv) by (apply Rmult_le_pos; lra); lra). lra.
      * assert (0 <= (t - 1) * - fu) by (apply Rmult_le_pos; lra). assert (fv <= t * fv) by (assert (0 <= (t - 1) * fv) by (apply Rmult_le_pos; lra); lra). lra.
  - set (t := fu / (fu - fv)). assert (D : fu - fv <> 0) by lra. assert (T : t * (fu - fv) = fu) by (unfold t; field; auto).
    exists (lerp u v t). split.
    + split; auto. exists t. split; [|reflexivity]. destruct Sg as [(S1 & S2)|(S1 & S2)].
      * split; [apply Rmult_lt_reg_r with (fu - fv); lra|apply Rmult_lt_reg_r with (fu - fv); lra].
      * split; [apply Rmult_lt_reg_r with (fv - fu); lra|apply Rmult_lt_reg_r with (fv - fu); lra].
    + unfold on_plane, lerp. rewrite orient3_line. fold fu fv. lra.
Qed.
Lemma not_parallel P A B C u v : orient3 A B C u * orient3 A B C v < 0 -> on P u -> on P v -> nrm3 P <> vzero -> cross (nrm3 P) (nrm A B C) <> vzero.
Proof.
  intros H Pu Pv Nz W.
  pose proof (on_diff P v u Pv Pu) as D. set (n := nrm3 P) in *. set (m := nrm A B C) in *.
  assert (M : dot n n * dot m (vsub v u) = 0).
  { transitivity (dot n m * dot n (vsub v u)); [|rewrite D; ring].
    transitivity (dot (cross n m) (cross n (vsub v u)) + dot n m * dot n (vsub v u)).
    - unfold dot, cross. cbn [vx vy vz]. ring.
    - rewrite W. unfold dot, vzero. cbn [vx vy vz]. ring. }
  apply Rmult_integral in M. destruct M as [M|M]; [pose proof (vnz n Nz); lra|].
  assert (E : orient3 A B C u = orient3 A B C v).
  { rewrite !orient3_nrm. fold m. replace (dot m (vsub v A)) with (dot m (vsub u A) + dot m (vsub v u)); [rewrite M; ring|]. unfold dot, vsub. cbn [vx vy vz]. ring. }
  rewrite E in H. assert (0 <= orient3 A B C v * orient3 A B C v) by apply Rle_0_sqr. lra.
Qed.
Lemma cross_sym_nz a b : cross a b <> vzero -> cross b a <> vzero.
Proof. intros H E. apply H. unfold cross, vzero in *. injection E as ? ? ?. f_equal; lra. Qed.
Lemma cross_nz_l a b : cross a b <> vzero -> a <> vzero.
Proof. intros H ->. apply H. unfold cross, vzero. cbn. f_equal; ring. Qed.

Section C56.
Variable points : list bpoint.
Let ex := explicit_at points.
(** The three vertex numbers [l] are those of the plane [p]. *)
Definition corners (l : list nat) (p : plane3) : Prop :=
  match l with [a; b; c] => explicit_at points a = Some (fst (fst p)) /\ explicit_at points b = Some (snd (fst p)) /\ explicit_at points c = Some (snd p) | _ => False end.

Lemma corners_on l p a : corners l p -> In a l -> exists x, explicit_at points a = Some x /\ on p x.
Proof.
  destruct l as [|i [|j [|k [|]]]]; cbn; try tauto. destruct p as ((r & s) & t). cbn. intros (Hi & Hj & Hk) [<-|[<-|[<-|[]]]];
    eexists; split; eauto using plane_a, plane_b, plane_c.
Qed.
Lemma common_two_spec t2 : forall t1 c, (length c <= 1)%nat -> forall c0 c1 r, common_two t1 t2 c = c0 :: c1 :: r ->
  (exists i j, (i < j)%nat /\ nth_error (c ++ t1) i = Some c0 /\ nth_error (c ++ t1) j = Some c1) /\
  (In c0 c \/ In c0 t2) /\ (In c1 c \/ In c1 t2).
Proof.
  assert (Ex : forall a, existsb (Nat.eqb a) t2 = true -> In a t2) by (intros a H; apply existsb_exists in H; destruct H as (b & H & E); apply Nat.eqb_eq in E; now subst).
  induction t1 as [|a t IH]; intros c L c0 c1 r E; cbn [common_two] in E.
  - subst c. cbn in L. lia.
  - destruct (existsb (Nat.eqb a) t2) eqn:Ea.
    + destruct (Nat.ltb_spec 1 (length (c ++ [a]))) as [L'|L'].
      * destruct c as [|x [|]]; cbn in L', L; try lia. cbn in E. inversion E; subst. split; [exists 0%nat, 1%nat; cbn; auto|]. cbn; auto.
      * destruct c as [|x [|]]; cbn in L', L; try lia. cbn [app] in E. apply IH in E; [|cbn; lia]. destruct E as ((i & j & Hij & H0 & H1) & I0 & I1).
        split; [exists i, j; auto|]. cbn [In] in *. split; right; [destruct I0 as [[<-|[]]|]|destruct I1 as [[<-|[]]|]]; auto.
    + destruct (Nat.ltb_spec 1 (length c)) as [L'|L']; [lia|]. apply IH in E; [|lia]. destruct E as ((i & j & Hij & H0 & H1) & I0 & I1).
      split; [|auto]. destruct c as [|x [|]]; cbn in L', L; try lia.
      * exists (S i), (S j). cbn. split; [lia|auto].
      * destruct i as [|i]; [exists 0%nat|exists (S (S i))]; destruct j as [|j]; try lia; exists (S (S j)); cbn in *; split; try lia; auto.
Qed.
Lemma corners_distinct l p i j a b : corners l p -> nrm3 p <> vzero -> (i < j)%nat -> nth_error l i = Some a -> nth_error l j = Some b ->
  exists x y, explicit_at points a = Some x /\ explicit_at points b = Some y /\ x <> y.
Proof.
  destruct l as [|a0 [|a1 [|a2 [|]]]]; cbn [corners]; try tauto. destruct p as ((r & s) & t). cbn [fst snd nrm3]. intros (H0 & H1 & H2) N L Ha Hb.
  assert (N1 : r <> s). { intros ->. apply N. unfold nrm. geo. f_equal; ring. }
  assert (N2 : r <> t). { intros ->. apply N. unfold nrm. geo. f_equal; ring. }
  assert (N3 : s <> t). { intros ->. apply N. unfold nrm. geo. f_equal; ring. }
  destruct i as [|[|i]], j as [|[|[|j]]]; cbn in Ha, Hb; try lia; try (destruct i; discriminate); try (destruct j; discriminate);
    inversion Ha; inversion Hb; subst; do 2 eexists; split; eauto.
  all: destruct i; cbn in *; try lia; try discriminate.
Qed.
Lemma shared_spec l0 l1 l2 p0 p1 p2 : corners l0 p0 -> corners l1 p1 -> corners l2 p2 -> cross (nrm3 p1) (nrm3 p2) <> vzero ->
  shared_line points l0 l1 l2 = Some None \/
  exists q, shared_line points l0 l1 l2 = Some (Some q) /\ forall z, located q z <-> on p0 z /\ on p1 z /\ on p2 z.
Proof.
  intros C0 C1 C2 W. unfold shared_line. destruct (common_two l1 l2 []) as [|c0 [|c1 r]] eqn:E; auto. right.
  apply common_two_spec in E; [|cbn; lia]. destruct E as ((i & j & L & H0 & H1) & I0 & I1). cbn [app] in H0, H1.
  destruct (corners_distinct _ _ _ _ _ _ C1 (cross_nz_l _ _ W) L H0 H1) as (x & y & Ex & Ey & Ne).
  rewrite Ex, Ey. destruct l0 as [|a [|b [|c [|]]]]; cbn [corners] in C0; try tauto. destruct C0 as (Ea & Eb & Ec). rewrite Ea, Eb, Ec.
  eexists. split; [reflexivity|]. intros z. cbn [located lp lq lr ls lt_].
  destruct I0 as [[]|I0], I1 as [[]|I1].
  destruct (corners_on _ _ _ C1 (nth_error_In _ _ H0)) as (x' & Ex' & X1). destruct (corners_on _ _ _ C1 (nth_error_In _ _ H1)) as (y' & Ey' & Y1).
  destruct (corners_on _ _ _ C2 I0) as (x'' & Ex'' & X2). destruct (corners_on _ _ _ C2 I1) as (y'' & Ey'' & Y2).
  rewrite Ex in Ex', Ex''. rewrite Ey in Ey', Ey''. inversion Ex'. inversion Ex''. inversion Ey'. inversion Ey''. subst x' x'' y' y''.
  rewrite <- (common_line p1 p2 x y z W Ne X1 Y1 X2 Y2). destruct p0 as ((r0 & s0) & t0). cbn [fst snd on]. tauto.
Qed.
Lemma three_spec l0 l1 l2 p0 p1 p2 : corners l0 p0 -> corners l1 p1 -> corners l2 p2 ->
  cross (nrm3 p1) (nrm3 p2) <> vzero -> cross (nrm3 p2) (nrm3 p0) <> vzero -> cross (nrm3 p0) (nrm3 p1) <> vzero ->
  exists q, three_planes_intersection points l0 l1 l2 = Some q /\ forall z, located q z <-> on p0 z /\ on p1 z /\ on p2 z.
Proof.
  intros C0 C1 C2 W0 W1 W2. unfold three_planes_intersection.
  destruct (shared_spec _ _ _ _ _ _ C0 C1 C2 W0) as [->|(q & -> & H)]; [|eauto].
  destruct (shared_spec _ _ _ _ _ _ C1 C2 C0 W1) as [->|(q & -> & H)]; [|exists q; split; auto; intros z; rewrite H; tauto].
  destruct (shared_spec _ _ _ _ _ _ C2 C0 C1 W2) as [->|(q & -> & H)]; [|exists q; split; auto; intros z; rewrite H; tauto].
  destruct l0 as [|a0 [|a1 [|a2 [|]]]]; cbn [corners] in C0; try tauto. destruct l1 as [|b0 [|b1 [|b2 [|]]]]; cbn [corners] in C1; try tauto.
  destruct l2 as [|c0 [|c1 [|c2 [|]]]]; cbn [corners] in C2; try tauto.
  destruct C0 as (-> & -> & ->), C1 as (-> & -> & ->), C2 as (-> & -> & ->). eexists. split; [reflexivity|].
  intros z. destruct p0 as ((? & ?) & ?), p1 as ((? & ?) & ?), p2 as ((? & ?) & ?). cbn. tauto.
Qed.

(** An edge on the line through two input points. *)
Theorem C56_clip_line x y X Y tri p u v : corners tri p -> explicit_at points x = Some X -> explicit_at points y = Some Y -> X <> Y ->
  on_line X Y u -> on_line X Y v ->
  (let '(A, B, C) := p in orient3 A B C u * orient3 A B C v < 0) ->
  exists q, get_ef_clip_pt points [x; y] tri = Some q /\
    (exists z, located q z) /\ forall z, located q z <-> in_open_segment z u v /\ on p z.
Proof.
  intros C Ex Ey Ne Lu Lv Op. destruct tri as [|a [|b [|c [|]]]]; cbn [corners] in C; try tauto.
  destruct p as ((A & B) & Cc). cbn [fst snd] in C. destruct C as (Ea & Eb & Ec).
  unfold get_ef_clip_pt. rewrite Ea, Eb, Ec. cbn [length Nat.ltb Nat.leb]. rewrite Ex, Ey. eexists. split; [reflexivity|].
  cbn [located lp lq lr ls lt_ on].
  destruct (crossing A B Cc u v Op) as (Nuv & Iff & Exi).
  assert (Ln : forall z, on_line X Y z <-> on_line u v z).
  { destruct Lu as (s & ->), Lv as (t & ->).
    assert (Nst : t - s <> 0). { intros E. apply Nuv. replace t with s by lra. reflexivity. }
    intros z. split; intros (k & ->).
    - exists ((k - s) / (t - s)). destruct X, Y. unfold vadd, vscale, vsub. cbn. f_equal; field; auto.
    - exists (s + k * (t - s)). destruct X, Y. unfold vadd, vscale, vsub. cbn. f_equal; ring. }
  assert (I2 : forall z, on_line X Y z /\ on_plane A B Cc z <-> in_open_segment z u v /\ on_plane A B Cc z) by (intros z; rewrite Ln; apply Iff).
  split; [|exact I2]. destruct Exi as (z & Hz). exists z. now apply I2.
Qed.
(** An edge in which two planes meet. *)
Theorem C56_clip_planes f g P Q tri p u v : corners tri p -> corners f P -> corners g Q -> cross (nrm3 P) (nrm3 Q) <> vzero ->
  on P u -> on Q u -> on P v -> on Q v ->
  (let '(A, B, C) := p in orient3 A B C u * orient3 A B C v < 0) ->
  exists q, get_ef_clip_pt points (f ++ g) tri = Some q /\
    (exists z, located q z) /\ forall z, located q z <-> in_open_segment z u v /\ on p z.
Proof.
  intros C Cf Cg W Pu Qu Pv Qv Op.
  assert (Lf : length f = 3%nat) by (destruct f as [|? [|? [|? [|]]]]; cbn in Cf; tauto || reflexivity).
  assert (Lg : length g = 3%nat) by (destruct g as [|? [|? [|? [|]]]]; cbn in Cg; tauto || reflexivity).
  destruct p as ((A & B) & Cc).
  assert (W1 : cross (nrm3 Q) (nrm3 (A, B, Cc)) <> vzero) by (apply (not_parallel Q A B Cc u v); auto; apply (cross_nz_l _ _ (cross_sym_nz _ _ W))).
  assert (W2 : cross (nrm3 (A, B, Cc)) (nrm3 P) <> vzero) by (apply cross_sym_nz, (not_parallel P A B Cc u v); auto; apply (cross_nz_l _ _ W)).
  destruct (three_spec f g tri P Q _ Cf Cg C W1 W2 W) as (q & E & H).
  exists q. split.
  - unfold get_ef_clip_pt. destruct tri as [|a [|b [|c [|]]]]; cbn [corners] in C; try tauto. destruct C as (-> & -> & ->).
    rewrite app_length, Lf, Lg. cbn [Nat.add Nat.ltb Nat.leb]. rewrite firstn_app, skipn_app, Lf, Nat.sub_diag, firstn_O, skipn_O, app_nil_r, <- Lf, firstn_all, skipn_all. exact E.
  - destruct (crossing A B Cc u v Op) as (Nuv & Iff & Exi).
    assert (I2 : forall z, located q z <-> in_open_segment z u v /\ on (A, B, Cc) z).
    { intros z. rewrite H. rewrite <- and_assoc, (common_line P Q u v z W Nuv Pu Pv Qu Qv). cbn [on]. apply Iff. }
    split; [|exact I2]. destruct Exi as (z & Hz). exists z. now apply I2.
Qed.
End C56.

(** * A concrete complex: the segment from (0,0,0) to (2,0,0) cut by the plane x = 1. *)
Definition case_points : list bpoint :=
  [Explicit (V3 0 0 0); Explicit (V3 2 0 0); Explicit (V3 1 (-1) (-1)); Explicit (V3 1 1 (-1)); Explicit (V3 1 0 2);
   LPI (mk_lpi (V3 0 0 0) (V3 2 0 0) (V3 1 (-1) (-1)) (V3 1 1 (-1)) (V3 1 0 2))].
Definition case_parents : list (nat * nat) := [(0, 0); (1, 1); (2, 2); (3, 3); (4, 4); (0, 1)]%nat.
Definition case_pos (k : nat) : vec3 := nth k [V3 0 0 0; V3 2 0 0; V3 1 (-1) (-1); V3 1 1 (-1); V3 1 0 2; V3 1 0 0] vzero.
Lemma case_history : history case_points case_parents case_pos.
Proof.
  split; [reflexivity| |].
  - intros k p H. do 6 (destruct k as [|k]; [cbn in H; inversion H; subst; cbn [located case_pos nth]; try reflexivity|]).
    + cbn [lp lq lr ls lt_]. split; [exists (1 / 2); geo; f_equal; lra|unfold on_plane; geo; ring].
    + destruct k; discriminate.
  - intros k a b H N. do 5 (destruct k as [|k]; [cbn in H; inversion H; congruence|]). destruct k as [|k]; [|destruct k; discriminate].
    cbn in H. inversion H; subst. split; [lia|]. split; [lia|]. split; [intros E; injection E; lra|]. exists (1 / 2). split; [lra|]. cbn. geo. f_equal; lra.
Qed.
(** The plane z = 1: vertex 5 inherits the common side of its parents. *)
Example C48_case : exists o3f m',
  (forall k p, nth_error case_points k = Some p -> o3f (V3 0 0 1) (V3 1 0 1) (V3 0 1 1) p = Some (exact_side (V3 0 0 1) (V3 1 0 1) (V3 0 1 1) (case_pos k))) /\
  verts_orient_wrt_plane o3f case_points case_parents 6 (V3 0 0 1) (V3 1 0 1) (V3 0 1 1) [5%nat] [] = Some m' /\
  mget m' 5 = Some Negative.
Proof.
  set (o3f := fun (a b c : vec3) (p : bpoint) => match p with Explicit e => Some (exact_side a b c e) | LPI _ => Some (exact_side a b c (V3 1 0 0)) | TPI _ => None end).
  assert (O : forall k p, nth_error case_points k = Some p -> o3f (V3 0 0 1) (V3 1 0 1) (V3 0 1 1) p = Some (exact_side (V3 0 0 1) (V3 1 0 1) (V3 0 1 1) (case_pos k))).
  { intros k p H. do 6 (destruct k as [|k]; [cbn in H; inversion H; subst; reflexivity|]). destruct k; discriminate. }
  assert (S : forall x, vz x = 0 -> exact_side (V3 0 0 1) (V3 1 0 1) (V3 0 1 1) x = Negative).
  { intros x Hx. unfold exact_side. apply ori_neg. unfold Prop_Dispatch.o3. geo. rewrite Hx. lra. }
  destruct (C48_exact o3f case_points case_parents case_pos case_history _ _ _ O 6 [5%nat] []) as (m' & E & R & _ & G).
  - intros v [<-|[]]. cbn; lia.
  - intros v o H. discriminate.
  - lia.
  - exists o3f, m'. split; [exact O|]. split; [exact E|]. rewrite (G 5%nat) by (now left). f_equal. apply S. reflexivity.
Qed.
(** Cutting the segment at the plane x = 1, and the edge in which the planes
    y = 0 and z = 0 meet (the same line, given by two planes). *)
Example C56_case_line : exists q, get_ef_clip_pt case_points [0; 1]%nat [2; 3; 4]%nat = Some q /\ located q (V3 1 0 0).
Proof.
  destruct (C56_clip_line case_points 0 1 (V3 0 0 0) (V3 2 0 0) [2; 3; 4]%nat (V3 1 (-1) (-1), V3 1 1 (-1), V3 1 0 2) (V3 0 0 0) (V3 2 0 0)) as (q & E & _ & H).
  - cbn. auto.
  - reflexivity.
  - reflexivity.
  - intros E; injection E; lra.
  - exists 0. geo. f_equal; ring.
  - exists 1. geo. f_equal; ring.
  - geo. lra.
  - exists q. split; [exact E|]. apply H. split; [|cbn; unfold on_plane; geo; ring].
    split; [intros E'; injection E'; lra|]. exists (1 / 2). split; [lra|]. geo. f_equal; lra.
Qed.
Definition case_planes : list bpoint :=
  [Explicit (V3 0 0 0); Explicit (V3 2 0 0); Explicit (V3 0 1 0); Explicit (V3 0 0 1); Explicit (V3 1 (-1) (-1)); Explicit (V3 1 1 (-1)); Explicit (V3 1 0 2)].
Example C56_case_planes : exists q, get_ef_clip_pt case_planes [0; 1; 2; 0; 1; 3]%nat [4; 5; 6]%nat = Some q /\ located q (V3 1 0 0).
Proof.
  destruct (C56_clip_planes case_planes [0; 1; 2]%nat [0; 1; 3]%nat (V3 0 0 0, V3 2 0 0, V3 0 1 0) (V3 0 0 0, V3 2 0 0, V3 0 0 1) [4; 5; 6]%nat
    (V3 1 (-1) (-1), V3 1 1 (-1), V3 1 0 2) (V3 0 0 0) (V3 2 0 0)) as (q & E & _ & H).
  all: try (cbn [on]; unfold on_plane; geo; lra).
  - cbn. auto.
  - cbn. auto.
  - cbn. auto.
  - unfold nrm3, nrm. geo. intros E; injection E; lra.
  - exists q. split; [exact E|]. apply H. split; [|cbn; unfold on_plane; geo; ring].
    split; [intros E'; injection E'; lra|]. exists (1 / 2). split; [lra|]. geo. f_equal; lra.
Qed.
Print Assumptions C48_exact.
Print Assumptions C56_clip_line.
Print Assumptions C56_clip_planes.
