(** C53: the dynamic (interval) filter stage of the indirect predicates.  The
    interval code has positive() and negative() exchanged and mirrors two of
    the nine products (C26, C27).  Here: which kernels nevertheless decide
    correctly when no mirrored product occurs, and which decide wrongly. *)
From Coq Require Import ZArith Reals List Bool Lia Lra.
From Flocq Require Import Core BinarySingleNaN.
From Verif Require Import F64 Interval IntervalSpec F64Facts GenericFormulas Geo Dispatch Orient
  ExactStage Filters HomProofs Prop_Formulas Prop_Interval Prop_ExactStage Prop_Dispatch.
Import ListNotations.
Local Open Scope R_scope.

(** * A run of the interval stage without mirrored products *)

Definition nanfree (a : ival) : bool := negb (is_nan (hi a)) && negb (is_nan (nlo a)).
Definition okb (a : ival) : bool := nanfree a && negb (sign_neg (hi a) && sign_neg (nlo a)).
Definition mirroredb (a b : ival) : bool :=
  (negb (sign_neg (hi b)) && negb (sign_neg (nlo b))) && negb (sign_neg (hi a)).

Lemma mirroredb_spec : forall a b, okb a = true -> okb b = true ->
  mirroredb a b = false -> ~ mirrored a b.
Proof.
  intros a b A B H [[S1 S2] K]. unfold mirroredb in H. rewrite S1, S2 in H.
  destruct K as [[K1 K2]|[K1 K2]]; rewrite K1 in H; discriminate.
Qed.

(** The operations of the code, but [None] as soon as a product has a NaN
    lane, a pair of set sign bits, or is one of the mirrored cases. *)
Definition chk : num_ops (option ival) := NumOps
  (fun a b => match a, b with Some a, Some b => Some (iv_add a b) | _, _ => None end)
  (fun a b => match a, b with Some a, Some b => Some (iv_sub a b) | _, _ => None end)
  (fun a b => match a, b with
     | Some a, Some b => if okb a && okb b && negb (mirroredb a b) then iv_mul a b else None
     | _, _ => None end).
(** Only finite coordinates. *)
Definition cof (x : f64) : option ival := if is_finite x then iof x else None.

(** * A number carrying its exact value, its checked interval and the interval
    of the code *)
Definition enc (r : R) (i u : option ival) : Prop :=
  match i with Some j => contains r j /\ u = Some j | None => True end.
Record rp : Type := RP { rv : R; ri : option ival; ru : option ival; rok : enc rv ri ru }.

Lemma enc_add r i u s j v : enc r i u -> enc s j v ->
  enc (r + s) (nadd chk i j) (nadd iv_ops u v).
Proof.
  destruct i as [i|], j as [j|]; simpl; auto. intros [A ->] [B ->]. split; auto.
  apply iv_add_contains; auto.
Qed.
Lemma enc_sub r i u s j v : enc r i u -> enc s j v ->
  enc (r - s) (nsub chk i j) (nsub iv_ops u v).
Proof.
  destruct i as [i|], j as [j|]; simpl; auto. intros [A ->] [B ->]. split; auto.
  apply iv_sub_contains; auto.
Qed.
Lemma okb_spec a : okb a = true -> no_nan a /\ signs_ok a.
Proof.
  unfold okb, nanfree, no_nan, signs_ok. rewrite !andb_true_iff, !negb_true_iff. tauto.
Qed.
Lemma enc_mul r i u s j v : enc r i u -> enc s j v ->
  enc (r * s) (nmul chk i j) (nmul iv_ops u v).
Proof.
  destruct i as [i|], j as [j|]; simpl; auto. intros [A ->] [B ->].
  destruct (okb i && okb j && negb (mirroredb i j)) eqn:E; simpl; auto.
  apply andb_prop in E. destruct E as [E M]. apply andb_prop in E. destruct E as [Oi Oj].
  apply negb_true_iff in M.
  destruct (okb_spec _ Oi) as [N1 S1]. destruct (okb_spec _ Oj) as [N2 S2].
  destruct (iv_mul_total i j S1 S2) as (c & Ec). rewrite Ec. simpl. split; auto.
  exact (iv_mul_contains_partial r s i j c N1 N2 S1 S2 (mirroredb_spec i j Oi Oj M) A B Ec).
Qed.

Definition rp_ops : num_ops rp := NumOps
  (fun a b => RP _ _ _ (enc_add _ _ _ _ _ _ (rok a) (rok b)))
  (fun a b => RP _ _ _ (enc_sub _ _ _ _ _ _ (rok a) (rok b)))
  (fun a b => RP _ _ _ (enc_mul _ _ _ _ _ _ (rok a) (rok b))).

Lemma enc_of x : enc (val x) (cof x) (iof x).
Proof.
  unfold cof. destruct (is_finite x) eqn:F; simpl; auto. split; auto. apply iv_of_contains; auto.
Qed.
Definition rof (x : f64) : rp := RP _ _ _ (enc_of x).

(** * Points and caches *)
Definition Rp (p : point) : pt3 R := P3 (val (p3x p)) (val (p3y p)) (val (p3z p)).
Definition Rl (l : lpi_pt f64) : lpi_pt R := LP (Rp (lp l)) (Rp (lq l)) (Rp (lr l)) (Rp (ls l)) (Rp (lt l)).
Definition Rt (t : tpi_pt f64) : tpi_pt R :=
  TP (Rp (tv1 t)) (Rp (tv2 t)) (Rp (tv3 t)) (Rp (tw1 t)) (Rp (tw2 t)) (Rp (tw3 t))
     (Rp (tu1 t)) (Rp (tu2 t)) (Rp (tu3 t)).

Definition encc (r : cache R) (i u : cache (option ival)) : Prop :=
  enc (lx r) (lx i) (lx u) /\ enc (ly r) (ly i) (ly u) /\ enc (lz r) (lz i) (lz u) /\ enc (ld r) (ld i) (ld u).

Lemma encc_cmap (c : cache rp) : encc (cmap rv c) (cmap ri c) (cmap ru c).
Proof.
  destruct c as [[? ? ? A] [? ? ? B] [? ? ? C] [? ? ? D]].
  split; [exact A|]. split; [exact B|]. split; [exact C|exact D].
Qed.

Lemma lpi_enc l : encc (lpi_cacheR (Rl l)) (fst (lpi_ker chk cof l)) (fst (lpi_ker iv_ops iof l)).
Proof.
  pose proof (encc_cmap (fst (lpi_ker rp_ops rof l))) as E. revert E.
  unfold lpi_ker, lpi_cacheR, lpi_R, V, Rl, Rp. cbn [vx vy vz lp lq lr ls lt p3x p3y p3z].
  match goal with |- encc (cmap rv (fst (lpi_lambda rp_ops ?a1 ?a2 ?a3 ?b1 ?b2 ?b3 ?c1 ?c2 ?c3 ?d1 ?d2 ?d3 ?e1 ?e2 ?e3))) _ _ -> _ =>
    pose proof (lpi_hom rp_ops Rops rv (fun _ _ => eq_refl) (fun _ _ => eq_refl) (fun _ _ => eq_refl) a1 a2 a3 b1 b2 b3 c1 c2 c3 d1 d2 d3 e1 e2 e3) as H1;
    pose proof (lpi_hom rp_ops chk ri (fun _ _ => eq_refl) (fun _ _ => eq_refl) (fun _ _ => eq_refl) a1 a2 a3 b1 b2 b3 c1 c2 c3 d1 d2 d3 e1 e2 e3) as H2;
    pose proof (lpi_hom rp_ops iv_ops ru (fun _ _ => eq_refl) (fun _ _ => eq_refl) (fun _ _ => eq_refl) a1 a2 a3 b1 b2 b3 c1 c2 c3 d1 d2 d3 e1 e2 e3) as H3
  end.
  cbv zeta in H1, H2, H3. cbn [rof rv ri ru] in H1, H2, H3.
  rewrite H1, H2, H3. cbn [fst]. auto.
Qed.
Lemma tpi_enc t : encc (tpi_cacheR (Rt t)) (fst (tpi_ker chk cof t)) (fst (tpi_ker iv_ops iof t)).
Proof.
  pose proof (encc_cmap (fst (tpi_ker rp_ops rof t))) as E. revert E.
  unfold tpi_ker, tpi_cacheR, tpi_R, V, Rt, Rp.
  cbn [vx vy vz tv1 tv2 tv3 tw1 tw2 tw3 tu1 tu2 tu3 p3x p3y p3z].
  match goal with |- encc (cmap rv (fst (tpi_lambda rp_ops ?a1 ?a2 ?a3 ?b1 ?b2 ?b3 ?c1 ?c2 ?c3 ?d1 ?d2 ?d3 ?e1 ?e2 ?e3
      ?f1 ?f2 ?f3 ?g1 ?g2 ?g3 ?h1 ?h2 ?h3 ?i1 ?i2 ?i3))) _ _ -> _ =>
    pose proof (tpi_hom rp_ops Rops rv (fun _ _ => eq_refl) (fun _ _ => eq_refl) (fun _ _ => eq_refl) a1 a2 a3 b1 b2 b3 c1 c2 c3 d1 d2 d3 e1 e2 e3 f1 f2 f3 g1 g2 g3 h1 h2 h3 i1 i2 i3) as H1;
    pose proof (tpi_hom rp_ops chk ri (fun _ _ => eq_refl) (fun _ _ => eq_refl) (fun _ _ => eq_refl) a1 a2 a3 b1 b2 b3 c1 c2 c3 d1 d2 d3 e1 e2 e3 f1 f2 f3 g1 g2 g3 h1 h2 h3 i1 i2 i3) as H2;
    pose proof (tpi_hom rp_ops iv_ops ru (fun _ _ => eq_refl) (fun _ _ => eq_refl) (fun _ _ => eq_refl) a1 a2 a3 b1 b2 b3 c1 c2 c3 d1 d2 d3 e1 e2 e3 f1 f2 f3 g1 g2 g3 h1 h2 h3 i1 i2 i3) as H3
  end.
  cbv zeta in H1, H2, H3. cbn [rof rv ri ru] in H1, H2, H3.
  rewrite H1, H2, H3. cbn [fst]. auto.
Qed.

(** The interval stage leaves the denominator negative. *)
Definition nhomog (c : cache R) (P : vec3) : Prop :=
  ld c < 0 /\ lx c = ld c * vx P /\ ly c = ld c * vy P /\ lz c = ld c * vz P.

Lemma dyn_cache_enc r i u c : encc r i u -> dyn_cache i = Some (Some c) ->
  dyn_cache u = Some (Some c) /\ ld r <> 0 /\ exists r', encc r' c c /\ nhomog r' (cache_point r).
Proof.
  intros (A & B & C & D) E. unfold dyn_cache in E |- *.
  destruct i as [[x|] [y|] [z|] [d|]]; cbn [lx ly lz ld] in *; try discriminate.
  simpl in A, B, C, D. destruct A as [A Ax], B as [B By], C as [C Cz], D as [D Dd].
  rewrite Ax, By, Cz, Dd. rewrite E. split; auto.
  injection E as E. destruct (iv_negative d) eqn:N; cbn [lx ly lz ld] in E.
  - pose proof (iv_negative_means_positive _ _ N D) as Hd. split; [lra|].
    destruct (iv_not_zero (iv_neg d)); [|discriminate]. injection E as <-.
    exists (Cache (- lx r) (- ly r) (- lz r) (- ld r)). split.
    + unfold encc; cbn [lx ly lz ld]. simpl. rewrite <- !iv_neg_contains. tauto.
    + unfold nhomog, cache_point; cbn. split; [lra|]. split; [|split]; field; lra.
  - destruct (iv_not_zero d) eqn:Z; [|discriminate]. injection E as <-.
    unfold iv_not_zero in Z. unfold iv_negative in N. rewrite N, orb_false_r in Z.
    pose proof (iv_positive_means_negative _ _ Z D) as Hd. split; [lra|].
    exists r. split.
    + unfold encc; cbn [lx ly lz ld]. simpl. tauto.
    + unfold nhomog, cache_point; cbn. split; [lra|]. split; [|split]; field; lra.
Qed.

(** An implicit point. *)
Definition imp := (lpi_pt f64 + tpi_pt f64)%type.
Definition i_chk (p : imp) := match p with
  | inl l => dyn_cache (fst (lpi_ker chk cof l)) | inr t => dyn_cache (fst (tpi_ker chk cof t)) end.
Definition i_dyn (p : imp) := match p with inl l => lpi_dyn iv_ops l | inr t => tpi_dyn iv_ops t end.
Definition i_ok (p : imp) := match p with inl l => lpi_ok (Rl l) | inr t => tpi_ok (Rt t) end.
Definition i_sem (p : imp) := match p with inl l => semL (Rl l) | inr t => semT (Rt t) end.

Lemma i_dyn_enc p c : i_chk p = Some (Some c) ->
  i_dyn p = Some (Some c) /\ i_ok p /\ exists r, encc r c c /\ nhomog r (i_sem p).
Proof.
  destruct p as [l|t]; intros E.
  - destruct (dyn_cache_enc _ _ _ _ (lpi_enc l) E) as (A & B & C).
    split; [exact A|]. split; [apply lpi_ok_d; exact B|exact C].
  - destruct (dyn_cache_enc _ _ _ _ (tpi_enc t) E) as (A & B & C).
    split; [exact A|]. split; [apply tpi_ok_d; exact B|exact C].
Qed.

(** * The kernels enclose *)
Definition pk (r : cache R) (i u : cache (option ival)) (H : encc r i u) : cache rp :=
  Cache (RP _ _ _ (proj1 H)) (RP _ _ _ (proj1 (proj2 H))) (RP _ _ _ (proj1 (proj2 (proj2 H))))
        (RP _ _ _ (proj2 (proj2 (proj2 H)))).

Definition vof (x : f64) : R := val x.
Notation rid := (fun _ _ => eq_refl).
Lemma ker_ieee_enc r i u (H : encc r i u) a b c :
  enc (fst (ker_ieee Rops vof r a b c)) (fst (ker_ieee chk cof i a b c)) (fst (ker_ieee iv_ops iof u a b c)).
Proof. exact (rok (fst (ker_ieee rp_ops rof (pk _ _ _ H) a b c))). Qed.
Lemma ker_iiee_enc r i u (H : encc r i u) r2 i2 u2 (H2 : encc r2 i2 u2) a b :
  enc (fst (ker_iiee Rops vof r r2 a b)) (fst (ker_iiee chk cof i i2 a b)) (fst (ker_iiee iv_ops iof u u2 a b)).
Proof. exact (rok (fst (ker_iiee rp_ops rof (pk _ _ _ H) (pk _ _ _ H2) a b))). Qed.
Lemma ker_iiie_enc r i u (H : encc r i u) r2 i2 u2 (H2 : encc r2 i2 u2) r3 i3 u3 (H3 : encc r3 i3 u3) a :
  enc (fst (ker_iiie Rops vof r r2 r3 a)) (fst (ker_iiie chk cof i i2 i3 a)) (fst (ker_iiie iv_ops iof u u2 u3 a)).
Proof. exact (rok (fst (ker_iiie rp_ops rof (pk _ _ _ H) (pk _ _ _ H2) (pk _ _ _ H3) a))). Qed.
Lemma ker_iiii_enc r i u (H : encc r i u) r2 i2 u2 (H2 : encc r2 i2 u2) r3 i3 u3 (H3 : encc r3 i3 u3)
  r4 i4 u4 (H4 : encc r4 i4 u4) :
  enc (fst (ker_iiii Rops r r2 r3 r4)) (fst (ker_iiii chk i i2 i3 i4)) (fst (ker_iiii iv_ops u u2 u3 u4)).
Proof. exact (rok (fst (ker_iiii rp_ops (pk _ _ _ H) (pk _ _ _ H2) (pk _ _ _ H3) (pk _ _ _ H4)))). Qed.
Ltac axes axis := destruct axis as [|[|[|axis]]].
Lemma ker_iee_enc axis r i u (H : encc r i u) a b :
  enc (fst (ker_iee Rops vof axis r a b)) (fst (ker_iee chk cof axis i a b)) (fst (ker_iee iv_ops iof axis u a b)).
Proof. axes axis; [exact (rok (fst (ker_iee rp_ops rof 0%nat (pk _ _ _ H) a b)))|exact (rok (fst (ker_iee rp_ops rof 1%nat (pk _ _ _ H) a b)))|exact (rok (fst (ker_iee rp_ops rof 2%nat (pk _ _ _ H) a b)))|exact (rok (fst (ker_iee rp_ops rof (S (S (S axis))) (pk _ _ _ H) a b)))]. Qed.
Lemma ker_iie_enc axis r i u (H : encc r i u) r2 i2 u2 (H2 : encc r2 i2 u2) a :
  enc (fst (ker_iie Rops vof axis r r2 a)) (fst (ker_iie chk cof axis i i2 a)) (fst (ker_iie iv_ops iof axis u u2 a)).
Proof. axes axis; [exact (rok (fst (ker_iie rp_ops rof 0%nat (pk _ _ _ H) (pk _ _ _ H2) a)))|exact (rok (fst (ker_iie rp_ops rof 1%nat (pk _ _ _ H) (pk _ _ _ H2) a)))|exact (rok (fst (ker_iie rp_ops rof 2%nat (pk _ _ _ H) (pk _ _ _ H2) a)))|exact (rok (fst (ker_iie rp_ops rof (S (S (S axis))) (pk _ _ _ H) (pk _ _ _ H2) a)))]. Qed.
Lemma ker_iii_enc axis r i u (H : encc r i u) r2 i2 u2 (H2 : encc r2 i2 u2) r3 i3 u3 (H3 : encc r3 i3 u3) :
  enc (fst (ker_iii Rops axis r r2 r3)) (fst (ker_iii chk axis i i2 i3)) (fst (ker_iii iv_ops axis u u2 u3)).
Proof. axes axis; [exact (rok (fst (ker_iii rp_ops 0%nat (pk _ _ _ H) (pk _ _ _ H2) (pk _ _ _ H3))))|exact (rok (fst (ker_iii rp_ops 1%nat (pk _ _ _ H) (pk _ _ _ H2) (pk _ _ _ H3))))|exact (rok (fst (ker_iii rp_ops 2%nat (pk _ _ _ H) (pk _ _ _ H2) (pk _ _ _ H3))))|exact (rok (fst (ker_iii rp_ops (S (S (S axis))) (pk _ _ _ H) (pk _ _ _ H2) (pk _ _ _ H3))))]. Qed.
Lemma ker_ie_enc axis r i u (H : encc r i u) b :
  enc (fst (ker_ie Rops vof axis r b)) (fst (ker_ie chk cof axis i b)) (fst (ker_ie iv_ops iof axis u b)).
Proof. axes axis; [exact (rok (fst (ker_ie rp_ops rof 0%nat (pk _ _ _ H) b)))|exact (rok (fst (ker_ie rp_ops rof 1%nat (pk _ _ _ H) b)))|exact (rok (fst (ker_ie rp_ops rof 2%nat (pk _ _ _ H) b)))|exact (rok (fst (ker_ie rp_ops rof (S (S (S axis))) (pk _ _ _ H) b)))]. Qed.
Lemma ker_ii_dyn_enc axis r i u (H : encc r i u) r2 i2 u2 (H2 : encc r2 i2 u2) :
  enc (fst (ker_ii_dyn Rops axis r r2)) (fst (ker_ii_dyn chk axis i i2)) (fst (ker_ii_dyn iv_ops axis u u2)).
Proof. axes axis; [exact (rok (fst (ker_ii_dyn rp_ops 0%nat (pk _ _ _ H) (pk _ _ _ H2))))|exact (rok (fst (ker_ii_dyn rp_ops 1%nat (pk _ _ _ H) (pk _ _ _ H2))))|exact (rok (fst (ker_ii_dyn rp_ops 2%nat (pk _ _ _ H) (pk _ _ _ H2))))|exact (rok (fst (ker_ii_dyn rp_ops (S (S (S axis))) (pk _ _ _ H) (pk _ _ _ H2))))]. Qed.

(** * The decisions *)

(** Over a negative [k], the stage's verdict is the sign of [x], if the
    determinant is [k * x]. *)
Lemma decide_orient_neg k x i o l : k < 0 -> contains (k * x) i ->
  decide_orient (Some i, l) = Some (Some o) -> o = ori_of x.
Proof.
  intros K C E. unfold decide_orient in E. simpl in E.
  destruct (iv_not_zero i); [|discriminate].
  destruct (iv_positive i) eqn:P.
  - injection E as <-. pose proof (iv_positive_means_negative _ _ P C).
    symmetry. apply ori_pos. destruct (Rle_or_lt x 0); auto.
    pose proof (Rmult_le_0_lt_compat 0 (-k) 0 (-x)). nra.
  - destruct (iv_negative i) eqn:N; [|discriminate]. injection E as <-.
    pose proof (iv_negative_means_positive _ _ N C).
    symmetry. apply ori_neg. nra.
Qed.
Lemma decide_orient_pos k x i o l : 0 < k -> contains (k * x) i ->
  decide_orient (Some i, l) = Some (Some o) -> o = sign_reverse (ori_of x).
Proof.
  intros K C E. rewrite <- ori_opp. apply (decide_orient_neg (- k) (- x) i o l); auto; [lra|].
  replace (- k * - x) with (k * x) by ring. auto.
Qed.
Lemma decide_less_neg k x i o l : k < 0 -> contains (k * x) i ->
  decide_less (Some i, l) = Some (Some o) -> o = ori_of x.
Proof.
  intros K C E. unfold decide_less in E. simpl in E.
  destruct (iv_not_zero i) eqn:Z; [|discriminate].
  destruct (iv_positive i) eqn:P.
  - injection E as <-. pose proof (iv_positive_means_negative _ _ P C).
    symmetry. apply ori_pos. nra.
  - injection E as <-. unfold iv_not_zero in Z. unfold iv_positive in P. rewrite P in Z.
    pose proof (iv_negative_means_positive i _ Z C). symmetry. apply ori_neg. nra.
Qed.
Lemma decide_less_pos k x i o l : 0 < k -> contains (k * x) i ->
  decide_less (Some i, l) = Some (Some o) -> o = sign_reverse (ori_of x).
Proof.
  intros K C E. rewrite <- ori_opp. apply (decide_less_neg (- k) (- x) i o l); auto; [lra|].
  replace (- k * - x) with (k * x) by ring. auto.
Qed.

Lemma prod_pos a b : a < 0 -> b < 0 -> 0 < a * b.
Proof. intros. nra. Qed.
Lemma prod_neg a b : 0 < a -> b < 0 -> a * b < 0.
Proof. intros. nra. Qed.
Lemma prod_neg' a b : a < 0 -> 0 < b -> a * b < 0.
Proof. intros. nra. Qed.

Lemma nhomog_eq c P : nhomog c P -> c = Cache (ld c * vx P) (ld c * vy P) (ld c * vz P) (ld c).
Proof. destruct c; intros (_ & A & B & C); cbn in *; congruence. Qed.

(** the exact determinants *)
Lemma val_ieee c P a b e : nhomog c P ->
  fst (ker_ieee Rops vof c a b e) = ld c * o3 P (V (Rp a)) (V (Rp b)) (V (Rp e)).
Proof.
  intros H. rewrite (nhomog_eq _ _ H) at 1. unfold ker_ieee, o3, vof. cbn [lx ly lz ld].
  exact (orient3d_ieee_formula (ld c) P (V (Rp a)) (V (Rp b)) (V (Rp e))).
Qed.
Lemma val_iiee c P d Q a b : nhomog c P -> nhomog d Q ->
  fst (ker_iiee Rops vof c d a b) = ld c * ld d * o3 P Q (V (Rp a)) (V (Rp b)).
Proof.
  intros H G. rewrite (nhomog_eq _ _ H) at 1. rewrite (nhomog_eq _ _ G) at 1. unfold ker_iiee, o3, vof. cbn [lx ly lz ld].
  exact (orient3d_iiee_formula (ld c) (ld d) P Q (V (Rp a)) (V (Rp b))).
Qed.
Lemma val_iiie c P d Q e S a : nhomog c P -> nhomog d Q -> nhomog e S ->
  fst (ker_iiie Rops vof c d e a) = ld c * ld d * ld e * o3 P Q S (V (Rp a)).
Proof.
  intros H G K. rewrite (nhomog_eq _ _ H) at 1. rewrite (nhomog_eq _ _ G) at 1. rewrite (nhomog_eq _ _ K) at 1.
  unfold ker_iiie, o3, vof. cbn [lx ly lz ld].
  exact (orient3d_iiie_formula (ld c) (ld d) (ld e) P Q S (V (Rp a))).
Qed.
Lemma val_iiii c P d Q e S f A : nhomog c P -> nhomog d Q -> nhomog e S -> nhomog f A ->
  fst (ker_iiii Rops c d e f) = ld c * ld d * ld e * (ld f * ld f * ld f) * o3 P Q S A.
Proof.
  intros H G K L. rewrite (nhomog_eq _ _ H) at 1. rewrite (nhomog_eq _ _ G) at 1. rewrite (nhomog_eq _ _ K) at 1.
  rewrite (nhomog_eq _ _ L) at 1. unfold ker_iiii, o3, vof. cbn [lx ly lz ld].
  exact (orient3d_iiii_formula (ld c) (ld d) (ld e) (ld f) P Q S A).
Qed.
Lemma val_iee axis c P a b : (axis <= 2)%nat -> nhomog c P ->
  fst (ker_iee Rops vof axis c a b) = ld c * o2 axis P (V (Rp a)) (V (Rp b)).
Proof.
  intros Hax H. rewrite (nhomog_eq _ _ H) at 1. unfold ker_iee, o2, vof.
  axes axis; [| | |lia]; cbn [c_u c_v p_u p_v lx ly lz ld proj fst snd]; exact (orient2d_iee_formula _ _ _ _ _ _ _).
Qed.
Lemma val_iie axis c P d Q a : (axis <= 2)%nat -> nhomog c P -> nhomog d Q ->
  fst (ker_iie Rops vof axis c d a) = ld c * ld c * ld d * o2 axis P Q (V (Rp a)).
Proof.
  intros Hax H G. rewrite (nhomog_eq _ _ H) at 1. rewrite (nhomog_eq _ _ G) at 1. unfold ker_iie, o2, vof.
  axes axis; [| | |lia]; cbn [c_u c_v p_u p_v lx ly lz ld proj fst snd]; exact (orient2d_iie_formula _ _ _ _ _ _ _ _).
Qed.
Lemma val_iii axis c P d Q e S : (axis <= 2)%nat -> nhomog c P -> nhomog d Q -> nhomog e S ->
  fst (ker_iii Rops axis c d e) = ld c * ld c * ld d * ld e * o2 axis P Q S.
Proof.
  intros Hax H G K. rewrite (nhomog_eq _ _ H) at 1. rewrite (nhomog_eq _ _ G) at 1. rewrite (nhomog_eq _ _ K) at 1.
  unfold ker_iii, o2.
  axes axis; [| | |lia]; cbn [c_u c_v p_u p_v lx ly lz ld proj fst snd]; exact (orient2d_iii_formula _ _ _ _ _ _ _ _ _).
Qed.
Lemma val_ie axis c P b : (axis <= 2)%nat -> nhomog c P ->
  fst (ker_ie Rops vof axis c b) = ld c * (coord axis P - coord axis (V (Rp b))).
Proof.
  intros Hax H. rewrite (nhomog_eq _ _ H) at 1. unfold ker_ie, vof.
  axes axis; [| | |lia]; cbn [c_w p_w lx ly lz ld coord fst snd]; exact (less_than_ie_formula _ _ _).
Qed.
Lemma val_ii_dyn axis c P d Q : (axis <= 2)%nat -> nhomog c P -> nhomog d Q ->
  fst (ker_ii_dyn Rops axis c d) = ld c * ld d * (coord axis P - vx Q).
Proof.
  intros Hax H G. rewrite (nhomog_eq _ _ H) at 1. rewrite (nhomog_eq _ _ G) at 1. unfold ker_ii_dyn.
  axes axis; [| | |lia]; cbn [c_w p_w lx ly lz ld coord fst snd]; exact (less_than_ii_formula _ _ _ _).
Qed.

(** * The stages.  [i_chk] is the interval cache of the point computed by the
    checked operations; each theorem says that when the checked run decides,
    the code decides the same way, and what this decision is worth. *)
Ltac step p H := let c := fresh "c" in
  let A := fresh "A" in let B := fresh "B" in let r := fresh "r" in let K := fresh "K" in let N := fresh "N" in
  match type of H with _ = Some (Some ?c) => destruct (i_dyn_enc p c H) as (A & B & r & K & N); rewrite A end.
Ltac dest p H := let c := fresh "c" in destruct (i_chk p) as [[c|]|] eqn:H.
Ltac fin kc ku X E :=
  let d := fresh "d" in let j := fresh "j" in let X1 := fresh "X1" in let X2 := fresh "X2" in
  let d' := fresh "d'" in let j' := fresh "j'" in
  destruct kc as [[j|] d]; [|discriminate]; cbn [fst enc] in X; destruct X as [X1 X2];
  destruct ku as [j' d']; cbn [fst] in X2; subst j';
  split; [exact E|];
  repeat match goal with N : nhomog _ _ |- _ => destruct N as [N _] end;
  repeat (split; [assumption|]).
Ltac sg := repeat first [ assumption | apply prod_pos | apply prod_neg | apply prod_neg' ].

(** Right: an odd number of negative denominators and the exchanged signs cancel. *)
Theorem dyn_ieee_partial p a b c o :
  dy1 decide_orient (i_chk p) (fun c1 => ker_ieee chk cof c1 a b c) = Some (Some o) ->
  dy1 decide_orient (i_dyn p) (fun c1 => ker_ieee iv_ops iof c1 a b c) = Some (Some o) /\
  i_ok p /\ o = ori_of (o3 (i_sem p) (V (Rp a)) (V (Rp b)) (V (Rp c))).
Proof.
  intros E. unfold dy1 in *.
  dest p Hp; try discriminate.
  step p Hp.
  pose proof (ker_ieee_enc _ _ _ K a b c) as X.
  rewrite (val_ieee _ _ a b c N) in X.
  match type of X with enc _ (fst ?kc) (fst ?ku) => fin kc ku X E end.
  match goal with C : contains (?k * _) _ |- _ => assert (S : k < 0) by sg end.
  match goal with C : contains _ _ |- _ => exact (decide_orient_neg _ _ _ _ _ S C E) end.
Qed.

Theorem dyn_iiie_partial p q r a o :
  dy3 decide_orient (i_chk p) (i_chk q) (i_chk r) (fun c1 c2 c3 => ker_iiie chk cof c1 c2 c3 a) = Some (Some o) ->
  dy3 decide_orient (i_dyn p) (i_dyn q) (i_dyn r) (fun c1 c2 c3 => ker_iiie iv_ops iof c1 c2 c3 a) = Some (Some o) /\
  i_ok p /\ i_ok q /\ i_ok r /\ o = ori_of (o3 (i_sem p) (i_sem q) (i_sem r) (V (Rp a))).
Proof.
  intros E. unfold dy3 in *.
  dest p Hp; dest q Hq; dest r Hr; try discriminate.
  step p Hp. step q Hq. step r Hr.
  pose proof (ker_iiie_enc _ _ _ K _ _ _ K0 _ _ _ K1 a) as X.
  rewrite (val_iiie _ _ _ _ _ _ a N N0 N1) in X.
  match type of X with enc _ (fst ?kc) (fst ?ku) => fin kc ku X E end.
  match goal with C : contains (?k * _) _ |- _ => assert (S : k < 0) by sg end.
  match goal with C : contains _ _ |- _ => exact (decide_orient_neg _ _ _ _ _ S C E) end.
Qed.

Theorem dyn_iee_partial axis p a b o :
  (axis <= 2)%nat -> dy1 decide_orient (i_chk p) (fun c1 => ker_iee chk cof axis c1 a b) = Some (Some o) ->
  dy1 decide_orient (i_dyn p) (fun c1 => ker_iee iv_ops iof axis c1 a b) = Some (Some o) /\
  i_ok p /\ o = ori_of (o2 axis (i_sem p) (V (Rp a)) (V (Rp b))).
Proof.
  intros Hax E. unfold dy1 in *.
  dest p Hp; try discriminate.
  step p Hp.
  pose proof (ker_iee_enc axis _ _ _ K a b) as X.
  rewrite (val_iee axis _ _ a b Hax N) in X.
  match type of X with enc _ (fst ?kc) (fst ?ku) => fin kc ku X E end.
  match goal with C : contains (?k * _) _ |- _ => assert (S : k < 0) by sg end.
  match goal with C : contains _ _ |- _ => exact (decide_orient_neg _ _ _ _ _ S C E) end.
Qed.

Theorem dyn_iie_partial axis p q a o :
  (axis <= 2)%nat -> dy2 decide_orient (i_chk p) (i_chk q) (fun c1 c2 => ker_iie chk cof axis c1 c2 a) = Some (Some o) ->
  dy2 decide_orient (i_dyn p) (i_dyn q) (fun c1 c2 => ker_iie iv_ops iof axis c1 c2 a) = Some (Some o) /\
  i_ok p /\ i_ok q /\ o = ori_of (o2 axis (i_sem p) (i_sem q) (V (Rp a))).
Proof.
  intros Hax E. unfold dy2 in *.
  dest p Hp; dest q Hq; try discriminate.
  step p Hp. step q Hq.
  pose proof (ker_iie_enc axis _ _ _ K _ _ _ K0 a) as X.
  rewrite (val_iie axis _ _ _ _ a Hax N N0) in X.
  match type of X with enc _ (fst ?kc) (fst ?ku) => fin kc ku X E end.
  match goal with C : contains (?k * _) _ |- _ => assert (S : k < 0) by sg end.
  match goal with C : contains _ _ |- _ => exact (decide_orient_neg _ _ _ _ _ S C E) end.
Qed.

Theorem dyn_ie_partial axis p b o :
  (axis <= 2)%nat -> dy1 decide_less (i_chk p) (fun c1 => ker_ie chk cof axis c1 b) = Some (Some o) ->
  dy1 decide_less (i_dyn p) (fun c1 => ker_ie iv_ops iof axis c1 b) = Some (Some o) /\
  i_ok p /\ o = ori_of (coord axis (i_sem p) - coord axis (V (Rp b))).
Proof.
  intros Hax E. unfold dy1 in *.
  dest p Hp; try discriminate.
  step p Hp.
  pose proof (ker_ie_enc axis _ _ _ K b) as X.
  rewrite (val_ie axis _ _ b Hax N) in X.
  match type of X with enc _ (fst ?kc) (fst ?ku) => fin kc ku X E end.
  match goal with C : contains (?k * _) _ |- _ => assert (S : k < 0) by sg end.
  match goal with C : contains _ _ |- _ => exact (decide_less_neg _ _ _ _ _ S C E) end.
Qed.

(** Wrong: with an even number, every decision is the opposite of the true sign. *)
Theorem dyn_iiee_reversed p q a b o :
  dy2 decide_orient (i_chk p) (i_chk q) (fun c1 c2 => ker_iiee chk cof c1 c2 a b) = Some (Some o) ->
  dy2 decide_orient (i_dyn p) (i_dyn q) (fun c1 c2 => ker_iiee iv_ops iof c1 c2 a b) = Some (Some o) /\
  i_ok p /\ i_ok q /\ o = sign_reverse (ori_of (o3 (i_sem p) (i_sem q) (V (Rp a)) (V (Rp b)))).
Proof.
  intros E. unfold dy2 in *.
  dest p Hp; dest q Hq; try discriminate.
  step p Hp. step q Hq.
  pose proof (ker_iiee_enc _ _ _ K _ _ _ K0 a b) as X.
  rewrite (val_iiee _ _ _ _ a b N N0) in X.
  match type of X with enc _ (fst ?kc) (fst ?ku) => fin kc ku X E end.
  match goal with C : contains (?k * _) _ |- _ => assert (S : 0 < k) by sg end.
  match goal with C : contains _ _ |- _ => exact (decide_orient_pos _ _ _ _ _ S C E) end.
Qed.

Theorem dyn_iiii_reversed p q r s  o :
  dy4 decide_orient (i_chk p) (i_chk q) (i_chk r) (i_chk s) (fun c1 c2 c3 c4 => ker_iiii chk c1 c2 c3 c4) = Some (Some o) ->
  dy4 decide_orient (i_dyn p) (i_dyn q) (i_dyn r) (i_dyn s) (fun c1 c2 c3 c4 => ker_iiii iv_ops c1 c2 c3 c4) = Some (Some o) /\
  i_ok p /\ i_ok q /\ i_ok r /\ i_ok s /\ o = sign_reverse (ori_of (o3 (i_sem p) (i_sem q) (i_sem r) (i_sem s))).
Proof.
  intros E. unfold dy4 in *.
  dest p Hp; dest q Hq; dest r Hr; dest s Hs; try discriminate.
  step p Hp. step q Hq. step r Hr. step s Hs.
  pose proof (ker_iiii_enc _ _ _ K _ _ _ K0 _ _ _ K1 _ _ _ K2 ) as X.
  rewrite (val_iiii _ _ _ _ _ _ _ _  N N0 N1 N2) in X.
  match type of X with enc _ (fst ?kc) (fst ?ku) => fin kc ku X E end.
  match goal with C : contains (?k * _) _ |- _ => assert (S : 0 < k) by sg end.
  match goal with C : contains _ _ |- _ => exact (decide_orient_pos _ _ _ _ _ S C E) end.
Qed.

Theorem dyn_iii_reversed axis p q r  o :
  (axis <= 2)%nat -> dy3 decide_orient (i_chk p) (i_chk q) (i_chk r) (fun c1 c2 c3 => ker_iii chk axis c1 c2 c3) = Some (Some o) ->
  dy3 decide_orient (i_dyn p) (i_dyn q) (i_dyn r) (fun c1 c2 c3 => ker_iii iv_ops axis c1 c2 c3) = Some (Some o) /\
  i_ok p /\ i_ok q /\ i_ok r /\ o = sign_reverse (ori_of (o2 axis (i_sem p) (i_sem q) (i_sem r))).
Proof.
  intros Hax E. unfold dy3 in *.
  dest p Hp; dest q Hq; dest r Hr; try discriminate.
  step p Hp. step q Hq. step r Hr.
  pose proof (ker_iii_enc axis _ _ _ K _ _ _ K0 _ _ _ K1 ) as X.
  rewrite (val_iii axis _ _ _ _ _ _  Hax N N0 N1) in X.
  match type of X with enc _ (fst ?kc) (fst ?ku) => fin kc ku X E end.
  match goal with C : contains (?k * _) _ |- _ => assert (S : 0 < k) by sg end.
  match goal with C : contains _ _ |- _ => exact (decide_orient_pos _ _ _ _ _ S C E) end.
Qed.

(** Also, the second point contributes its x on every axis. *)
Theorem dyn_ii_reversed axis p q  o :
  (axis <= 2)%nat -> dy2_seq decide_less (i_chk p) (i_chk q) (fun c1 c2 => ker_ii_dyn chk axis c1 c2) = Some (Some o) ->
  dy2_seq decide_less (i_dyn p) (i_dyn q) (fun c1 c2 => ker_ii_dyn iv_ops axis c1 c2) = Some (Some o) /\
  i_ok p /\ i_ok q /\ o = sign_reverse (ori_of (coord axis (i_sem p) - vx (i_sem q))).
Proof.
  intros Hax E. unfold dy2_seq, dy2 in *.
  dest p Hp; dest q Hq; try discriminate.
  step p Hp. step q Hq.
  pose proof (ker_ii_dyn_enc axis _ _ _ K _ _ _ K0 ) as X.
  rewrite (val_ii_dyn axis _ _ _ _  Hax N N0) in X.
  match type of X with enc _ (fst ?kc) (fst ?ku) => fin kc ku X E end.
  match goal with C : contains (?k * _) _ |- _ => assert (S : 0 < k) by sg end.
  match goal with C : contains _ _ |- _ => exact (decide_less_pos _ _ _ _ _ S C E) end.
Qed.


(** * Refutation.  With the filters in front, the predicates return the wrong
    sign for these points, whatever the exact stage [X] does. *)
Definition w_p : lpi_pt f64 :=
  LP (P3 (fl 0 0) (fl 1 0) (fl 3 0)) (P3 (fl 1 0) (fl (-2) 0) (fl 3 0)) (P3 (fl 4 0) (fl (-1) 0) (fl (-2) 0)) (P3 (fl 2 0) (fl (-4) 0) (fl (-2) 0)) (P3 (fl (-1) 0) (fl 2 0) (fl (-3) 0)).
Definition w_q : lpi_pt f64 :=
  LP (P3 (fl 0 0) (fl 0 0) (fl 2 0)) (P3 (fl 4 0) (fl 3 0) (fl (-3) 0)) (P3 (fl (-4) 0) (fl 2 0) (fl 4 0)) (P3 (fl (-1) 0) (fl 1 0) (fl 2 0)) (P3 (fl 2 0) (fl (-1) 0) (fl 2 0)).
Definition w_a : point := (P3 (fl 4 0) (fl 1 0) (fl (-3) 0)).
Definition w_b : point := (P3 (fl 4 0) (fl 4294967297 (-32)) (fl (-3) 0)).
Definition x_1 : lpi_pt f64 :=
  LP (P3 (fl (-2) 0) (fl 1 0) (fl 3 0)) (P3 (fl 3 0) (fl 3 0) (fl (-3) 0)) (P3 (fl (-1) 0) (fl (-3) 0) (fl 0 0)) (P3 (fl 3 0) (fl 0 0) (fl 0 0)) (P3 (fl 2 0) (fl 0 0) (fl 3 0)).
Definition x_2 : lpi_pt f64 :=
  LP (P3 (fl (-2) 0) (fl 1 0) (fl 3 0)) (P3 (fl 3 0) (fl 3 0) (fl (-3) 0)) (P3 (fl (-1) 0) (fl (-3) 0) (fl 0 0)) (P3 (fl 3 0) (fl 0 0) (fl 0 0)) (P3 (fl 2097153 (-20)) (fl 0 0) (fl 3 0)).
Definition x_3 : lpi_pt f64 :=
  LP (P3 (fl 3 0) (fl (-2) 0) (fl 1 0)) (P3 (fl (-3) 0) (fl (-1) 0) (fl (-3) 0)) (P3 (fl (-3) 0) (fl (-3) 0) (fl 2 0)) (P3 (fl 1 0) (fl (-3) 0) (fl 0 0)) (P3 (fl 2 0) (fl (-2) 0) (fl 0 0)).
Definition y_1 : lpi_pt f64 :=
  LP (P3 (fl 2 0) (fl 1 0) (fl 0 0)) (P3 (fl 3 0) (fl 1 0) (fl (-2) 0)) (P3 (fl (-3) 0) (fl 2 0) (fl (-3) 0)) (P3 (fl (-3) 0) (fl (-2) 0) (fl (-2) 0)) (P3 (fl (-2) 0) (fl 1 0) (fl (-2) 0)).
Definition y_2 : lpi_pt f64 :=
  LP (P3 (fl 2 0) (fl 1 0) (fl 0 0)) (P3 (fl 3 0) (fl 1 0) (fl (-2) 0)) (P3 (fl (-3) 0) (fl 2 0) (fl (-52776558133247) (-44))) (P3 (fl (-3) 0) (fl (-2) 0) (fl (-2) 0)) (P3 (fl (-2) 0) (fl 1 0) (fl (-2) 0)).
Definition z_1 : lpi_pt f64 :=
  LP (P3 (fl 0 0) (fl (-2) 0) (fl 3 0)) (P3 (fl 3 0) (fl 3 0) (fl 3 0)) (P3 (fl 2 0) (fl 1 0) (fl 1 0)) (P3 (fl (-3) 0) (fl 0 0) (fl (-2) 0)) (P3 (fl (-1) 0) (fl (-3) 0) (fl (-2) 0)).
Definition z_2 : lpi_pt f64 :=
  LP (P3 (fl 0 0) (fl (-2) 0) (fl 3145729 (-20))) (P3 (fl 3 0) (fl 3 0) (fl 3 0)) (P3 (fl 2 0) (fl 1 0) (fl 1 0)) (P3 (fl (-3) 0) (fl 0 0) (fl (-2) 0)) (P3 (fl (-1) 0) (fl (-3) 0) (fl (-2) 0)).
Definition z_3 : lpi_pt f64 :=
  LP (P3 (fl 3 0) (fl 0 0) (fl (-1) 0)) (P3 (fl (-3) 0) (fl (-2) 0) (fl (-2) 0)) (P3 (fl 3 0) (fl (-1) 0) (fl 3 0)) (P3 (fl 1 0) (fl 3 0) (fl (-2) 0)) (P3 (fl (-1) 0) (fl 0 0) (fl (-2) 0)).
Definition z_4 : lpi_pt f64 :=
  LP (P3 (fl (-1) 0) (fl 2 0) (fl (-3) 0)) (P3 (fl 3 0) (fl 0 0) (fl 1 0)) (P3 (fl (-1) 0) (fl 3 0) (fl 2 0)) (P3 (fl 1 0) (fl 0 0) (fl 3 0)) (P3 (fl 1 0) (fl (-2) 0) (fl (-3) 0)).

Theorem orient3d_llee_refuted : exists p q a b, i_ok (inl p) /\ i_ok (inl q) /\
  o3 (semL (Rl p)) (semL (Rl q)) (V (Rp a)) (V (Rp b)) < 0 /\
  forall T (X : exact_num f64 T) eeee,
    orient3d (full_kernels3 X eeee) (LPI p) (LPI q) (Explicit a) (Explicit b) = Some Positive.
Proof.
  exists w_p, w_q, w_a, w_b.
  assert (E : dy2 decide_orient (i_chk (inl w_p)) (i_chk (inl w_q)) (fun c1 c2 => ker_iiee chk cof c1 c2 w_a w_b)
    = Some (Some Positive)) by (vm_compute; reflexivity).
  assert (S : st2 eps_llee (lpi_static w_p) (lpi_static w_q) (fun c1 c2 => ker_iiee f64_ops (fun x => x) c1 c2 w_a w_b) = None)
    by (vm_compute; reflexivity).
  destruct (dyn_iiee_reversed _ _ _ _ _ E) as (A & B & C & D).
  split; [exact B|]. split; [exact C|]. split.
  - apply ori_eq_neg. revert D. cbn [i_sem]. destruct (ori_of _); auto; discriminate.
  - intros T X eeee. cbn [orient3d o3_llee full_kernels3]. unfold full_iiee, stages.
    cbn [ip_static ip_dyn ip_exact ip_l]. rewrite S. cbn [i_dyn] in A. rewrite A. reflexivity.
Qed.

Theorem orient3d_llll_refuted : exists p q r s, i_ok (inl p) /\ i_ok (inl q) /\ i_ok (inl r) /\ i_ok (inl s) /\
  0 < o3 (semL (Rl p)) (semL (Rl q)) (semL (Rl r)) (semL (Rl s)) /\
  forall T (X : exact_num f64 T) eeee,
    orient3d (full_kernels3 X eeee) (LPI p) (LPI q) (LPI r) (LPI s) = Some Negative.
Proof.
  exists z_1, z_2, z_3, z_4.
  assert (E : dy4 decide_orient (i_chk (inl z_1)) (i_chk (inl z_2)) (i_chk (inl z_3)) (i_chk (inl z_4))
    (fun c1 c2 c3 c4 => ker_iiii chk c1 c2 c3 c4) = Some (Some Negative)) by (vm_compute; reflexivity).
  assert (S : st4 eps_llll (lpi_static z_1) (lpi_static z_2) (lpi_static z_3) (lpi_static z_4)
    (fun c1 c2 c3 c4 => ker_iiii f64_ops c1 c2 c3 c4) = None) by (vm_compute; reflexivity).
  destruct (dyn_iiii_reversed _ _ _ _ _ E) as (A & B1 & B2 & B3 & B4 & D).
  split; [exact B1|]. split; [exact B2|]. split; [exact B3|]. split; [exact B4|]. split.
  - apply ori_eq_pos. revert D. cbn [i_sem]. destruct (ori_of _); auto; discriminate.
  - intros T X eeee. cbn [orient3d o3_llll full_kernels3]. unfold full_iiii, stages.
    cbn [ip_static ip_dyn ip_exact ip_l]. rewrite S. cbn [i_dyn] in A. rewrite A. reflexivity.
Qed.

Lemma o2_lll_eq T (X : exact_num f64 T) eee p q r :
  orient2d_by_axis (full_kernels2 X eee) (LPI p) (LPI q) (LPI r) 2 = full_iii X eps_lll 2 (ip_l X p) (ip_l X q) (ip_l X r).
Proof. reflexivity. Qed.
Lemma lt_ll_eq T (X : exact_num f64 T) ee p q :
  less_than_axis 0 (full_kernels1 X ee) (LPI p) (LPI q) = full_ii X eps_lt_ll 0 (ip_l X p) (ip_l X q).
Proof. reflexivity. Qed.

Theorem orient2d_lll_refuted : exists p q r, i_ok (inl p) /\ i_ok (inl q) /\ i_ok (inl r) /\
  0 < o2 2 (semL (Rl p)) (semL (Rl q)) (semL (Rl r)) /\
  forall T (X : exact_num f64 T) eee,
    orient2d_by_axis (full_kernels2 X eee) (LPI p) (LPI q) (LPI r) 2 = Some Negative.
Proof.
  exists x_1, x_2, x_3.
  assert (E : dy3 decide_orient (i_chk (inl x_1)) (i_chk (inl x_2)) (i_chk (inl x_3))
    (fun c1 c2 c3 => ker_iii chk 2 c1 c2 c3) = Some (Some Negative)) by (vm_compute; reflexivity).
  assert (S : st3 eps_lll (lpi_static x_1) (lpi_static x_2) (lpi_static x_3)
    (fun c1 c2 c3 => ker_iii f64_ops 2 c1 c2 c3) = None) by (vm_compute; reflexivity).
  destruct (dyn_iii_reversed 2 _ _ _ _ (le_n 2) E) as (A & B1 & B2 & B3 & D).
  split; [exact B1|]. split; [exact B2|]. split; [exact B3|]. split.
  - apply ori_eq_pos. revert D. cbn [i_sem]. destruct (ori_of _); auto; discriminate.
  - intros T X eee. rewrite o2_lll_eq. unfold full_iii, stages.
    cbn [ip_static ip_dyn ip_exact ip_l]. rewrite S. cbn [i_dyn] in A. rewrite A. reflexivity.
Qed.

Theorem less_than_ll_refuted : exists p q, i_ok (inl p) /\ i_ok (inl q) /\
  coord 0 (semL (Rl p)) < coord 0 (semL (Rl q)) /\
  forall T (X : exact_num f64 T) ee,
    less_than_axis 0 (full_kernels1 X ee) (LPI p) (LPI q) = Some Positive.
Proof.
  exists y_1, y_2.
  assert (E : dy2_seq decide_less (i_chk (inl y_1)) (i_chk (inl y_2))
    (fun c1 c2 => ker_ii_dyn chk 0 c1 c2) = Some (Some Positive)) by (vm_compute; reflexivity).
  assert (S : st2 eps_lt_ll (lpi_static y_1) (lpi_static y_2)
    (fun c1 c2 => ker_ii f64_ops 0 c1 c2) = None) by (vm_compute; reflexivity).
  destruct (dyn_ii_reversed 0 _ _ _ (le_S _ _ (le_S _ _ (le_n 0))) E) as (A & B1 & B2 & D).
  split; [exact B1|]. split; [exact B2|]. split.
  - cut (coord 0 (semL (Rl y_1)) - vx (semL (Rl y_2)) < 0); [cbn [coord]; lra|].
    apply ori_eq_neg. revert D. cbn [i_sem]. destruct (ori_of _); auto; discriminate.
  - intros T X ee. rewrite lt_ll_eq. unfold full_ii, stages.
    cbn [ip_static ip_dyn ip_exact ip_l]. rewrite S. cbn [i_dyn] in A. rewrite A. reflexivity.
Qed.

(** Runs that meet the hypotheses of the [_partial] theorems (those of the
    [_reversed] ones are met in the refutations). *)
Definition e1 : point := P3 (fl 1 0) (fl 2 0) (fl 3 0).
Definition e2 : point := P3 (fl 5 0) (fl (-3) 0) (fl 7 0).
Definition e3 : point := P3 (fl (-7) 0) (fl 11 0) (fl 2 0).
Example ex_iee : dy1 decide_orient (i_chk (inl w_p)) (fun c1 => ker_iee chk cof 2 c1 e1 e2) = Some (Some Negative).
Proof. vm_compute. reflexivity. Qed.
Example ex_ie : dy1 decide_less (i_chk (inl w_p)) (fun c1 => ker_ie chk cof 0 c1 e2) = Some (Some Positive).
Proof. vm_compute. reflexivity. Qed.
Example ex_ieee : dy1 decide_orient (i_chk (inl w_p)) (fun c1 => ker_ieee chk cof c1 e1 e2 e3) = Some (Some Negative).
Proof. vm_compute. reflexivity. Qed.
Example ex_iie : dy2 decide_orient (i_chk (inl w_p)) (i_chk (inl w_q)) (fun c1 c2 => ker_iie chk cof 2 c1 c2 e2) = Some (Some Negative).
Proof. vm_compute. reflexivity. Qed.
Example ex_iiie : dy3 decide_orient (i_chk (inl z_1)) (i_chk (inl z_3)) (i_chk (inl z_4)) (fun c1 c2 c3 => ker_iiie chk cof c1 c2 c3 e2) = Some (Some Positive).
Proof. vm_compute. reflexivity. Qed.

Print Assumptions dyn_ieee_partial.
Print Assumptions dyn_iiie_partial.
Print Assumptions dyn_iee_partial.
Print Assumptions dyn_iie_partial.
Print Assumptions dyn_ie_partial.
Print Assumptions dyn_iiee_reversed.
Print Assumptions dyn_iiii_reversed.
Print Assumptions dyn_iii_reversed.
Print Assumptions dyn_ii_reversed.
Print Assumptions orient3d_llee_refuted.
Print Assumptions orient3d_llll_refuted.
Print Assumptions orient2d_lll_refuted.
Print Assumptions less_than_ll_refuted.
