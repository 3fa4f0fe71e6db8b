(** Lemmas and tactics for the exact stages of the explicit predicates. *)
From Coq Require Import ZArith Reals List Bool Lia Lra.
From Flocq Require Import Core BinarySingleNaN.
From Verif Require Import Lib F64 F64Facts Expansion Explicit ExpReal ExpFloat ExpZero ExpEst ExpSpec ExplicitSpec.
Import ListNotations.
Local Open Scope R_scope.

Lemma coord_num : forall x, coord x -> num (-180) 100 x.
Proof. intros x (F & M & Bx). split; auto. Qed.
Lemma height_num : forall x, height x -> num (-360) 200 x.
Proof. intros x (F & M & Bx). split; auto. Qed.

(** An accumulator that grows by one sum at a time. *)
Definition acc (k n : Z) (f : list f64) (v : R) : Prop := rep (-900) (500 + 12 * k) n f v.
Definition term (n : Z) (f : list f64) (v : R) : Prop := rep (-900) 500 n f v.
Lemma rep_term : forall g m n l v, rep g m n l v -> (-900 <= g)%Z -> (m <= 500)%Z -> term n l v.
Proof. intros. apply rep_weak with (1 := H); lia. Qed.
Lemma term_acc : forall n l v, term n l v -> acc 0 n l v.
Proof. auto. Qed.
Lemma acc_more : forall k n l v k' n', acc k n l v -> (k <= k')%Z -> (n <= n')%Z -> acc k' n' l v.
Proof. intros. apply rep_weak with (1 := H); lia. Qed.
Lemma acc_add : forall k n f v nt t w, acc k n f v -> term nt t w -> (0 <= k <= 42)%Z -> (n + nt <= 4096)%Z ->
  exists h, fast_expansion_sum_zeroelim f t = Some h /\ expn h /\ acc (k + 1) (n + nt) h (v + w).
Proof.
  intros k n f v nt t w A T Tk Tn.
  assert (L : (Z.log2_up (n + nt) <= 12)%Z).
  { change 12%Z with (Z.log2_up 4096). apply Z.log2_up_le_mono. auto. }
  destruct (rep_fes _ _ _ _ _ _ _ _ _ _ A T) as (h & E & X & R); try lia.
  exists h. split; auto. split; auto. apply rep_weak with (1 := R); lia.
Qed.

Ltac znum := first [assumption | vm_compute; first [reflexivity | discriminate | split; discriminate | intros; discriminate] | lia].
Ltac norm_rep H :=
  match type of H with rep ?g ?m ?n ?l ?v =>
    let g' := eval vm_compute in g in let m' := eval vm_compute in m in let n' := eval vm_compute in n in
    change (rep g' m' n' l v) in H end.
(** Give the value of a representation a name. *)
Ltac name_val H :=
  match type of H with rep ?g ?m ?n ?l ?v =>
    let x := fresh "v" in let E := fresh "Ev" in
    remember v as x eqn:E in H end.
Ltac fact_num a := match goal with H : num _ _ a |- _ => constr:(H) | _ => match a with fneg ?b => let H := fact_num b in constr:(num_neg _ _ _ H) end end.
Ltac fact_rep e := match goal with H : rep _ _ _ e _ |- _ => constr:(H) | _ => match e with expansion_invert ?b => let H := fact_rep b in constr:(rep_neg _ _ _ _ _ H) end end.
(** One [two_product]; one [quad]; one expansion operation. *)
Ltac do_prod :=
  match goal with |- context [match two_product ?a ?b with pair _ _ => _ end] =>
    let x1 := fresh "x1" in let x0 := fresh "x0" in let E := fresh "Ep" in
    destruct (two_product a b) as [x1 x0] eqn:E end.
Ltac do_quad :=
  match goal with
  | E1 : two_product ?a ?b = (?x1, ?x0), E2 : two_product ?c ?d = (?y1, ?y0) |- context [quad (two_two_diff ?x1 ?x0 ?y1 ?y0)] =>
    let Na := fact_num a in let Nb := fact_num b in let Nc := fact_num c in let Nd := fact_num d in
    let H := fresh "Hq" in let q := fresh "q" in
    pose proof (rep_ttd _ _ _ _ _ _ _ _ a b c d x1 x0 y1 y0 Na Nb Nc Nd E1 E2) as H;
    do 12 (let H1 := fresh in match type of H with (?P -> _) => assert (H1 : P) by znum; specialize (H H1); clear H1 end);
    norm_rep H; name_val H;
    set (q := quad (two_two_diff x1 x0 y1 y0)) in *; clearbody q; clear E1 E2
  | E1 : two_product ?a ?b = (?x1, ?x0), E2 : two_product ?c ?d = (?y1, ?y0) |- context [quad (two_two_sum ?x1 ?x0 ?y1 ?y0)] =>
    let Na := fact_num a in let Nb := fact_num b in let Nc := fact_num c in let Nd := fact_num d in
    let H := fresh "Hq" in let q := fresh "q" in
    pose proof (rep_tts _ _ _ _ _ _ _ _ a b c d x1 x0 y1 y0 Na Nb Nc Nd E1 E2) as H;
    do 12 (let H1 := fresh in match type of H with (?P -> _) => assert (H1 : P) by znum; specialize (H H1); clear H1 end);
    norm_rep H; name_val H;
    set (q := quad (two_two_sum x1 x0 y1 y0)) in *; clearbody q; clear E1 E2
  end.
Ltac fin_op h E X H :=
  rewrite E; clear E; norm_rep H; name_val H.
Ltac do_op :=
  match goal with
  | |- context [match scale_expansion_zeroelim ?e ?b with Some _ => _ | None => _ end] =>
    let He := fact_rep e in let Nb := fact_num b in
    let h := fresh "h" in let E := fresh "E" in let X := fresh "X" in let H := fresh "Hh" in
    destruct (rep_scale _ _ _ _ _ _ _ _ He Nb) as (h & E & X & H); [znum ..|]; fin_op h E X H
  | |- context [match fast_expansion_sum_zeroelim ?e ?f with Some _ => _ | None => _ end] =>
    let He := fact_rep e in let Hf := fact_rep f in
    let h := fresh "h" in let E := fresh "E" in let X := fresh "X" in let H := fresh "Hh" in
    destruct (rep_fes _ _ _ _ _ _ _ _ _ _ He Hf) as (h & E & X & H); [znum ..|]; fin_op h E X H
  end.

Definition signed (x : f64) (v : R) : Prop := same_sign x v.
Lemma last_same : forall g m n l v w, rep g m n l v -> expn l -> v = w -> exists r, last_opt l = Some r /\ same_sign r w.
Proof.
  intros g m n l v w H X <-. destruct (rep_last _ _ _ _ _ H X) as (x & E & F & S1 & S2). exists x. split; auto. split; auto.
Qed.
Ltac det_unf := unfold insphere5_det, orient4d_det, incircle_det, orient3d_det, orient2d_det, det, sq;
  cbn [det_of sum_upto length nth skip Nat.ltb Nat.leb pow].

Lemma insphere_exact_ok : forall ax ay az bx by_ bz cx cy cz dx dy dz ex ey ez,
  coord ax -> coord ay -> coord az -> coord bx -> coord by_ -> coord bz -> coord cx -> coord cy -> coord cz ->
  coord dx -> coord dy -> coord dz -> coord ex -> coord ey -> coord ez ->
  exists r, insphere_exact ax ay az bx by_ bz cx cy cz dx dy dz ex ey ez = Some r /\
    same_sign r (insphere5_det (val ax) (val ay) (val az) (val bx) (val by_) (val bz) (val cx) (val cy) (val cz)
                   (val dx) (val dy) (val dz) (val ex) (val ey) (val ez)).
Proof.
  intros ax ay az bx by_ bz cx cy cz dx dy dz ex ey ez Ax Ay Az Bx By Bz Cx Cy Cz Dx Dy Dz Ex Ey Ez.
  apply coord_num in Ax, Ay, Az, Bx, By, Bz, Cx, Cy, Cz, Dx, Dy, Dz, Ex, Ey, Ez.
  unfold insphere_exact. repeat do_prod. cbv zeta. repeat do_quad. repeat do_op.
  match goal with H : rep _ _ _ ?l _, X : expn ?l |- exists r, last_opt ?l = _ /\ _ => apply (last_same _ _ _ _ _ _ H X) end.
  subst. rewrite ?fneg_val by apply fneg_val. det_unf. ring.
Qed.
Lemma orient4d_exact_ok : forall ax ay az bx by_ bz cx cy cz dx dy dz ex ey ez ah bh ch dh eh,
  coord ax -> coord ay -> coord az -> coord bx -> coord by_ -> coord bz -> coord cx -> coord cy -> coord cz ->
  coord dx -> coord dy -> coord dz -> coord ex -> coord ey -> coord ez ->
  height ah -> height bh -> height ch -> height dh -> height eh ->
  exists r, orient4d_exact ax ay az bx by_ bz cx cy cz dx dy dz ex ey ez ah bh ch dh eh = Some r /\
    same_sign r (orient4d_det (val ax) (val ay) (val az) (val bx) (val by_) (val bz) (val cx) (val cy) (val cz)
                   (val dx) (val dy) (val dz) (val ex) (val ey) (val ez) (val ah) (val bh) (val ch) (val dh) (val eh)).
Proof.
  intros ax ay az bx by_ bz cx cy cz dx dy dz ex ey ez ah bh ch dh eh Ax Ay Az Bx By Bz Cx Cy Cz Dx Dy Dz Ex Ey Ez Ah Bh Ch Dh Eh.
  apply coord_num in Ax, Ay, Az, Bx, By, Bz, Cx, Cy, Cz, Dx, Dy, Dz, Ex, Ey, Ez.
  apply height_num in Ah, Bh, Ch, Dh, Eh.
  unfold orient4d_exact. repeat do_prod. cbv zeta. repeat do_quad. repeat do_op.
  match goal with H : rep _ _ _ ?l _, X : expn ?l |- exists r, last_opt ?l = _ /\ _ => apply (last_same _ _ _ _ _ _ H X) end.
  subst. rewrite ?fneg_val by apply fneg_val. det_unf. ring.
Qed.

(** Name a difference and its tail. *)
Ltac do_sub a b x t :=
  let Na := fact_num a in let Nb := fact_num b in
  let N1 := fresh "N" in let N2 := fresh "N" in let E := fresh "Es" in
  let xx := fresh x in let tt := fresh t in
  destruct (num_sub _ _ a b Na Nb) as (N1 & _ & N2 & E); [znum ..|];
  match type of N1 with num ?g ?m _ => let m' := eval vm_compute in m in change (num g m' (fsub a b)) in N1 end;
  set (xx := fsub a b) in *; set (tt := two_diff_tail a b xx) in *; clearbody tt; clearbody xx.
Lemma feq_zero : forall t, fin t = true -> feq t fzero = true -> val t = 0.
Proof. intros t F H. apply nonzero_false; auto. unfold nonzero. rewrite H. reflexivity. Qed.
Lemma est_same : forall g m n l v w, rep g m n l v -> (-1074 <= m)%Z -> (m + Z.log2_up n <= 1018)%Z -> (Z.log2_up n <= 53)%Z -> v = w ->
  same_sign (estimate l) w.
Proof. intros g m n l v w H T1 T2 T3 <-. apply (rep_estimate_sign _ _ _ _ _ H T1 T2 T3). Qed.
Ltac zero_tails :=
  repeat match goal with
  | H : _ && _ = true |- _ => apply andb_true_iff in H; destruct H
  | H : feq ?t fzero = true |- _ => apply feq_zero in H; [|match goal with N : num _ _ t |- _ => exact (proj1 N) end]
  end.

Lemma orient2d_adapt_ok : forall ax ay bx by_ cx cy p,
  coord ax -> coord ay -> coord bx -> coord by_ -> coord cx -> coord cy ->
  exists r, orient2d_adapt ax ay bx by_ cx cy p = Some r /\
    (same_sign r (orient2d_det (val ax) (val ay) (val bx) (val by_) (val cx) (val cy)) \/
     beyond r (fmul ccw_err_boundb p) = true \/
     exists det_b, beyond r (fadd (fmul ccw_err_boundc p) (fmul result_err_bound (fabs det_b))) = true).
Proof.
  intros ax ay bx by_ cx cy p Ax Ay Bx By Cx Cy. apply coord_num in Ax, Ay, Bx, By, Cx, Cy.
  unfold orient2d_adapt. cbv zeta.
  do_sub ax cx acx acxt. do_sub bx cx bcx bcxt. do_sub ay cy acy acyt. do_sub by_ cy bcy bcyt.
  repeat do_prod. do_quad.
  destruct (beyond _ _) eqn:EB; [eexists; split; [reflexivity|]; right; left; exact EB|].
  destruct (_ && _) eqn:ET.
  { eexists; split; [reflexivity|]; left. zero_tails.
    match goal with H : rep _ _ _ q _ |- _ => apply (est_same _ _ _ _ _ _ H); [znum ..|] end.
    subst. rewrite H1, H2, H0, H, ?Rplus_0_r in *. rewrite Es, Es0, Es1, Es2. det_unf. ring. }
  clear ET. destruct (beyond (fadd _ _) _) eqn:EC; [eexists; split; [reflexivity|]; right; right; eexists; exact EC|].
  clear EB EC. unfold orient2d_last. repeat (do_prod; do_prod; cbv zeta; do_quad; do_op).
  match goal with H : rep _ _ _ ?l _, X : expn ?l |- exists r, last_opt ?l = _ /\ _ => 
   edestruct (last_same _ _ _ _ _ (orient2d_det (val ax) (val ay) (val bx) (val by_) (val cx) (val cy)) H X) as (r & E1 & E2); [|exists r; auto] end.
  transitivity ((val acx + val acxt) * (val bcy + val bcyt) - (val acy + val acyt) * (val bcx + val bcxt)); [subst; ring|].
  rewrite Es, Es0, Es1, Es2. det_unf. ring.
Qed.

Ltac tails0 := repeat match goal with H : val ?t = 0, E : val ?x + val ?t = _ |- _ => rewrite H, Rplus_0_r in E; clear H end.
Ltac use_subs := repeat match goal with E : val ?x = _ - _ |- _ => rewrite E; clear E end.
Ltac stage_b := destruct (beyond (estimate _) _) eqn:?; [eexists; split; [reflexivity|]; right; left; eassumption|].
Ltac stage_c := match goal with |- context [if beyond ?a ?b then _ else _] => destruct (beyond a b) eqn:? end; [eexists; split; [reflexivity|]; right; right; eexists; eassumption|].
Ltac stage_t := destruct (_ && _) eqn:?;
  [eexists; split; [reflexivity|]; left; zero_tails; tails0;
   match goal with H : rep _ _ _ ?l _ |- same_sign (estimate ?l) _ => apply (est_same _ _ _ _ _ _ H); [znum ..|] end;
   subst; rewrite ?fneg_val by apply fneg_val; use_subs; det_unf; ring|].

Lemma insphere_adapt_ok : forall ax ay az bx by_ bz cx cy cz dx dy dz ex ey ez p,
  coord ax -> coord ay -> coord az -> coord bx -> coord by_ -> coord bz -> coord cx -> coord cy -> coord cz ->
  coord dx -> coord dy -> coord dz -> coord ex -> coord ey -> coord ez ->
  exists r, insphere_adapt ax ay az bx by_ bz cx cy cz dx dy dz ex ey ez p = Some r /\
    (same_sign r (insphere5_det (val ax) (val ay) (val az) (val bx) (val by_) (val bz) (val cx) (val cy) (val cz)
                   (val dx) (val dy) (val dz) (val ex) (val ey) (val ez)) \/
     beyond r (fmul isp_err_boundb p) = true \/
     exists det_b, beyond r (fadd (fmul isp_err_boundc p) (fmul result_err_bound (fabs det_b))) = true).
Proof.
  intros ax ay az bx by_ bz cx cy cz dx dy dz ex ey ez p Ax Ay Az Bx By Bz Cx Cy Cz Dx Dy Dz Ex Ey Ez.
  destruct (insphere_exact_ok ax ay az bx by_ bz cx cy cz dx dy dz ex ey ez) as (r & Er & Sr); auto.
  apply coord_num in Ax, Ay, Az, Bx, By, Bz, Cx, Cy, Cz, Dx, Dy, Dz, Ex, Ey, Ez.
  unfold insphere_adapt. rewrite Er. cbv zeta.
  do_sub ax ex aex aext. do_sub bx ex bex bext. do_sub cx ex cex cext. do_sub dx ex dex dext.
  do_sub ay ey aey aeyt. do_sub by_ ey bey beyt. do_sub cy ey cey ceyt. do_sub dy ey dey deyt.
  do_sub az ez aez aezt. do_sub bz ez bez bezt. do_sub cz ez cez cezt. do_sub dz ez dez dezt.
  repeat do_prod. repeat do_quad. repeat do_op.
  stage_b. stage_t. stage_c. exists r. auto.
Qed.

Lemma orient4d_adapt_ok : forall ax ay az bx by_ bz cx cy cz dx dy dz ex ey ez ah bh ch dh eh p,
  coord ax -> coord ay -> coord az -> coord bx -> coord by_ -> coord bz -> coord cx -> coord cy -> coord cz ->
  coord dx -> coord dy -> coord dz -> coord ex -> coord ey -> coord ez ->
  height ah -> height bh -> height ch -> height dh -> height eh ->
  exists r, orient4d_adapt ax ay az bx by_ bz cx cy cz dx dy dz ex ey ez ah bh ch dh eh p = Some r /\
    (same_sign r (orient4d_det (val ax) (val ay) (val az) (val bx) (val by_) (val bz) (val cx) (val cy) (val cz)
                   (val dx) (val dy) (val dz) (val ex) (val ey) (val ez) (val ah) (val bh) (val ch) (val dh) (val eh)) \/
     beyond r (fmul isp_err_boundb p) = true \/
     exists det_b, beyond r (fadd (fmul isp_err_boundc p) (fmul result_err_bound (fabs det_b))) = true).
Proof.
  intros ax ay az bx by_ bz cx cy cz dx dy dz ex ey ez ah bh ch dh eh p Ax Ay Az Bx By Bz Cx Cy Cz Dx Dy Dz Ex Ey Ez Ah Bh Ch Dh Eh.
  destruct (orient4d_exact_ok ax ay az bx by_ bz cx cy cz dx dy dz ex ey ez ah bh ch dh eh) as (r & Er & Sr); auto.
  apply coord_num in Ax, Ay, Az, Bx, By, Bz, Cx, Cy, Cz, Dx, Dy, Dz, Ex, Ey, Ez.
  apply height_num in Ah, Bh, Ch, Dh, Eh.
  unfold orient4d_adapt. rewrite Er. cbv zeta.
  do_sub ax ex aex aext. do_sub bx ex bex bext. do_sub cx ex cex cext. do_sub dx ex dex dext.
  do_sub ay ey aey aeyt. do_sub by_ ey bey beyt. do_sub cy ey cey ceyt. do_sub dy ey dey deyt.
  do_sub az ez aez aezt. do_sub bz ez bez bezt. do_sub cz ez cez cezt. do_sub dz ez dez dezt.
  do_sub ah eh aeh aeht. do_sub bh eh beh beht. do_sub ch eh ceh ceht. do_sub dh eh deh deht.
  repeat do_prod. repeat do_quad. repeat do_op.
  stage_b. stage_t. stage_c. exists r. auto.
Qed.
