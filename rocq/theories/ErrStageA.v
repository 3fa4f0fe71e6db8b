(** The first stage of orient3d, incircle and orient4d: a result that exceeds
    its error bound has the sign of the determinant. *)
From Coq Require Import ZArith Reals List Bool Lia Lra Psatz.
From Flocq Require Import Core BinarySingleNaN.
From Verif Require Import Lib F64 F64Facts Expansion Explicit ExpReal ExpFloat ExpZero ExpEst ExpSpec ExplicitSpec ExplicitProofs ErrBound.
Import ListNotations.
Local Open Scope R_scope.

Lemma appr_mass : forall g m k x X p, appr g m k x X p -> 0 <= val p.
Proof. intros g m k x X p (_ & _ & H & _). apply Rle_trans with (2 := H). apply Rabs_pos. Qed.
Lemma appr_w : forall g' m' k' g m k x X p, appr g m k x X p -> (g' <= g)%Z -> (m <= m')%Z -> (k <= k')%nat -> appr g' m' k' x X p.
Proof.
  intros g' m' k' g m k x X p A G M K. apply (appr_weak _ _ _ _ _ _ k') in A; auto. destruct A as (N & Np & H).
  split; [apply num_weak with (1 := N); auto|]. split; [apply num_weak with (1 := Np); auto|exact H].
Qed.
Ltac coords := repeat match goal with H : coord _ |- _ => apply coord_num in H | H : height _ |- _ => apply height_num in H end.
Ltac numeric := unfold tt, uu; simpl pow; lra.

(** The masses given to the adaptive stage: predicates.rs:780-782, 1103-1105,
    1582-1597, 2007-2022 (as in the definitions of Explicit.v). *)
Definition orient3d_permanent (ax ay az bx by_ bz cx cy cz dx dy dz : f64) : f64 :=
  let adx := fsub ax dx in let ady := fsub ay dy in let adz := fsub az dz in
  let bdx := fsub bx dx in let bdy := fsub by_ dy in let bdz := fsub bz dz in
  let cdx := fsub cx dx in let cdy := fsub cy dy in let cdz := fsub cz dz in
  fadd (fadd (fmul (fadd (fabs (fmul bdx cdy)) (fabs (fmul cdx bdy))) (fabs adz)) (fmul (fadd (fabs (fmul cdx ady)) (fabs (fmul adx cdy))) (fabs bdz)))
    (fmul (fadd (fabs (fmul adx bdy)) (fabs (fmul bdx ady))) (fabs cdz)).
Definition incircle_permanent (ax ay bx by_ cx cy dx dy : f64) : f64 :=
  let adx := fsub ax dx in let ady := fsub ay dy in
  let bdx := fsub bx dx in let bdy := fsub by_ dy in
  let cdx := fsub cx dx in let cdy := fsub cy dy in
  fadd (fadd (fmul (fadd (fabs (fmul bdx cdy)) (fabs (fmul cdx bdy))) (fadd (fmul adx adx) (fmul ady ady)))
             (fmul (fadd (fabs (fmul cdx ady)) (fabs (fmul adx cdy))) (fadd (fmul bdx bdx) (fmul bdy bdy))))
    (fmul (fadd (fabs (fmul adx bdy)) (fabs (fmul bdx ady))) (fadd (fmul cdx cdx) (fmul cdy cdy))).
(** [(|cd| + |dc|) bz + (|db| + |bd|) cz + (|bc| + |cb|) dz] and the like *)
Definition perm3 (cd dc z1 db bd z2 bc cb z3 : f64) : f64 :=
  fadd (fadd (fmul (fadd (fabs cd) (fabs dc)) (fabs z1)) (fmul (fadd (fabs db) (fabs bd)) (fabs z2))) (fmul (fadd (fabs bc) (fabs cb)) (fabs z3)).
(** The mass of the 4 x 4 determinant with last column [wa], [wb], [wc], [wd] (its absolute values). *)
Definition perm4 (aex aey aez bex bey bez cex cey cez dex dey dez wa wb wc wd : f64) : f64 :=
  fadd (fadd (fadd (fmul (perm3 (fmul cex dey) (fmul dex cey) bez (fmul dex bey) (fmul bex dey) cez (fmul bex cey) (fmul cex bey) dez) wa)
                   (fmul (perm3 (fmul dex aey) (fmul aex dey) cez (fmul aex cey) (fmul cex aey) dez (fmul cex dey) (fmul dex cey) aez) wb))
             (fmul (perm3 (fmul aex bey) (fmul bex aey) dez (fmul bex dey) (fmul dex bey) aez (fmul dex aey) (fmul aex dey) bez) wc))
    (fmul (perm3 (fmul bex cey) (fmul cex bey) aez (fmul cex aey) (fmul aex cey) bez (fmul aex bey) (fmul bex aey) cez) wd).
Definition orient4d_permanent (ax ay az bx by_ bz cx cy cz dx dy dz ex ey ez ah bh ch dh eh : f64) : f64 :=
  perm4 (fsub ax ex) (fsub ay ey) (fsub az ez) (fsub bx ex) (fsub by_ ey) (fsub bz ez) (fsub cx ex) (fsub cy ey) (fsub cz ez)
    (fsub dx ex) (fsub dy ey) (fsub dz ez) (fabs (fsub ah eh)) (fabs (fsub bh eh)) (fabs (fsub ch eh)) (fabs (fsub dh eh)).
Definition lift3 (x y z : f64) : f64 := fadd (fadd (fmul x x) (fmul y y)) (fmul z z).
Definition insphere_permanent (ax ay az bx by_ bz cx cy cz dx dy dz ex ey ez : f64) : f64 :=
  perm4 (fsub ax ex) (fsub ay ey) (fsub az ez) (fsub bx ex) (fsub by_ ey) (fsub bz ez) (fsub cx ex) (fsub cy ey) (fsub cz ez)
    (fsub dx ex) (fsub dy ey) (fsub dz ez) (lift3 (fsub ax ex) (fsub ay ey) (fsub az ez)) (lift3 (fsub bx ex) (fsub by_ ey) (fsub bz ez))
    (lift3 (fsub cx ex) (fsub cy ey) (fsub cz ez)) (lift3 (fsub dx ex) (fsub dy ey) (fsub dz ez)).

Section Opaque.
Local Opaque fadd fsub fmul fabs fneg o3d_err_bounda icc_err_bounda isp_err_bounda.
Lemma orient3d_filter_ok : forall ax ay az bx by_ bz cx cy cz dx dy dz,
  coord ax -> coord ay -> coord az -> coord bx -> coord by_ -> coord bz -> coord cx -> coord cy -> coord cz -> coord dx -> coord dy -> coord dz ->
  (exists r, orient3d ax ay az bx by_ bz cx cy cz dx dy dz = Some r /\
     same_sign r (orient3d_det (val ax) (val ay) (val az) (val bx) (val by_) (val bz) (val cx) (val cy) (val cz) (val dx) (val dy) (val dz))) \/
  orient3d ax ay az bx by_ bz cx cy cz dx dy dz =
    orient3d_adapt ax ay az bx by_ bz cx cy cz dx dy dz (orient3d_permanent ax ay az bx by_ bz cx cy cz dx dy dz).
Proof.
  intros. coords. unfold orient3d. cbv zeta.
  match goal with |- context [if ?c then _ else _] => destruct c eqn:E end; [left|right; reflexivity].
  eexists. split; [reflexivity|]. destruct o3d_bounda as (NK & VK).
  eapply same_sign_eq.
  - eapply filter_add in E; [exact E|do_appr|eapply appr_weak; [do_appr|]|..]; try exact NK; try lia.
    rewrite VK. numeric.
  - det_unf. ring.
Qed.
Lemma incircle_filter_ok : forall ax ay bx by_ cx cy dx dy,
  coord ax -> coord ay -> coord bx -> coord by_ -> coord cx -> coord cy -> coord dx -> coord dy ->
  (exists r, incircle ax ay bx by_ cx cy dx dy = Some r /\
     same_sign r (incircle_det (val ax) (val ay) (val bx) (val by_) (val cx) (val cy) (val dx) (val dy))) \/
  incircle ax ay bx by_ cx cy dx dy =
    incircle_adapt ax ay bx by_ cx cy dx dy (incircle_permanent ax ay bx by_ cx cy dx dy).
Proof.
  intros. coords. unfold incircle. cbv zeta.
  match goal with |- context [if ?c then _ else _] => destruct c eqn:E end; [left|right; reflexivity].
  eexists. split; [reflexivity|]. destruct icc_bounda as (NK & VK).
  eapply same_sign_eq.
  - eapply filter_add in E; [exact E|do_appr|eapply appr_weak; [do_appr|]|..]; try exact NK; try lia.
    rewrite VK. numeric.
  - det_unf. ring.
Qed.

Lemma four_masses : forall g m a b c d K k, num g m a -> num g m b -> num g m c -> num g m d ->
  0 <= val a -> 0 <= val b -> 0 <= val c -> 0 <= val d -> (-900 <= g)%Z -> (-1000 <= m < 1000)%Z ->
  num (-106) (-3) K -> (tt ^ k - 1) * tt * tt * tt * tt * tt <= val K ->
  let P := fadd (fadd (fadd a b) c) d in
  fin (fmul K P) = true /\ (tt ^ k - 1) * (val (fadd d c) + val (fadd b a)) <= val (fmul K P).
Proof.
  intros g m a b c d K k Na Nb Nc Nd A0 B0 C0 D0 G T NK HK P.
  destruct (mass_add _ _ _ _ _ _ Na Nb A0 B0) as (S0 & S1 & _ & NS); try lia.
  destruct (mass_add _ _ _ _ _ _ NS Nc S0 C0) as (U0 & U1 & _ & NU); try lia.
  destruct (mass_add _ _ _ _ _ _ NU Nd U0 D0) as (P0 & P1 & _ & NP); try lia. fold P in P0, P1, NP.
  destruct (mass_add _ _ _ _ _ _ Nd Nc D0 C0) as (_ & _ & V1 & _); try lia.
  destruct (mass_add _ _ _ _ _ _ Nb Na B0 A0) as (_ & _ & V2 & _); try lia.
  pose proof (ttk_ge k) as Tk. pose proof tt_ge as T1.
  assert (K0 : 0 <= val K). { apply Rle_trans with (2 := HK). repeat apply Rmult_le_pos; lra. }
  destruct (mass_mul _ _ _ _ _ _ NK NP K0 P0) as (E0 & E1 & NE); try lia.
  split; [apply NE|].
  assert (Q : val a + val b + val c + val d <= tt * tt * tt * val P).
  { apply Rle_trans with (tt * val (fadd a b) + val c + val d); [lra|].
    apply Rle_trans with (tt * (val (fadd a b) + val c) + val d); [pose proof (Rmult_le_compat_r (val c) 1 tt C0 T1); lra|].
    apply Rle_trans with (tt * (tt * val (fadd (fadd a b) c)) + val d).
    { apply Rplus_le_compat_r. apply Rmult_le_compat_l; [lra|auto]. }
    assert (1 <= tt * tt) by (apply Rle_trans with (tt * 1); [lra|apply Rmult_le_compat_l; lra]).
    pose proof (Rmult_le_compat_r (val d) 1 (tt * tt) D0 H).
    apply Rle_trans with (tt * tt * (val (fadd (fadd a b) c) + val d)); [lra|].
    apply Rle_trans with (tt * tt * (tt * val P)); [apply Rmult_le_compat_l; [lra|auto]|right; ring]. }
  apply Rmult_le_reg_l with tt; [lra|]. apply Rle_trans with (2 := E1).
  apply Rle_trans with ((tt ^ k - 1) * tt * tt * tt * tt * tt * val P); [|apply Rmult_le_compat_r; auto].
  apply Rle_trans with ((tt ^ k - 1) * tt * (tt * (val a + val b + val c + val d))).
  { replace (tt * ((tt ^ k - 1) * (val (fadd d c) + val (fadd b a)))) with ((tt ^ k - 1) * tt * (val (fadd d c) + val (fadd b a))) by ring.
    apply Rmult_le_compat_l; [apply Rmult_le_pos; lra|]. lra. }
  replace ((tt ^ k - 1) * tt * tt * tt * tt * tt * val P) with ((tt ^ k - 1) * tt * (tt * (tt * tt * tt * val P))) by ring.
  apply Rmult_le_compat_l; [apply Rmult_le_pos; lra|]. apply Rmult_le_compat_l; [lra|auto].
Qed.
Lemma orient4d_filter_ok : forall ax ay az bx by_ bz cx cy cz dx dy dz ex ey ez ah bh ch dh eh,
  coord ax -> coord ay -> coord az -> coord bx -> coord by_ -> coord bz -> coord cx -> coord cy -> coord cz ->
  coord dx -> coord dy -> coord dz -> coord ex -> coord ey -> coord ez ->
  height ah -> height bh -> height ch -> height dh -> height eh ->
  (exists r, orient4d ax ay az bx by_ bz cx cy cz dx dy dz ex ey ez ah bh ch dh eh = Some r /\
     same_sign r (orient4d_det (val ax) (val ay) (val az) (val bx) (val by_) (val bz) (val cx) (val cy) (val cz)
                   (val dx) (val dy) (val dz) (val ex) (val ey) (val ez) (val ah) (val bh) (val ch) (val dh) (val eh))) \/
  orient4d ax ay az bx by_ bz cx cy cz dx dy dz ex ey ez ah bh ch dh eh =
    orient4d_adapt ax ay az bx by_ bz cx cy cz dx dy dz ex ey ez ah bh ch dh eh
      (orient4d_permanent ax ay az bx by_ bz cx cy cz dx dy dz ex ey ez ah bh ch dh eh).
Proof.
  intros. coords. unfold orient4d. cbv zeta.
  match goal with |- context [if ?c then _ else _] => destruct c eqn:E end; [left|right; reflexivity].
  eexists. split; [reflexivity|]. destruct isp_bounda as (NK & VK).
  match type of E with beyond_strict (fadd (fsub ?D ?C) (fsub ?B ?A)) (fmul _ (fadd (fadd (fadd ?a ?b) ?c) ?d)) = _ =>
    eassert (HA : appr _ _ _ A _ a) by do_appr; apply (appr_w (-900) 510 10) in HA; [|lia|lia|lia];
    eassert (HB : appr _ _ _ B _ b) by do_appr; apply (appr_w (-900) 510 10) in HB; [|lia|lia|lia];
    eassert (HC : appr _ _ _ C _ c) by do_appr; apply (appr_w (-900) 510 10) in HC; [|lia|lia|lia];
    eassert (HD : appr _ _ _ D _ d) by do_appr; apply (appr_w (-900) 510 10) in HD; [|lia|lia|lia]
  end.
  eapply same_sign_eq.
  - eapply filter_gen in E; [exact E|eapply appr_sub2; [exact HD|exact HC|lia|lia]|eapply appr_sub2; [exact HB|exact HA|lia|lia]|..]; try lia.
    + eapply (four_masses (-900) 510 _ _ _ _ _ 11); [apply HA|apply HB|apply HC|apply HD|..]; try lia; try exact NK; try (eapply appr_mass; eassumption).
      rewrite VK. numeric.
    + eapply (four_masses (-900) 510 _ _ _ _ _ 11); [apply HA|apply HB|apply HC|apply HD|..]; try lia; try exact NK; try (eapply appr_mass; eassumption).
      rewrite VK. numeric.
  - det_unf. ring.
Qed.
End Opaque.
