(** predicates/predicates.rs:440-2029: the explicit predicates of Shewchuk.
    The coordinates of the slices [pa], [pb], ... are passed one by one (a
    slice that is too short would panic; callers pass slices of the right
    length).  Allocators are left out.  [None] is a panic ([unwrap] of the
    last element of an empty vector, or an expansion sum of two empty ones).
    An array filled by [(u[3], u[2], u[1], u[0]) = ...] is written [quad ...].
    The code after the last early return of an [..._adapt] function is a
    definition of its own, [..._last].  Straight-line parts are a literal
    transcription of the source.  Paths are relative to /repo/src. *)
From Coq Require Import ZArith List Bool.
From Flocq Require Import Core BinarySingleNaN.
From Verif Require Import Lib F64 GenericFormulas Dispatch ExactStage Expansion.
Import ListNotations.
Local Open Scope opt_scope.

Definition f_of (z : Z) : f64 := fl z 0.
(** predicates.rs:20-76: [epsilon] as computed by the loop ([exact_init_ok],
    Prop_Expansion.v, shows that the loop ends with 2^-53), then the bounds. *)
Definition epsilon : f64 := fl 1 (-53).
Definition bound1 (a b : Z) : f64 := fmul (fadd (f_of a) (fmul (f_of b) epsilon)) epsilon.
Definition bound2 (a b : Z) : f64 := fmul (fmul (fadd (f_of a) (fmul (f_of b) epsilon)) epsilon) epsilon.
Definition result_err_bound : f64 := bound1 3 8.
Definition ccw_err_bounda : f64 := bound1 3 16.
Definition ccw_err_boundb : f64 := bound1 2 12.
Definition ccw_err_boundc : f64 := bound2 9 64.
Definition o3d_err_bounda : f64 := bound1 7 56.
Definition o3d_err_boundb : f64 := bound1 3 28.
Definition o3d_err_boundc : f64 := bound2 26 288.
Definition icc_err_bounda : f64 := bound1 10 96.
Definition icc_err_boundb : f64 := bound1 4 48.
Definition icc_err_boundc : f64 := bound2 44 576.
Definition isp_err_bounda : f64 := bound1 16 224.
Definition isp_err_boundb : f64 := bound1 5 72.
Definition isp_err_boundc : f64 := bound2 71 1408.

(** The array [u] after [(u[3], u[2], u[1], u[0]) = x]. *)
Definition quad (x : f64 * f64 * f64 * f64) : list f64 :=
  let '(x3, x2, x1, x0) := x in [x0; x1; x2; x3].
(** [std::vec::from_elem_in(0.0, 4, _)] *)
Definition zeros4 : list f64 := [fzero; fzero; fzero; fzero].
(** [(u[1], u[0]) = x] on such a vector *)
Definition pair4 (x : f64 * f64) : list f64 := let (x1, x0) := x in [x0; x1; fzero; fzero].
(** [(det >= errbound) || (-det >= errbound)] *)
Definition beyond (det errbound : f64) : bool := fle errbound det || fle errbound (fneg det).
(** [(det > errbound) || (-det > errbound)] *)
Definition beyond_strict (det errbound : f64) : bool := flt errbound det || flt errbound (fneg det).

(** predicates.rs:480-496: the last stage of orient2d_adapt. *)
Definition orient2d_last (b : list f64) (acx acy bcx bcy acxtail acytail bcxtail bcytail : f64) : option f64 :=
  let (s1, s0) := two_product acxtail bcy in
  let (t1, t0) := two_product acytail bcx in
  let u := quad (two_two_diff s1 s0 t1 t0) in
  c1 <- fast_expansion_sum_zeroelim b u ;;
  let (s1, s0) := two_product acx bcytail in
  let (t1, t0) := two_product acy bcxtail in
  let u := quad (two_two_diff s1 s0 t1 t0) in
  c2 <- fast_expansion_sum_zeroelim c1 u ;;
  let (s1, s0) := two_product acxtail bcytail in
  let (t1, t0) := two_product acytail bcxtail in
  let u := quad (two_two_diff s1 s0 t1 t0) in
  d <- fast_expansion_sum_zeroelim c2 u ;;
  last_opt d.

(** predicates.rs:442-497 *)
Definition orient2d_adapt (pax pay pbx pby pcx pcy detsum : f64) : option f64 :=
  let acx := fsub pax pcx in
  let bcx := fsub pbx pcx in
  let acy := fsub pay pcy in
  let bcy := fsub pby pcy in
  let (detleft, detlefttail) := two_product acx bcy in
  let (detright, detrighttail) := two_product acy bcx in
  let b := quad (two_two_diff detleft detlefttail detright detrighttail) in
  let det := estimate b in
  if beyond det (fmul ccw_err_boundb detsum) then Some det else
  let acxtail := two_diff_tail pax pcx acx in
  let bcxtail := two_diff_tail pbx pcx bcx in
  let acytail := two_diff_tail pay pcy acy in
  let bcytail := two_diff_tail pby pcy bcy in
  if feq acxtail fzero && feq acytail fzero && feq bcxtail fzero && feq bcytail fzero then Some det else
  let errbound := fadd (fmul ccw_err_boundc detsum) (fmul result_err_bound (fabs det)) in
  let det := fadd det (fsub (fadd (fmul acx bcytail) (fmul bcy acxtail)) (fadd (fmul acy bcxtail) (fmul bcx acytail))) in
  if beyond det errbound then Some det else
  orient2d_last b acx acy bcx bcy acxtail acytail bcxtail bcytail.

(** predicates.rs:499-528 *)
Definition orient2d (pax pay pbx pby pcx pcy : f64) : option f64 :=
  let detleft := fmul (fsub pax pcx) (fsub pby pcy) in
  let detright := fmul (fsub pay pcy) (fsub pbx pcx) in
  let det := fsub detleft detright in
  let adapt detsum :=
    if beyond det (fmul ccw_err_bounda detsum) then Some det
    else orient2d_adapt pax pay pbx pby pcx pcy detsum in
  if flt fzero detleft then
    if fle detright fzero then Some det else adapt (fadd detleft detright)
  else if flt detleft fzero then
    if fle fzero detright then Some det else adapt (fsub (fneg detleft) detright)
  else Some det.

(** predicates.rs:608-657, orient3d_adapt::helper1 *)
Definition o3_helper1 (adxtail adytail bdx bdy cdx cdy : f64) : list f64 * list f64 :=
  if feq adxtail fzero then
    if feq adytail fzero then (zeros4, zeros4)
    else (pair4 (two_product (fneg adytail) bdx), pair4 (two_product adytail cdx))
  else
    if feq adytail fzero then (pair4 (two_product adxtail bdy), pair4 (two_product (fneg adxtail) cdy))
    else
      let (adxt_bdy1, adxt_bdy0) := two_product adxtail bdy in
      let (adyt_bdx1, adyt_bdx0) := two_product adytail bdx in
      let at_b := quad (two_two_diff adxt_bdy1 adxt_bdy0 adyt_bdx1 adyt_bdx0) in
      let (adyt_cdx1, adyt_cdx0) := two_product adytail cdx in
      let (adxt_cdy1, adxt_cdy0) := two_product adxtail cdy in
      let at_c := quad (two_two_diff adyt_cdx1 adyt_cdx0 adxt_cdy1 adxt_cdy0) in
      (at_b, at_c).

(** predicates.rs:690-723, one half of orient3d_adapt::helper2: the product
    [(p1, p0)] times [z], and times [ztail] if that is not zero. *)
Definition o3_helper2_half (p : f64 * f64) (z ztail : f64) (fin : list f64) : option (list f64) :=
  fin <- fast_expansion_sum_zeroelim fin (quad (two_one_product (fst p) (snd p) z)) ;;
  if nonzero ztail then fast_expansion_sum_zeroelim fin (quad (two_one_product (fst p) (snd p) ztail)) else Some fin.
Definition o3_helper2 (adxtail bdytail bdztail bdz cdz cdytail cdztail : f64) (fin : list f64) : option (list f64) :=
  if nonzero adxtail then
    fin <- (if nonzero bdytail then o3_helper2_half (two_product adxtail bdytail) cdz cdztail fin else Some fin) ;;
    (if nonzero cdytail then o3_helper2_half (two_product (fneg adxtail) cdytail) bdz bdztail fin else Some fin)
  else Some fin.

(** predicates.rs:675-678 and the two similar ones: [if t != 0.0 { fin += e * t }] *)
Definition o3_scaled (t : f64) (e fin : list f64) : option (list f64) :=
  if nonzero t then v <- scale_expansion_zeroelim e t ;; fast_expansion_sum_zeroelim fin v else Some fin.

(** predicates.rs:663-674, one round of the closure of [map]: [(sum, fin)] *)
Definition o3_round (e f : list f64) (z : f64) (fin : list f64) : option (list f64 * list f64) :=
  sum <- fast_expansion_sum_zeroelim e f ;;
  w <- scale_expansion_zeroelim sum z ;;
  fin <- fast_expansion_sum_zeroelim fin w ;;
  Some (sum, fin).

(** predicates.rs:659-749, the last stage of orient3d_adapt.  The third call
    of helper2 passes [cdztail] where the first two pass an x tail, as the
    source does. *)
Definition orient3d_last (bc ca ab fin : list f64) (adx ady adz bdx bdy bdz cdx cdy cdz : f64)
    (adxtail adytail adztail bdxtail bdytail bdztail cdxtail cdytail cdztail : f64) : option f64 :=
  let (at_b, at_c) := o3_helper1 adxtail adytail bdx bdy cdx cdy in
  let (bt_c, bt_a) := o3_helper1 bdxtail bdytail cdx cdy adx ady in
  let (ct_a, ct_b) := o3_helper1 cdxtail cdytail adx ady bdx bdy in
  '(xyt0, fin) <- o3_round bt_c ct_b adz fin ;;
  '(xyt1, fin) <- o3_round ct_a at_c bdz fin ;;
  '(xyt2, fin) <- o3_round at_b bt_a cdz fin ;;
  fin <- o3_scaled adztail bc fin ;;
  fin <- o3_scaled bdztail ca fin ;;
  fin <- o3_scaled cdztail ab fin ;;
  fin <- o3_helper2 adxtail bdytail bdztail bdz cdz cdytail cdztail fin ;;
  fin <- o3_helper2 bdxtail cdytail cdztail cdz adz adytail adztail fin ;;
  fin <- o3_helper2 cdztail adytail adztail adz bdz bdytail bdztail fin ;;
  fin <- o3_scaled adztail xyt0 fin ;;
  fin <- o3_scaled bdztail xyt1 fin ;;
  fin <- o3_scaled cdztail xyt2 fin ;;
  last_opt fin.

(** predicates.rs:529-750 *)
Definition orient3d_adapt (pax pay paz pbx pby pbz pcx pcy pcz pdx pdy pdz permanent : f64) : option f64 :=
  let adx := fsub pax pdx in
  let bdx := fsub pbx pdx in
  let cdx := fsub pcx pdx in
  let ady := fsub pay pdy in
  let bdy := fsub pby pdy in
  let cdy := fsub pcy pdy in
  let adz := fsub paz pdz in
  let bdz := fsub pbz pdz in
  let cdz := fsub pcz pdz in
  let (bdxcdy1, bdxcdy0) := two_product bdx cdy in
  let (cdxbdy1, cdxbdy0) := two_product cdx bdy in
  let bc := quad (two_two_diff bdxcdy1 bdxcdy0 cdxbdy1 cdxbdy0) in
  adet <- scale_expansion_zeroelim bc adz ;;
  let (cdxady1, cdxady0) := two_product cdx ady in
  let (adxcdy1, adxcdy0) := two_product adx cdy in
  let ca := quad (two_two_diff cdxady1 cdxady0 adxcdy1 adxcdy0) in
  bdet <- scale_expansion_zeroelim ca bdz ;;
  let (adxbdy1, adxbdy0) := two_product adx bdy in
  let (bdxady1, bdxady0) := two_product bdx ady in
  let ab := quad (two_two_diff adxbdy1 adxbdy0 bdxady1 bdxady0) in
  cdet <- scale_expansion_zeroelim ab cdz ;;
  abdet <- fast_expansion_sum_zeroelim adet bdet ;;
  fin <- fast_expansion_sum_zeroelim abdet cdet ;;
  let det := estimate fin in
  if beyond det (fmul o3d_err_boundb permanent) then Some det else
  let adxtail := two_diff_tail pax pdx adx in
  let bdxtail := two_diff_tail pbx pdx bdx in
  let cdxtail := two_diff_tail pcx pdx cdx in
  let adytail := two_diff_tail pay pdy ady in
  let bdytail := two_diff_tail pby pdy bdy in
  let cdytail := two_diff_tail pcy pdy cdy in
  let adztail := two_diff_tail paz pdz adz in
  let bdztail := two_diff_tail pbz pdz bdz in
  let cdztail := two_diff_tail pcz pdz cdz in
  if feq adxtail fzero && feq bdxtail fzero && feq cdxtail fzero && feq adytail fzero && feq bdytail fzero && feq cdytail fzero && feq adztail fzero && feq bdztail fzero && feq cdztail fzero then Some det else
  let errbound := fadd (fmul o3d_err_boundc permanent) (fmul result_err_bound (fabs det)) in
  let det := fadd det (fadd (fadd (fadd (fmul adz (fsub (fadd (fmul bdx cdytail) (fmul cdy bdxtail)) (fadd (fmul bdy cdxtail) (fmul cdx bdytail)))) (fmul adztail (fsub (fmul bdx cdy) (fmul bdy cdx)))) (fadd (fmul bdz (fsub (fadd (fmul cdx adytail) (fmul ady cdxtail)) (fadd (fmul cdy adxtail) (fmul adx cdytail)))) (fmul bdztail (fsub (fmul cdx ady) (fmul cdy adx))))) (fadd (fmul cdz (fsub (fadd (fmul adx bdytail) (fmul bdy adxtail)) (fadd (fmul ady bdxtail) (fmul bdx adytail)))) (fmul cdztail (fsub (fmul adx bdy) (fmul ady bdx))))) in
  if beyond det errbound then Some det else
  orient3d_last bc ca ab fin adx ady adz bdx bdy bdz cdx cdy cdz
    adxtail adytail adztail bdxtail bdytail bdztail cdxtail cdytail cdztail.

(** predicates.rs:752-789 *)
Definition orient3d (pax pay paz pbx pby pbz pcx pcy pcz pdx pdy pdz : f64) : option f64 :=
  let adx := fsub pax pdx in
  let ady := fsub pay pdy in
  let adz := fsub paz pdz in
  let bdx := fsub pbx pdx in
  let bdy := fsub pby pdy in
  let bdz := fsub pbz pdz in
  let cdx := fsub pcx pdx in
  let cdy := fsub pcy pdy in
  let cdz := fsub pcz pdz in
  let bdxcdy := fmul bdx cdy in
  let cdxbdy := fmul cdx bdy in
  let cdxady := fmul cdx ady in
  let adxcdy := fmul adx cdy in
  let adxbdy := fmul adx bdy in
  let bdxady := fmul bdx ady in
  let det := fadd (fadd (fmul adz (fsub bdxcdy cdxbdy)) (fmul bdz (fsub cdxady adxcdy))) (fmul cdz (fsub adxbdy bdxady)) in
  let permanent := fadd (fadd (fmul (fadd (fabs bdxcdy) (fabs cdxbdy)) (fabs adz)) (fmul (fadd (fabs cdxady) (fabs adxcdy)) (fabs bdz))) (fmul (fadd (fabs adxbdy) (fabs bdxady)) (fabs cdz)) in
  if beyond_strict det (fmul o3d_err_bounda permanent) then Some det else
  orient3d_adapt pax pay paz pbx pby pbz pcx pcy pcz pdx pdy pdz permanent.

(** predicates.rs:791-812 *)
Definition orient3d_fast (pax pay paz pbx pby pbz pcx pcy pcz pdx pdy pdz : f64) : f64 :=
  let adx := fsub pax pdx in
  let ady := fsub pay pdy in
  let adz := fsub paz pdz in
  let bdx := fsub pbx pdx in
  let bdy := fsub pby pdy in
  let bdz := fsub pbz pdz in
  let cdx := fsub pcx pdx in
  let cdy := fsub pcy pdy in
  let cdz := fsub pcz pdz in
  let bdxcdy := fmul bdx cdy in
  let cdxbdy := fmul cdx bdy in
  let cdxady := fmul cdx ady in
  let adxcdy := fmul adx cdy in
  let adxbdy := fmul adx bdy in
  let bdxady := fmul bdx ady in
  fadd (fadd (fmul adz (fsub bdxcdy cdxbdy)) (fmul bdz (fsub cdxady adxcdy))) (fmul cdz (fsub adxbdy bdxady)).

(** predicates.rs:920-945, incircle_adapt::helper1: [(axtbc, fin)] *)
Definition ic_helper1 (adxtail : f64) (bc : list f64) (adx : f64) (cc : list f64) (bdy : f64) (bb : list f64) (cdy : f64)
    (fin : list f64) : option (list f64 * list f64) :=
  axtbc <- scale_expansion_zeroelim bc adxtail ;;
  temp16a <- scale_expansion_zeroelim axtbc (fmul f_two adx) ;;
  axtcc <- scale_expansion_zeroelim cc adxtail ;;
  temp16b <- scale_expansion_zeroelim axtcc bdy ;;
  axtbb <- scale_expansion_zeroelim bb adxtail ;;
  temp16c <- scale_expansion_zeroelim axtbb (fneg cdy) ;;
  temp32a <- fast_expansion_sum_zeroelim temp16a temp16b ;;
  temp48 <- fast_expansion_sum_zeroelim temp16c temp32a ;;
  fin <- fast_expansion_sum_zeroelim fin temp48 ;;
  Some (axtbc, fin).
(** predicates.rs:946-949 and the five similar ones:
    [let mut axtbc = Vec::new(); if adxtail != 0.0 { axtbc = helper1(...) }] *)
Definition ic_step1 (adxtail : f64) (bc : list f64) (adx : f64) (cc : list f64) (bdy : f64) (bb : list f64) (cdy : f64)
    (fin : list f64) : option (list f64 * list f64) :=
  if nonzero adxtail then ic_helper1 adxtail bc adx cc bdy bb cdy fin else Some ([], fin).

(** predicates.rs:1024-1028: [fin += e * t * z] if [z != 0.0] *)
Definition ic_scaled2 (z : f64) (e : list f64) (t : f64) (fin : list f64) : option (list f64) :=
  if nonzero z then
    temp8 <- scale_expansion_zeroelim e t ;;
    temp16a <- scale_expansion_zeroelim temp8 z ;;
    fast_expansion_sum_zeroelim fin temp16a
  else Some fin.

(** predicates.rs:997-1016: [(bct, bctt)] *)
Definition ic_bct (bdxtail bdytail cdxtail cdytail bdx bdy cdx cdy : f64) : option (list f64 * list f64) :=
  if nonzero bdxtail || nonzero bdytail || nonzero cdxtail || nonzero cdytail then
      let (ti1, ti0) := two_product bdxtail cdy in
      let (tj1, tj0) := two_product bdx cdytail in
      let u := quad (two_two_sum ti1 ti0 tj1 tj0) in
      let (ti1, ti0) := two_product cdxtail (fneg bdy) in
      let (tj1, tj0) := two_product cdx (fneg bdytail) in
      let v := quad (two_two_sum ti1 ti0 tj1 tj0) in
      bct <- fast_expansion_sum_zeroelim u v ;;
      let (ti1, ti0) := two_product bdxtail cdytail in
      let (tj1, tj0) := two_product cdxtail bdytail in
      let bctt := quad (two_two_diff ti1 ti0 tj1 tj0) in
    Some (bct, bctt)
  else Some ([fzero], [fzero]).
(** predicates.rs:1018-1042 *)
Definition ic_half_x (adxtail bdytail cdytail adx : f64) (axtbc bct bctt bb cc fin : list f64) : option (list f64) :=
  temp16a <- scale_expansion_zeroelim axtbc adxtail ;;
  axtbct <- scale_expansion_zeroelim bct adxtail ;;
  temp32a <- scale_expansion_zeroelim axtbct (fmul f_two adx) ;;
  temp48 <- fast_expansion_sum_zeroelim temp16a temp32a ;;
  fin <- fast_expansion_sum_zeroelim fin temp48 ;;
  fin <- ic_scaled2 bdytail cc adxtail fin ;;
  fin <- ic_scaled2 cdytail bb (fneg adxtail) fin ;;
  temp32a <- scale_expansion_zeroelim axtbct adxtail ;;
  axtbctt <- scale_expansion_zeroelim bctt adxtail ;;
  temp16a <- scale_expansion_zeroelim axtbctt (fmul f_two adx) ;;
  temp16b <- scale_expansion_zeroelim axtbctt adxtail ;;
  temp32b <- fast_expansion_sum_zeroelim temp16a temp16b ;;
  temp64 <- fast_expansion_sum_zeroelim temp32a temp32b ;;
  fast_expansion_sum_zeroelim fin temp64.
(** predicates.rs:1043-1057 *)
Definition ic_half_y (adytail ady : f64) (aytbc bct bctt fin : list f64) : option (list f64) :=
  temp16a <- scale_expansion_zeroelim aytbc adytail ;;
  aytbct <- scale_expansion_zeroelim bct adytail ;;
  temp32a <- scale_expansion_zeroelim aytbct (fmul f_two ady) ;;
  temp48 <- fast_expansion_sum_zeroelim temp16a temp32a ;;
  fin <- fast_expansion_sum_zeroelim fin temp48 ;;
  temp32a <- scale_expansion_zeroelim aytbct adytail ;;
  aytbctt <- scale_expansion_zeroelim bctt adytail ;;
  temp16a <- scale_expansion_zeroelim aytbctt (fmul f_two ady) ;;
  temp16b <- scale_expansion_zeroelim aytbctt adytail ;;
  temp32b <- fast_expansion_sum_zeroelim temp16a temp16b ;;
  temp64 <- fast_expansion_sum_zeroelim temp32a temp32b ;;
  fast_expansion_sum_zeroelim fin temp64.
(** predicates.rs:976-1058, incircle_adapt::helper2 *)
Definition ic_helper2 (adxtail adytail bdxtail bdytail cdxtail cdytail adx ady bdx bdy cdx cdy : f64)
    (axtbc aytbc bb cc fin : list f64) : option (list f64) :=
  if nonzero adxtail || nonzero adytail then
    '(bct, bctt) <- ic_bct bdxtail bdytail cdxtail cdytail bdx bdy cdx cdy ;;
    fin <- (if nonzero adxtail then ic_half_x adxtail bdytail cdytail adx axtbc bct bctt bb cc fin else Some fin) ;;
    (if nonzero adytail then ic_half_y adytail ady aytbc bct bctt fin else Some fin)
  else Some fin.

(** predicates.rs:901-906 and the two similar ones: the squared length of
    [(x, y)], or an empty vector *)
Definition ic_sq (c : bool) (x y : f64) : list f64 :=
  if c then
    let (xx1, xx0) := square x in
    let (yy1, yy0) := square y in
    quad (two_two_sum xx1 xx0 yy1 yy0)
  else [].
(** predicates.rs:898-1072, the last stage of incircle_adapt. *)
Definition incircle_last (bc ca ab fin : list f64) (adx ady bdx bdy cdx cdy : f64)
    (adxtail adytail bdxtail bdytail cdxtail cdytail : f64) : option f64 :=
  let aa := ic_sq (nonzero bdxtail || nonzero bdytail || nonzero cdxtail || nonzero cdytail) adx ady in
  let bb := ic_sq (nonzero cdxtail || nonzero cdytail || nonzero adxtail || nonzero adytail) bdx bdy in
  let cc := ic_sq (nonzero adxtail || nonzero adytail || nonzero bdxtail || nonzero bdytail) cdx cdy in
  '(axtbc, fin) <- ic_step1 adxtail bc adx cc bdy bb cdy fin ;;
  '(aytbc, fin) <- ic_step1 adytail bc ady bb cdx cc bdx fin ;;
  '(bxtca, fin) <- ic_step1 bdxtail ca bdx aa cdy cc ady fin ;;
  '(bytca, fin) <- ic_step1 bdytail ca bdy cc adx aa cdx fin ;;
  '(cxtab, fin) <- ic_step1 cdxtail ab cdx bb ady aa bdy fin ;;
  '(cytab, fin) <- ic_step1 cdytail ab cdy aa bdx bb adx fin ;;
  fin <- ic_helper2 adxtail adytail bdxtail bdytail cdxtail cdytail adx ady bdx bdy cdx cdy axtbc aytbc bb cc fin ;;
  fin <- ic_helper2 bdxtail bdytail cdxtail cdytail adxtail adytail bdx bdy cdx cdy adx ady bxtca bytca cc aa fin ;;
  fin <- ic_helper2 cdxtail cdytail adxtail adytail bdxtail bdytail cdx cdy adx ady bdx bdy cxtab cytab aa bb fin ;;
  last_opt fin.

(** predicates.rs:814-1073 *)
Definition incircle_adapt (pax pay pbx pby pcx pcy pdx pdy permanent : f64) : option f64 :=
  let adx := fsub pax pdx in
  let bdx := fsub pbx pdx in
  let cdx := fsub pcx pdx in
  let ady := fsub pay pdy in
  let bdy := fsub pby pdy in
  let cdy := fsub pcy pdy in
  let (bdxcdy1, bdxcdy0) := two_product bdx cdy in
  let (cdxbdy1, cdxbdy0) := two_product cdx bdy in
  let bc := quad (two_two_diff bdxcdy1 bdxcdy0 cdxbdy1 cdxbdy0) in
  axbc <- scale_expansion_zeroelim bc adx ;;
  axxbc <- scale_expansion_zeroelim axbc adx ;;
  aybc <- scale_expansion_zeroelim bc ady ;;
  ayybc <- scale_expansion_zeroelim aybc ady ;;
  adet <- fast_expansion_sum_zeroelim axxbc ayybc ;;
  let (cdxady1, cdxady0) := two_product cdx ady in
  let (adxcdy1, adxcdy0) := two_product adx cdy in
  let ca := quad (two_two_diff cdxady1 cdxady0 adxcdy1 adxcdy0) in
  bxca <- scale_expansion_zeroelim ca bdx ;;
  bxxca <- scale_expansion_zeroelim bxca bdx ;;
  byca <- scale_expansion_zeroelim ca bdy ;;
  byyca <- scale_expansion_zeroelim byca bdy ;;
  bdet <- fast_expansion_sum_zeroelim bxxca byyca ;;
  let (adxbdy1, adxbdy0) := two_product adx bdy in
  let (bdxady1, bdxady0) := two_product bdx ady in
  let ab := quad (two_two_diff adxbdy1 adxbdy0 bdxady1 bdxady0) in
  cxab <- scale_expansion_zeroelim ab cdx ;;
  cxxab <- scale_expansion_zeroelim cxab cdx ;;
  cyab <- scale_expansion_zeroelim ab cdy ;;
  cyyab <- scale_expansion_zeroelim cyab cdy ;;
  cdet <- fast_expansion_sum_zeroelim cxxab cyyab ;;
  abdet <- fast_expansion_sum_zeroelim adet bdet ;;
  fin <- fast_expansion_sum_zeroelim abdet cdet ;;
  let det := estimate fin in
  if beyond det (fmul icc_err_boundb permanent) then Some det else
  let adxtail := two_diff_tail pax pdx adx in
  let adytail := two_diff_tail pay pdy ady in
  let bdxtail := two_diff_tail pbx pdx bdx in
  let bdytail := two_diff_tail pby pdy bdy in
  let cdxtail := two_diff_tail pcx pdx cdx in
  let cdytail := two_diff_tail pcy pdy cdy in
  if feq adxtail fzero && feq bdxtail fzero && feq cdxtail fzero && feq adytail fzero && feq bdytail fzero && feq cdytail fzero then Some det else
  let errbound := fadd (fmul icc_err_boundc permanent) (fmul result_err_bound (fabs det)) in
  let det := fadd det (fadd (fadd (fadd (fmul (fadd (fmul adx adx) (fmul ady ady)) (fsub (fadd (fmul bdx cdytail) (fmul cdy bdxtail)) (fadd (fmul bdy cdxtail) (fmul cdx bdytail)))) (fmul (fmul f_two (fadd (fmul adx adxtail) (fmul ady adytail))) (fsub (fmul bdx cdy) (fmul bdy cdx)))) (fadd (fmul (fadd (fmul bdx bdx) (fmul bdy bdy)) (fsub (fadd (fmul cdx adytail) (fmul ady cdxtail)) (fadd (fmul cdy adxtail) (fmul adx cdytail)))) (fmul (fmul f_two (fadd (fmul bdx bdxtail) (fmul bdy bdytail))) (fsub (fmul cdx ady) (fmul cdy adx))))) (fadd (fmul (fadd (fmul cdx cdx) (fmul cdy cdy)) (fsub (fadd (fmul adx bdytail) (fmul bdy adxtail)) (fadd (fmul ady bdxtail) (fmul bdx adytail)))) (fmul (fmul f_two (fadd (fmul cdx cdxtail) (fmul cdy cdytail))) (fsub (fmul adx bdy) (fmul ady bdx))))) in
  if beyond det errbound then Some det else
  incircle_last bc ca ab fin adx ady bdx bdy cdx cdy adxtail adytail bdxtail bdytail cdxtail cdytail.

(** predicates.rs:1075-1112 *)
Definition incircle (pax pay pbx pby pcx pcy pdx pdy : f64) : option f64 :=
  let adx := fsub pax pdx in
  let bdx := fsub pbx pdx in
  let cdx := fsub pcx pdx in
  let ady := fsub pay pdy in
  let bdy := fsub pby pdy in
  let cdy := fsub pcy pdy in
  let bdxcdy := fmul bdx cdy in
  let cdxbdy := fmul cdx bdy in
  let alift := fadd (fmul adx adx) (fmul ady ady) in
  let cdxady := fmul cdx ady in
  let adxcdy := fmul adx cdy in
  let blift := fadd (fmul bdx bdx) (fmul bdy bdy) in
  let adxbdy := fmul adx bdy in
  let bdxady := fmul bdx ady in
  let clift := fadd (fmul cdx cdx) (fmul cdy cdy) in
  let det := fadd (fadd (fmul alift (fsub bdxcdy cdxbdy)) (fmul blift (fsub cdxady adxcdy))) (fmul clift (fsub adxbdy bdxady)) in
  let permanent := fadd (fadd (fmul (fadd (fabs bdxcdy) (fabs cdxbdy)) alift) (fmul (fadd (fabs cdxady) (fabs adxcdy)) blift)) (fmul (fadd (fabs adxbdy) (fabs bdxady)) clift) in
  if beyond_strict det (fmul icc_err_bounda permanent) then Some det else
  incircle_adapt pax pay pbx pby pcx pcy pdx pdy permanent.

(** predicates.rs:1114-1308 *)
Definition insphere_exact (pax pay paz pbx pby pbz pcx pcy pcz pdx pdy pdz pex pey pez : f64) : option f64 :=
  let (axby1, axby0) := two_product pax pby in
  let (bxay1, bxay0) := two_product pbx pay in
  let ab := quad (two_two_diff axby1 axby0 bxay1 bxay0) in
  let (bxcy1, bxcy0) := two_product pbx pcy in
  let (cxby1, cxby0) := two_product pcx pby in
  let bc := quad (two_two_diff bxcy1 bxcy0 cxby1 cxby0) in
  let (cxdy1, cxdy0) := two_product pcx pdy in
  let (dxcy1, dxcy0) := two_product pdx pcy in
  let cd := quad (two_two_diff cxdy1 cxdy0 dxcy1 dxcy0) in
  let (dxey1, dxey0) := two_product pdx pey in
  let (exdy1, exdy0) := two_product pex pdy in
  let de := quad (two_two_diff dxey1 dxey0 exdy1 exdy0) in
  let (exay1, exay0) := two_product pex pay in
  let (axey1, axey0) := two_product pax pey in
  let ea := quad (two_two_diff exay1 exay0 axey1 axey0) in
  let (axcy1, axcy0) := two_product pax pcy in
  let (cxay1, cxay0) := two_product pcx pay in
  let ac := quad (two_two_diff axcy1 axcy0 cxay1 cxay0) in
  let (bxdy1, bxdy0) := two_product pbx pdy in
  let (dxby1, dxby0) := two_product pdx pby in
  let bd := quad (two_two_diff bxdy1 bxdy0 dxby1 dxby0) in
  let (cxey1, cxey0) := two_product pcx pey in
  let (excy1, excy0) := two_product pex pcy in
  let ce := quad (two_two_diff cxey1 cxey0 excy1 excy0) in
  let (dxay1, dxay0) := two_product pdx pay in
  let (axdy1, axdy0) := two_product pax pdy in
  let da := quad (two_two_diff dxay1 dxay0 axdy1 axdy0) in
  let (exby1, exby0) := two_product pex pby in
  let (bxey1, bxey0) := two_product pbx pey in
  let eb := quad (two_two_diff exby1 exby0 bxey1 bxey0) in
  temp8a <- scale_expansion_zeroelim bc paz ;;
  temp8b <- scale_expansion_zeroelim ac (fneg pbz) ;;
  temp16 <- fast_expansion_sum_zeroelim temp8a temp8b ;;
  temp8a <- scale_expansion_zeroelim ab pcz ;;
  abc <- fast_expansion_sum_zeroelim temp8a temp16 ;;
  temp8a <- scale_expansion_zeroelim cd pbz ;;
  temp8b <- scale_expansion_zeroelim bd (fneg pcz) ;;
  temp16 <- fast_expansion_sum_zeroelim temp8a temp8b ;;
  temp8a <- scale_expansion_zeroelim bc pdz ;;
  bcd <- fast_expansion_sum_zeroelim temp8a temp16 ;;
  temp8a <- scale_expansion_zeroelim de pcz ;;
  temp8b <- scale_expansion_zeroelim ce (fneg pdz) ;;
  temp16 <- fast_expansion_sum_zeroelim temp8a temp8b ;;
  temp8a <- scale_expansion_zeroelim cd pez ;;
  cde <- fast_expansion_sum_zeroelim temp8a temp16 ;;
  temp8a <- scale_expansion_zeroelim ea pdz ;;
  temp8b <- scale_expansion_zeroelim da (fneg pez) ;;
  temp16 <- fast_expansion_sum_zeroelim temp8a temp8b ;;
  temp8a <- scale_expansion_zeroelim de paz ;;
  dea <- fast_expansion_sum_zeroelim temp8a temp16 ;;
  temp8a <- scale_expansion_zeroelim ab pez ;;
  temp8b <- scale_expansion_zeroelim eb (fneg paz) ;;
  temp16 <- fast_expansion_sum_zeroelim temp8a temp8b ;;
  temp8a <- scale_expansion_zeroelim ea pbz ;;
  eab <- fast_expansion_sum_zeroelim temp8a temp16 ;;
  temp8a <- scale_expansion_zeroelim bd paz ;;
  temp8b <- scale_expansion_zeroelim da pbz ;;
  temp16 <- fast_expansion_sum_zeroelim temp8a temp8b ;;
  temp8a <- scale_expansion_zeroelim ab pdz ;;
  abd <- fast_expansion_sum_zeroelim temp8a temp16 ;;
  temp8a <- scale_expansion_zeroelim ce pbz ;;
  temp8b <- scale_expansion_zeroelim eb pcz ;;
  temp16 <- fast_expansion_sum_zeroelim temp8a temp8b ;;
  temp8a <- scale_expansion_zeroelim bc pez ;;
  bce <- fast_expansion_sum_zeroelim temp8a temp16 ;;
  temp8a <- scale_expansion_zeroelim da pcz ;;
  temp8b <- scale_expansion_zeroelim ac pdz ;;
  temp16 <- fast_expansion_sum_zeroelim temp8a temp8b ;;
  temp8a <- scale_expansion_zeroelim cd paz ;;
  cda <- fast_expansion_sum_zeroelim temp8a temp16 ;;
  temp8a <- scale_expansion_zeroelim eb pdz ;;
  temp8b <- scale_expansion_zeroelim bd pez ;;
  temp16 <- fast_expansion_sum_zeroelim temp8a temp8b ;;
  temp8a <- scale_expansion_zeroelim de pbz ;;
  deb <- fast_expansion_sum_zeroelim temp8a temp16 ;;
  temp8a <- scale_expansion_zeroelim ac pez ;;
  temp8b <- scale_expansion_zeroelim ce paz ;;
  temp16 <- fast_expansion_sum_zeroelim temp8a temp8b ;;
  temp8a <- scale_expansion_zeroelim ea pcz ;;
  eac <- fast_expansion_sum_zeroelim temp8a temp16 ;;
  temp48a <- fast_expansion_sum_zeroelim cde bce ;;
  temp48b <- fast_expansion_sum_zeroelim deb bcd ;;
  let temp48b := expansion_invert temp48b in
  bcde <- fast_expansion_sum_zeroelim temp48a temp48b ;;
  temp192 <- scale_expansion_zeroelim bcde pax ;;
  det384x <- scale_expansion_zeroelim temp192 pax ;;
  temp192 <- scale_expansion_zeroelim bcde pay ;;
  det384y <- scale_expansion_zeroelim temp192 pay ;;
  temp192 <- scale_expansion_zeroelim bcde paz ;;
  det384z <- scale_expansion_zeroelim temp192 paz ;;
  detxy <- fast_expansion_sum_zeroelim det384x det384y ;;
  adet <- fast_expansion_sum_zeroelim detxy det384z ;;
  temp48a <- fast_expansion_sum_zeroelim dea cda ;;
  temp48b <- fast_expansion_sum_zeroelim eac cde ;;
  let temp48b := expansion_invert temp48b in
  cdea <- fast_expansion_sum_zeroelim temp48a temp48b ;;
  temp192 <- scale_expansion_zeroelim cdea pbx ;;
  det384x <- scale_expansion_zeroelim temp192 pbx ;;
  temp192 <- scale_expansion_zeroelim cdea pby ;;
  det384y <- scale_expansion_zeroelim temp192 pby ;;
  temp192 <- scale_expansion_zeroelim cdea pbz ;;
  det384z <- scale_expansion_zeroelim temp192 pbz ;;
  detxy <- fast_expansion_sum_zeroelim det384x det384y ;;
  bdet <- fast_expansion_sum_zeroelim detxy det384z ;;
  temp48a <- fast_expansion_sum_zeroelim eab deb ;;
  temp48b <- fast_expansion_sum_zeroelim abd dea ;;
  let temp48b := expansion_invert temp48b in
  deab <- fast_expansion_sum_zeroelim temp48a temp48b ;;
  temp192 <- scale_expansion_zeroelim deab pcx ;;
  det384x <- scale_expansion_zeroelim temp192 pcx ;;
  temp192 <- scale_expansion_zeroelim deab pcy ;;
  det384y <- scale_expansion_zeroelim temp192 pcy ;;
  temp192 <- scale_expansion_zeroelim deab pcz ;;
  det384z <- scale_expansion_zeroelim temp192 pcz ;;
  detxy <- fast_expansion_sum_zeroelim det384x det384y ;;
  cdet <- fast_expansion_sum_zeroelim detxy det384z ;;
  temp48a <- fast_expansion_sum_zeroelim abc eac ;;
  temp48b <- fast_expansion_sum_zeroelim bce eab ;;
  let temp48b := expansion_invert temp48b in
  eabc <- fast_expansion_sum_zeroelim temp48a temp48b ;;
  temp192 <- scale_expansion_zeroelim eabc pdx ;;
  det384x <- scale_expansion_zeroelim temp192 pdx ;;
  temp192 <- scale_expansion_zeroelim eabc pdy ;;
  det384y <- scale_expansion_zeroelim temp192 pdy ;;
  temp192 <- scale_expansion_zeroelim eabc pdz ;;
  det384z <- scale_expansion_zeroelim temp192 pdz ;;
  detxy <- fast_expansion_sum_zeroelim det384x det384y ;;
  ddet <- fast_expansion_sum_zeroelim detxy det384z ;;
  temp48a <- fast_expansion_sum_zeroelim bcd abd ;;
  temp48b <- fast_expansion_sum_zeroelim cda abc ;;
  let temp48b := expansion_invert temp48b in
  abcd <- fast_expansion_sum_zeroelim temp48a temp48b ;;
  temp192 <- scale_expansion_zeroelim abcd pex ;;
  det384x <- scale_expansion_zeroelim temp192 pex ;;
  temp192 <- scale_expansion_zeroelim abcd pey ;;
  det384y <- scale_expansion_zeroelim temp192 pey ;;
  temp192 <- scale_expansion_zeroelim abcd pez ;;
  det384z <- scale_expansion_zeroelim temp192 pez ;;
  detxy <- fast_expansion_sum_zeroelim det384x det384y ;;
  edet <- fast_expansion_sum_zeroelim detxy det384z ;;
  abdet <- fast_expansion_sum_zeroelim adet bdet ;;
  cddet <- fast_expansion_sum_zeroelim cdet ddet ;;
  cdedet <- fast_expansion_sum_zeroelim cddet edet ;;
  deter <- fast_expansion_sum_zeroelim abdet cdedet ;;
  last_opt deter.

(** predicates.rs:1310-1488 *)
Definition insphere_adapt (pax pay paz pbx pby pbz pcx pcy pcz pdx pdy pdz pex pey pez permanent : f64) : option f64 :=
  let aex := fsub pax pex in
  let bex := fsub pbx pex in
  let cex := fsub pcx pex in
  let dex := fsub pdx pex in
  let aey := fsub pay pey in
  let bey := fsub pby pey in
  let cey := fsub pcy pey in
  let dey := fsub pdy pey in
  let aez := fsub paz pez in
  let bez := fsub pbz pez in
  let cez := fsub pcz pez in
  let dez := fsub pdz pez in
  let (aexbey1, aexbey0) := two_product aex bey in
  let (bexaey1, bexaey0) := two_product bex aey in
  let ab := quad (two_two_diff aexbey1 aexbey0 bexaey1 bexaey0) in
  let (bexcey1, bexcey0) := two_product bex cey in
  let (cexbey1, cexbey0) := two_product cex bey in
  let bc := quad (two_two_diff bexcey1 bexcey0 cexbey1 cexbey0) in
  let (cexdey1, cexdey0) := two_product cex dey in
  let (dexcey1, dexcey0) := two_product dex cey in
  let cd := quad (two_two_diff cexdey1 cexdey0 dexcey1 dexcey0) in
  let (dexaey1, dexaey0) := two_product dex aey in
  let (aexdey1, aexdey0) := two_product aex dey in
  let da := quad (two_two_diff dexaey1 dexaey0 aexdey1 aexdey0) in
  let (aexcey1, aexcey0) := two_product aex cey in
  let (cexaey1, cexaey0) := two_product cex aey in
  let ac := quad (two_two_diff aexcey1 aexcey0 cexaey1 cexaey0) in
  let (bexdey1, bexdey0) := two_product bex dey in
  let (dexbey1, dexbey0) := two_product dex bey in
  let bd := quad (two_two_diff bexdey1 bexdey0 dexbey1 dexbey0) in
  temp8a <- scale_expansion_zeroelim cd bez ;;
  temp8b <- scale_expansion_zeroelim bd (fneg cez) ;;
  temp8c <- scale_expansion_zeroelim bc dez ;;
  temp16 <- fast_expansion_sum_zeroelim temp8a temp8b ;;
  temp24 <- fast_expansion_sum_zeroelim temp8c temp16 ;;
  temp48 <- scale_expansion_zeroelim temp24 aex ;;
  xdet <- scale_expansion_zeroelim temp48 (fneg aex) ;;
  temp48 <- scale_expansion_zeroelim temp24 aey ;;
  ydet <- scale_expansion_zeroelim temp48 (fneg aey) ;;
  temp48 <- scale_expansion_zeroelim temp24 aez ;;
  zdet <- scale_expansion_zeroelim temp48 (fneg aez) ;;
  xydet <- fast_expansion_sum_zeroelim xdet ydet ;;
  adet <- fast_expansion_sum_zeroelim xydet zdet ;;
  temp8a <- scale_expansion_zeroelim da cez ;;
  temp8b <- scale_expansion_zeroelim ac dez ;;
  temp8c <- scale_expansion_zeroelim cd aez ;;
  temp16 <- fast_expansion_sum_zeroelim temp8a temp8b ;;
  temp24 <- fast_expansion_sum_zeroelim temp8c temp16 ;;
  temp48 <- scale_expansion_zeroelim temp24 bex ;;
  xdet <- scale_expansion_zeroelim temp48 bex ;;
  temp48 <- scale_expansion_zeroelim temp24 bey ;;
  ydet <- scale_expansion_zeroelim temp48 bey ;;
  temp48 <- scale_expansion_zeroelim temp24 bez ;;
  zdet <- scale_expansion_zeroelim temp48 bez ;;
  xydet <- fast_expansion_sum_zeroelim xdet ydet ;;
  bdet <- fast_expansion_sum_zeroelim xydet zdet ;;
  temp8a <- scale_expansion_zeroelim ab dez ;;
  temp8b <- scale_expansion_zeroelim bd aez ;;
  temp8c <- scale_expansion_zeroelim da bez ;;
  temp16 <- fast_expansion_sum_zeroelim temp8a temp8b ;;
  temp24 <- fast_expansion_sum_zeroelim temp8c temp16 ;;
  temp48 <- scale_expansion_zeroelim temp24 cex ;;
  xdet <- scale_expansion_zeroelim temp48 (fneg cex) ;;
  temp48 <- scale_expansion_zeroelim temp24 cey ;;
  ydet <- scale_expansion_zeroelim temp48 (fneg cey) ;;
  temp48 <- scale_expansion_zeroelim temp24 cez ;;
  zdet <- scale_expansion_zeroelim temp48 (fneg cez) ;;
  xydet <- fast_expansion_sum_zeroelim xdet ydet ;;
  cdet <- fast_expansion_sum_zeroelim xydet zdet ;;
  temp8a <- scale_expansion_zeroelim bc aez ;;
  temp8b <- scale_expansion_zeroelim ac (fneg bez) ;;
  temp8c <- scale_expansion_zeroelim ab cez ;;
  temp16 <- fast_expansion_sum_zeroelim temp8a temp8b ;;
  temp24 <- fast_expansion_sum_zeroelim temp8c temp16 ;;
  temp48 <- scale_expansion_zeroelim temp24 dex ;;
  xdet <- scale_expansion_zeroelim temp48 dex ;;
  temp48 <- scale_expansion_zeroelim temp24 dey ;;
  ydet <- scale_expansion_zeroelim temp48 dey ;;
  temp48 <- scale_expansion_zeroelim temp24 dez ;;
  zdet <- scale_expansion_zeroelim temp48 dez ;;
  xydet <- fast_expansion_sum_zeroelim xdet ydet ;;
  ddet <- fast_expansion_sum_zeroelim xydet zdet ;;
  abdet <- fast_expansion_sum_zeroelim adet bdet ;;
  cddet <- fast_expansion_sum_zeroelim cdet ddet ;;
  fin1 <- fast_expansion_sum_zeroelim abdet cddet ;;
  let det := estimate fin1 in
  if beyond det (fmul isp_err_boundb permanent) then Some det else
  let aextail := two_diff_tail pax pex aex in
  let aeytail := two_diff_tail pay pey aey in
  let aeztail := two_diff_tail paz pez aez in
  let bextail := two_diff_tail pbx pex bex in
  let beytail := two_diff_tail pby pey bey in
  let beztail := two_diff_tail pbz pez bez in
  let cextail := two_diff_tail pcx pex cex in
  let ceytail := two_diff_tail pcy pey cey in
  let ceztail := two_diff_tail pcz pez cez in
  let dextail := two_diff_tail pdx pex dex in
  let deytail := two_diff_tail pdy pey dey in
  let deztail := two_diff_tail pdz pez dez in
  if feq aextail fzero && feq aeytail fzero && feq aeztail fzero && feq bextail fzero && feq beytail fzero && feq beztail fzero && feq cextail fzero && feq ceytail fzero && feq ceztail fzero && feq dextail fzero && feq deytail fzero && feq deztail fzero then Some det else
  let errbound := fadd (fmul isp_err_boundc permanent) (fmul result_err_bound (fabs det)) in
  let abeps := fsub (fadd (fmul aex beytail) (fmul bey aextail)) (fadd (fmul aey bextail) (fmul bex aeytail)) in
  let bceps := fsub (fadd (fmul bex ceytail) (fmul cey bextail)) (fadd (fmul bey cextail) (fmul cex beytail)) in
  let cdeps := fsub (fadd (fmul cex deytail) (fmul dey cextail)) (fadd (fmul cey dextail) (fmul dex ceytail)) in
  let daeps := fsub (fadd (fmul dex aeytail) (fmul aey dextail)) (fadd (fmul dey aextail) (fmul aex deytail)) in
  let aceps := fsub (fadd (fmul aex ceytail) (fmul cey aextail)) (fadd (fmul aey cextail) (fmul cex aeytail)) in
  let bdeps := fsub (fadd (fmul bex deytail) (fmul dey bextail)) (fadd (fmul bey dextail) (fmul dex beytail)) in
  let det := fadd det (fadd (fsub (fadd (fmul (fadd (fadd (fmul bex bex) (fmul bey bey)) (fmul bez bez)) (fadd (fadd (fadd (fmul cez daeps) (fmul dez aceps)) (fmul aez cdeps)) (fadd (fadd (fmul ceztail (nth 3 da fzero)) (fmul deztail (nth 3 ac fzero))) (fmul aeztail (nth 3 cd fzero))))) (fmul (fadd (fadd (fmul dex dex) (fmul dey dey)) (fmul dez dez)) (fadd (fadd (fsub (fmul aez bceps) (fmul bez aceps)) (fmul cez abeps)) (fadd (fsub (fmul aeztail (nth 3 bc fzero)) (fmul beztail (nth 3 ac fzero))) (fmul ceztail (nth 3 ab fzero)))))) (fadd (fmul (fadd (fadd (fmul aex aex) (fmul aey aey)) (fmul aez aez)) (fadd (fadd (fsub (fmul bez cdeps) (fmul cez bdeps)) (fmul dez bceps)) (fadd (fsub (fmul beztail (nth 3 cd fzero)) (fmul ceztail (nth 3 bd fzero))) (fmul deztail (nth 3 bc fzero))))) (fmul (fadd (fadd (fmul cex cex) (fmul cey cey)) (fmul cez cez)) (fadd (fadd (fadd (fmul dez abeps) (fmul aez bdeps)) (fmul bez daeps)) (fadd (fadd (fmul deztail (nth 3 ab fzero)) (fmul aeztail (nth 3 bd fzero))) (fmul beztail (nth 3 da fzero))))))) (fmul f_two (fsub (fadd (fmul (fadd (fadd (fmul bex bextail) (fmul bey beytail)) (fmul bez beztail)) (fadd (fadd (fmul cez (nth 3 da fzero)) (fmul dez (nth 3 ac fzero))) (fmul aez (nth 3 cd fzero)))) (fmul (fadd (fadd (fmul dex dextail) (fmul dey deytail)) (fmul dez deztail)) (fadd (fsub (fmul aez (nth 3 bc fzero)) (fmul bez (nth 3 ac fzero))) (fmul cez (nth 3 ab fzero))))) (fadd (fmul (fadd (fadd (fmul aex aextail) (fmul aey aeytail)) (fmul aez aeztail)) (fadd (fsub (fmul bez (nth 3 cd fzero)) (fmul cez (nth 3 bd fzero))) (fmul dez (nth 3 bc fzero)))) (fmul (fadd (fadd (fmul cex cextail) (fmul cey ceytail)) (fmul cez ceztail)) (fadd (fadd (fmul dez (nth 3 ab fzero)) (fmul aez (nth 3 bd fzero))) (fmul bez (nth 3 da fzero)))))))) in
  if beyond det errbound then Some det else
  insphere_exact pax pay paz pbx pby pbz pcx pcy pcz pdx pdy pdz pex pey pez.

(** predicates.rs:1602-1765 *)
Definition orient4d_exact (pax pay paz pbx pby pbz pcx pcy pcz pdx pdy pdz pex pey pez aheight bheight cheight dheight eheight : f64) : option f64 :=
  let (axby1, axby0) := two_product pax pby in
  let (bxay1, bxay0) := two_product pbx pay in
  let ab := quad (two_two_diff axby1 axby0 bxay1 bxay0) in
  let (bxcy1, bxcy0) := two_product pbx pcy in
  let (cxby1, cxby0) := two_product pcx pby in
  let bc := quad (two_two_diff bxcy1 bxcy0 cxby1 cxby0) in
  let (cxdy1, cxdy0) := two_product pcx pdy in
  let (dxcy1, dxcy0) := two_product pdx pcy in
  let cd := quad (two_two_diff cxdy1 cxdy0 dxcy1 dxcy0) in
  let (dxey1, dxey0) := two_product pdx pey in
  let (exdy1, exdy0) := two_product pex pdy in
  let de := quad (two_two_diff dxey1 dxey0 exdy1 exdy0) in
  let (exay1, exay0) := two_product pex pay in
  let (axey1, axey0) := two_product pax pey in
  let ea := quad (two_two_diff exay1 exay0 axey1 axey0) in
  let (axcy1, axcy0) := two_product pax pcy in
  let (cxay1, cxay0) := two_product pcx pay in
  let ac := quad (two_two_diff axcy1 axcy0 cxay1 cxay0) in
  let (bxdy1, bxdy0) := two_product pbx pdy in
  let (dxby1, dxby0) := two_product pdx pby in
  let bd := quad (two_two_diff bxdy1 bxdy0 dxby1 dxby0) in
  let (cxey1, cxey0) := two_product pcx pey in
  let (excy1, excy0) := two_product pex pcy in
  let ce := quad (two_two_diff cxey1 cxey0 excy1 excy0) in
  let (dxay1, dxay0) := two_product pdx pay in
  let (axdy1, axdy0) := two_product pax pdy in
  let da := quad (two_two_diff dxay1 dxay0 axdy1 axdy0) in
  let (exby1, exby0) := two_product pex pby in
  let (bxey1, bxey0) := two_product pbx pey in
  let eb := quad (two_two_diff exby1 exby0 bxey1 bxey0) in
  temp8a <- scale_expansion_zeroelim bc paz ;;
  temp8b <- scale_expansion_zeroelim ac (fneg pbz) ;;
  temp16 <- fast_expansion_sum_zeroelim temp8a temp8b ;;
  temp8a <- scale_expansion_zeroelim ab pcz ;;
  abc <- fast_expansion_sum_zeroelim temp8a temp16 ;;
  temp8a <- scale_expansion_zeroelim cd pbz ;;
  temp8b <- scale_expansion_zeroelim bd (fneg pcz) ;;
  temp16 <- fast_expansion_sum_zeroelim temp8a temp8b ;;
  temp8a <- scale_expansion_zeroelim bc pdz ;;
  bcd <- fast_expansion_sum_zeroelim temp8a temp16 ;;
  temp8a <- scale_expansion_zeroelim de pcz ;;
  temp8b <- scale_expansion_zeroelim ce (fneg pdz) ;;
  temp16 <- fast_expansion_sum_zeroelim temp8a temp8b ;;
  temp8a <- scale_expansion_zeroelim cd pez ;;
  cde <- fast_expansion_sum_zeroelim temp8a temp16 ;;
  temp8a <- scale_expansion_zeroelim ea pdz ;;
  temp8b <- scale_expansion_zeroelim da (fneg pez) ;;
  temp16 <- fast_expansion_sum_zeroelim temp8a temp8b ;;
  temp8a <- scale_expansion_zeroelim de paz ;;
  dea <- fast_expansion_sum_zeroelim temp8a temp16 ;;
  temp8a <- scale_expansion_zeroelim ab pez ;;
  temp8b <- scale_expansion_zeroelim eb (fneg paz) ;;
  temp16 <- fast_expansion_sum_zeroelim temp8a temp8b ;;
  temp8a <- scale_expansion_zeroelim ea pbz ;;
  eab <- fast_expansion_sum_zeroelim temp8a temp16 ;;
  temp8a <- scale_expansion_zeroelim bd paz ;;
  temp8b <- scale_expansion_zeroelim da pbz ;;
  temp16 <- fast_expansion_sum_zeroelim temp8a temp8b ;;
  temp8a <- scale_expansion_zeroelim ab pdz ;;
  abd <- fast_expansion_sum_zeroelim temp8a temp16 ;;
  temp8a <- scale_expansion_zeroelim ce pbz ;;
  temp8b <- scale_expansion_zeroelim eb pcz ;;
  temp16 <- fast_expansion_sum_zeroelim temp8a temp8b ;;
  temp8a <- scale_expansion_zeroelim bc pez ;;
  bce <- fast_expansion_sum_zeroelim temp8a temp16 ;;
  temp8a <- scale_expansion_zeroelim da pcz ;;
  temp8b <- scale_expansion_zeroelim ac pdz ;;
  temp16 <- fast_expansion_sum_zeroelim temp8a temp8b ;;
  temp8a <- scale_expansion_zeroelim cd paz ;;
  cda <- fast_expansion_sum_zeroelim temp8a temp16 ;;
  temp8a <- scale_expansion_zeroelim eb pdz ;;
  temp8b <- scale_expansion_zeroelim bd pez ;;
  temp16 <- fast_expansion_sum_zeroelim temp8a temp8b ;;
  temp8a <- scale_expansion_zeroelim de pbz ;;
  deb <- fast_expansion_sum_zeroelim temp8a temp16 ;;
  temp8a <- scale_expansion_zeroelim ac pez ;;
  temp8b <- scale_expansion_zeroelim ce paz ;;
  temp16 <- fast_expansion_sum_zeroelim temp8a temp8b ;;
  temp8a <- scale_expansion_zeroelim ea pcz ;;
  eac <- fast_expansion_sum_zeroelim temp8a temp16 ;;
  temp48a <- fast_expansion_sum_zeroelim cde bce ;;
  temp48b <- fast_expansion_sum_zeroelim deb bcd ;;
  let temp48b := expansion_invert temp48b in
  bcde <- fast_expansion_sum_zeroelim temp48a temp48b ;;
  adet <- scale_expansion_zeroelim bcde aheight ;;
  temp48a <- fast_expansion_sum_zeroelim dea cda ;;
  temp48b <- fast_expansion_sum_zeroelim eac cde ;;
  let temp48b := expansion_invert temp48b in
  cdea <- fast_expansion_sum_zeroelim temp48a temp48b ;;
  bdet <- scale_expansion_zeroelim cdea bheight ;;
  temp48a <- fast_expansion_sum_zeroelim eab deb ;;
  temp48b <- fast_expansion_sum_zeroelim abd dea ;;
  let temp48b := expansion_invert temp48b in
  deab <- fast_expansion_sum_zeroelim temp48a temp48b ;;
  cdet <- scale_expansion_zeroelim deab cheight ;;
  temp48a <- fast_expansion_sum_zeroelim abc eac ;;
  temp48b <- fast_expansion_sum_zeroelim bce eab ;;
  let temp48b := expansion_invert temp48b in
  eabc <- fast_expansion_sum_zeroelim temp48a temp48b ;;
  ddet <- scale_expansion_zeroelim eabc dheight ;;
  temp48a <- fast_expansion_sum_zeroelim bcd abd ;;
  temp48b <- fast_expansion_sum_zeroelim cda abc ;;
  let temp48b := expansion_invert temp48b in
  abcd <- fast_expansion_sum_zeroelim temp48a temp48b ;;
  edet <- scale_expansion_zeroelim abcd eheight ;;
  abdet <- fast_expansion_sum_zeroelim adet bdet ;;
  cddet <- fast_expansion_sum_zeroelim cdet ddet ;;
  cdedet <- fast_expansion_sum_zeroelim cddet edet ;;
  deter <- fast_expansion_sum_zeroelim abdet cdedet ;;
  last_opt deter.

(** predicates.rs:1767-1929 *)
Definition orient4d_adapt (pax pay paz pbx pby pbz pcx pcy pcz pdx pdy pdz pex pey pez aheight bheight cheight dheight eheight permanent : f64) : option f64 :=
  let aex := fsub pax pex in
  let bex := fsub pbx pex in
  let cex := fsub pcx pex in
  let dex := fsub pdx pex in
  let aey := fsub pay pey in
  let bey := fsub pby pey in
  let cey := fsub pcy pey in
  let dey := fsub pdy pey in
  let aez := fsub paz pez in
  let bez := fsub pbz pez in
  let cez := fsub pcz pez in
  let dez := fsub pdz pez in
  let aeheight := fsub aheight eheight in
  let beheight := fsub bheight eheight in
  let ceheight := fsub cheight eheight in
  let deheight := fsub dheight eheight in
  let (aexbey1, aexbey0) := two_product aex bey in
  let (bexaey1, bexaey0) := two_product bex aey in
  let ab := quad (two_two_diff aexbey1 aexbey0 bexaey1 bexaey0) in
  let (bexcey1, bexcey0) := two_product bex cey in
  let (cexbey1, cexbey0) := two_product cex bey in
  let bc := quad (two_two_diff bexcey1 bexcey0 cexbey1 cexbey0) in
  let (cexdey1, cexdey0) := two_product cex dey in
  let (dexcey1, dexcey0) := two_product dex cey in
  let cd := quad (two_two_diff cexdey1 cexdey0 dexcey1 dexcey0) in
  let (dexaey1, dexaey0) := two_product dex aey in
  let (aexdey1, aexdey0) := two_product aex dey in
  let da := quad (two_two_diff dexaey1 dexaey0 aexdey1 aexdey0) in
  let (aexcey1, aexcey0) := two_product aex cey in
  let (cexaey1, cexaey0) := two_product cex aey in
  let ac := quad (two_two_diff aexcey1 aexcey0 cexaey1 cexaey0) in
  let (bexdey1, bexdey0) := two_product bex dey in
  let (dexbey1, dexbey0) := two_product dex bey in
  let bd := quad (two_two_diff bexdey1 bexdey0 dexbey1 dexbey0) in
  temp8a <- scale_expansion_zeroelim cd bez ;;
  temp8b <- scale_expansion_zeroelim bd (fneg cez) ;;
  temp8c <- scale_expansion_zeroelim bc dez ;;
  temp16 <- fast_expansion_sum_zeroelim temp8a temp8b ;;
  temp24 <- fast_expansion_sum_zeroelim temp8c temp16 ;;
  adet <- scale_expansion_zeroelim temp24 (fneg aeheight) ;;
  temp8a <- scale_expansion_zeroelim da cez ;;
  temp8b <- scale_expansion_zeroelim ac dez ;;
  temp8c <- scale_expansion_zeroelim cd aez ;;
  temp16 <- fast_expansion_sum_zeroelim temp8a temp8b ;;
  temp24 <- fast_expansion_sum_zeroelim temp8c temp16 ;;
  bdet <- scale_expansion_zeroelim temp24 beheight ;;
  temp8a <- scale_expansion_zeroelim ab dez ;;
  temp8b <- scale_expansion_zeroelim bd aez ;;
  temp8c <- scale_expansion_zeroelim da bez ;;
  temp16 <- fast_expansion_sum_zeroelim temp8a temp8b ;;
  temp24 <- fast_expansion_sum_zeroelim temp8c temp16 ;;
  cdet <- scale_expansion_zeroelim temp24 (fneg ceheight) ;;
  temp8a <- scale_expansion_zeroelim bc aez ;;
  temp8b <- scale_expansion_zeroelim ac (fneg bez) ;;
  temp8c <- scale_expansion_zeroelim ab cez ;;
  temp16 <- fast_expansion_sum_zeroelim temp8a temp8b ;;
  temp24 <- fast_expansion_sum_zeroelim temp8c temp16 ;;
  ddet <- scale_expansion_zeroelim temp24 deheight ;;
  abdet <- fast_expansion_sum_zeroelim adet bdet ;;
  cddet <- fast_expansion_sum_zeroelim cdet ddet ;;
  fin1 <- fast_expansion_sum_zeroelim abdet cddet ;;
  let det := estimate fin1 in
  if beyond det (fmul isp_err_boundb permanent) then Some det else
  let aextail := two_diff_tail pax pex aex in
  let aeytail := two_diff_tail pay pey aey in
  let aeztail := two_diff_tail paz pez aez in
  let aeheighttail := two_diff_tail aheight eheight aeheight in
  let bextail := two_diff_tail pbx pex bex in
  let beytail := two_diff_tail pby pey bey in
  let beztail := two_diff_tail pbz pez bez in
  let beheighttail := two_diff_tail bheight eheight beheight in
  let cextail := two_diff_tail pcx pex cex in
  let ceytail := two_diff_tail pcy pey cey in
  let ceztail := two_diff_tail pcz pez cez in
  let ceheighttail := two_diff_tail cheight eheight ceheight in
  let dextail := two_diff_tail pdx pex dex in
  let deytail := two_diff_tail pdy pey dey in
  let deztail := two_diff_tail pdz pez dez in
  let deheighttail := two_diff_tail dheight eheight deheight in
  if feq aextail fzero && feq aeytail fzero && feq aeztail fzero && feq bextail fzero && feq beytail fzero && feq beztail fzero && feq cextail fzero && feq ceytail fzero && feq ceztail fzero && feq dextail fzero && feq deytail fzero && feq deztail fzero && feq aeheighttail fzero && feq beheighttail fzero && feq ceheighttail fzero && feq deheighttail fzero then Some det else
  let errbound := fadd (fmul isp_err_boundc permanent) (fmul result_err_bound (fabs det)) in
  let abeps := fsub (fadd (fmul aex beytail) (fmul bey aextail)) (fadd (fmul aey bextail) (fmul bex aeytail)) in
  let bceps := fsub (fadd (fmul bex ceytail) (fmul cey bextail)) (fadd (fmul bey cextail) (fmul cex beytail)) in
  let cdeps := fsub (fadd (fmul cex deytail) (fmul dey cextail)) (fadd (fmul cey dextail) (fmul dex ceytail)) in
  let daeps := fsub (fadd (fmul dex aeytail) (fmul aey dextail)) (fadd (fmul dey aextail) (fmul aex deytail)) in
  let aceps := fsub (fadd (fmul aex ceytail) (fmul cey aextail)) (fadd (fmul aey cextail) (fmul cex aeytail)) in
  let bdeps := fsub (fadd (fmul bex deytail) (fmul dey bextail)) (fadd (fmul bey dextail) (fmul dex beytail)) in
  let det := fadd det (fadd (fsub (fadd (fmul beheight (fadd (fadd (fadd (fmul cez daeps) (fmul dez aceps)) (fmul aez cdeps)) (fadd (fadd (fmul ceztail (nth 3 da fzero)) (fmul deztail (nth 3 ac fzero))) (fmul aeztail (nth 3 cd fzero))))) (fmul deheight (fadd (fadd (fsub (fmul aez bceps) (fmul bez aceps)) (fmul cez abeps)) (fadd (fsub (fmul aeztail (nth 3 bc fzero)) (fmul beztail (nth 3 ac fzero))) (fmul ceztail (nth 3 ab fzero)))))) (fadd (fmul aeheight (fadd (fadd (fsub (fmul bez cdeps) (fmul cez bdeps)) (fmul dez bceps)) (fadd (fsub (fmul beztail (nth 3 cd fzero)) (fmul ceztail (nth 3 bd fzero))) (fmul deztail (nth 3 bc fzero))))) (fmul ceheight (fadd (fadd (fadd (fmul dez abeps) (fmul aez bdeps)) (fmul bez daeps)) (fadd (fadd (fmul deztail (nth 3 ab fzero)) (fmul aeztail (nth 3 bd fzero))) (fmul beztail (nth 3 da fzero))))))) (fsub (fadd (fmul beheighttail (fadd (fadd (fmul cez (nth 3 da fzero)) (fmul dez (nth 3 ac fzero))) (fmul aez (nth 3 cd fzero)))) (fmul deheighttail (fadd (fsub (fmul aez (nth 3 bc fzero)) (fmul bez (nth 3 ac fzero))) (fmul cez (nth 3 ab fzero))))) (fadd (fmul aeheighttail (fadd (fsub (fmul bez (nth 3 cd fzero)) (fmul cez (nth 3 bd fzero))) (fmul dez (nth 3 bc fzero)))) (fmul ceheighttail (fadd (fadd (fmul dez (nth 3 ab fzero)) (fmul aez (nth 3 bd fzero))) (fmul bez (nth 3 da fzero))))))) in
  if beyond det errbound then Some det else
  orient4d_exact pax pay paz pbx pby pbz pcx pcy pcz pdx pdy pdz pex pey pez aheight bheight cheight dheight eheight.

(** predicates.rs:1562, the constant 1.145750161413163e-13 (the decimal
    literal rounded to nearest even). *)
Definition isp_static : f64 := fl 4538783999459334 (-95).
(** predicates.rs:1491-1600 *)
Definition insphere (pax pay paz pbx pby pbz pcx pcy pcz pdx pdy pdz pex pey pez : f64) : option f64 :=
  let aex := fsub pax pex in
  let bex := fsub pbx pex in
  let cex := fsub pcx pex in
  let dex := fsub pdx pex in
  let aey := fsub pay pey in
  let bey := fsub pby pey in
  let cey := fsub pcy pey in
  let dey := fsub pdy pey in
  let aez := fsub paz pez in
  let bez := fsub pbz pez in
  let cez := fsub pcz pez in
  let dez := fsub pdz pez in
  let aexbey := fmul aex bey in
  let bexaey := fmul bex aey in
  let ab := fsub aexbey bexaey in
  let bexcey := fmul bex cey in
  let cexbey := fmul cex bey in
  let bc := fsub bexcey cexbey in
  let cexdey := fmul cex dey in
  let dexcey := fmul dex cey in
  let cd := fsub cexdey dexcey in
  let dexaey := fmul dex aey in
  let aexdey := fmul aex dey in
  let da := fsub dexaey aexdey in
  let aexcey := fmul aex cey in
  let cexaey := fmul cex aey in
  let ac := fsub aexcey cexaey in
  let bexdey := fmul bex dey in
  let dexbey := fmul dex bey in
  let bd := fsub bexdey dexbey in
  let abc := fadd (fsub (fmul aez bc) (fmul bez ac)) (fmul cez ab) in
  let bcd := fadd (fsub (fmul bez cd) (fmul cez bd)) (fmul dez bc) in
  let cda := fadd (fadd (fmul cez da) (fmul dez ac)) (fmul aez cd) in
  let dab := fadd (fadd (fmul dez ab) (fmul aez bd)) (fmul bez da) in
  let alift := fadd (fadd (fmul aex aex) (fmul aey aey)) (fmul aez aez) in
  let blift := fadd (fadd (fmul bex bex) (fmul bey bey)) (fmul bez bez) in
  let clift := fadd (fadd (fmul cex cex) (fmul cey cey)) (fmul cez cez) in
  let dlift := fadd (fadd (fmul dex dex) (fmul dey dey)) (fmul dez dez) in
  let det := fadd (fsub (fmul dlift abc) (fmul clift dab)) (fsub (fmul blift cda) (fmul alift bcd)) in
  let max_var := fmax (fmax (fmax (fmax (fmax (fmax (fmax (fmax (fmax (fmax (fmax (fabs aex) (fabs bex)) (fabs cex)) (fabs dex)) (fabs aey)) (fabs bey)) (fabs cey)) (fabs dey)) (fabs aez)) (fabs bez)) (fabs cez)) (fabs dez) in
  let epsilon := max_var in
  let epsilon := fmul epsilon epsilon in
  let epsilon := fmul epsilon epsilon in
  let epsilon := fmul epsilon max_var in
  let epsilon := fmul epsilon isp_static in
  if beyond_strict det epsilon then Some det else
  let aezplus := fabs aez in
  let bezplus := fabs bez in
  let cezplus := fabs cez in
  let dezplus := fabs dez in
  let aexbeyplus := fabs aexbey in
  let bexaeyplus := fabs bexaey in
  let bexceyplus := fabs bexcey in
  let cexbeyplus := fabs cexbey in
  let cexdeyplus := fabs cexdey in
  let dexceyplus := fabs dexcey in
  let dexaeyplus := fabs dexaey in
  let aexdeyplus := fabs aexdey in
  let aexceyplus := fabs aexcey in
  let cexaeyplus := fabs cexaey in
  let bexdeyplus := fabs bexdey in
  let dexbeyplus := fabs dexbey in
  let permanent := fadd (fadd (fadd (fmul (fadd (fadd (fmul (fadd cexdeyplus dexceyplus) bezplus) (fmul (fadd dexbeyplus bexdeyplus) cezplus)) (fmul (fadd bexceyplus cexbeyplus) dezplus)) alift) (fmul (fadd (fadd (fmul (fadd dexaeyplus aexdeyplus) cezplus) (fmul (fadd aexceyplus cexaeyplus) dezplus)) (fmul (fadd cexdeyplus dexceyplus) aezplus)) blift)) (fmul (fadd (fadd (fmul (fadd aexbeyplus bexaeyplus) dezplus) (fmul (fadd bexdeyplus dexbeyplus) aezplus)) (fmul (fadd dexaeyplus aexdeyplus) bezplus)) clift)) (fmul (fadd (fadd (fmul (fadd bexceyplus cexbeyplus) aezplus) (fmul (fadd cexaeyplus aexceyplus) bezplus)) (fmul (fadd aexbeyplus bexaeyplus) cezplus)) dlift) in
  insphere_adapt pax pay paz pbx pby pbz pcx pcy pcz pdx pdy pdz pex pey pez permanent.

(** predicates.rs:1934-2031 *)
Definition orient4d (pax pay paz pbx pby pbz pcx pcy pcz pdx pdy pdz pex pey pez aheight bheight cheight dheight eheight : f64) : option f64 :=
  let aex := fsub pax pex in
  let bex := fsub pbx pex in
  let cex := fsub pcx pex in
  let dex := fsub pdx pex in
  let aey := fsub pay pey in
  let bey := fsub pby pey in
  let cey := fsub pcy pey in
  let dey := fsub pdy pey in
  let aez := fsub paz pez in
  let bez := fsub pbz pez in
  let cez := fsub pcz pez in
  let dez := fsub pdz pez in
  let aeheight := fsub aheight eheight in
  let beheight := fsub bheight eheight in
  let ceheight := fsub cheight eheight in
  let deheight := fsub dheight eheight in
  let aexbey := fmul aex bey in
  let bexaey := fmul bex aey in
  let ab := fsub aexbey bexaey in
  let bexcey := fmul bex cey in
  let cexbey := fmul cex bey in
  let bc := fsub bexcey cexbey in
  let cexdey := fmul cex dey in
  let dexcey := fmul dex cey in
  let cd := fsub cexdey dexcey in
  let dexaey := fmul dex aey in
  let aexdey := fmul aex dey in
  let da := fsub dexaey aexdey in
  let aexcey := fmul aex cey in
  let cexaey := fmul cex aey in
  let ac := fsub aexcey cexaey in
  let bexdey := fmul bex dey in
  let dexbey := fmul dex bey in
  let bd := fsub bexdey dexbey in
  let abc := fadd (fsub (fmul aez bc) (fmul bez ac)) (fmul cez ab) in
  let bcd := fadd (fsub (fmul bez cd) (fmul cez bd)) (fmul dez bc) in
  let cda := fadd (fadd (fmul cez da) (fmul dez ac)) (fmul aez cd) in
  let dab := fadd (fadd (fmul dez ab) (fmul aez bd)) (fmul bez da) in
  let det := fadd (fsub (fmul deheight abc) (fmul ceheight dab)) (fsub (fmul beheight cda) (fmul aeheight bcd)) in
  let aezplus := fabs aez in
  let bezplus := fabs bez in
  let cezplus := fabs cez in
  let dezplus := fabs dez in
  let aexbeyplus := fabs aexbey in
  let bexaeyplus := fabs bexaey in
  let bexceyplus := fabs bexcey in
  let cexbeyplus := fabs cexbey in
  let cexdeyplus := fabs cexdey in
  let dexceyplus := fabs dexcey in
  let dexaeyplus := fabs dexaey in
  let aexdeyplus := fabs aexdey in
  let aexceyplus := fabs aexcey in
  let cexaeyplus := fabs cexaey in
  let bexdeyplus := fabs bexdey in
  let dexbeyplus := fabs dexbey in
  let permanent := fadd (fadd (fadd (fmul (fadd (fadd (fmul (fadd cexdeyplus dexceyplus) bezplus) (fmul (fadd dexbeyplus bexdeyplus) cezplus)) (fmul (fadd bexceyplus cexbeyplus) dezplus)) (fabs aeheight)) (fmul (fadd (fadd (fmul (fadd dexaeyplus aexdeyplus) cezplus) (fmul (fadd aexceyplus cexaeyplus) dezplus)) (fmul (fadd cexdeyplus dexceyplus) aezplus)) (fabs beheight))) (fmul (fadd (fadd (fmul (fadd aexbeyplus bexaeyplus) dezplus) (fmul (fadd bexdeyplus dexbeyplus) aezplus)) (fmul (fadd dexaeyplus aexdeyplus) bezplus)) (fabs ceheight))) (fmul (fadd (fadd (fmul (fadd bexceyplus cexbeyplus) aezplus) (fmul (fadd cexaeyplus aexceyplus) bezplus)) (fmul (fadd aexbeyplus bexaeyplus) cezplus)) (fabs deheight)) in
  if beyond_strict det (fmul isp_err_bounda permanent) then Some det else
  orient4d_adapt pax pay paz pbx pby pbz pcx pcy pcz pdx pdy pdz pex pey pez aheight bheight cheight dheight eheight permanent.
