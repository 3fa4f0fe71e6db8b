(** The static (f64) and dynamic (interval) filter stages in front of the
    exact stage of the indirect predicates, and the three stages together.
    Paths are relative to /repo/src/predicates.  The RefCell memo fields are
    left out: each stores the value recomputed here. *)
From Coq Require Import ZArith List Bool.
From Flocq Require Import Core BinarySingleNaN.
From Verif Require Import F64 Interval GenericFormulas Dispatch ExactStage.
Import ListNotations.

Notation point := (pt3 f64).

(** f64 as a [GenericNum]. *)
Definition f64_ops : num_ops f64 := NumOps fadd fsub fmul.

(** mod.rs:41-43 [abs_max]; only called on non-empty lists. *)
Definition abs_max (l : list f64) : f64 :=
  match map fabs l with
  | [] => fzero
  | x :: t => fold_left fmax t x
  end.

(** The closures computing epsilon from max_var: a list of updates
    (epsilon *= epsilon, or epsilon *= max_var), then epsilon * constant. *)
Inductive estep := sq | mv.
Definition eps (ops : list estep) (c m : f64) : f64 :=
  fmul (fold_left (fun e o => match o with sq => fmul e e | mv => fmul e m end) ops m) c.

(** orient3d.rs:284-291: the constant 1.861039534284405e-13 *)
Definition eps_leee : f64 -> f64 := eps [sq; sq; mv; mv] (fl 7372337133387783 (-95)).
(** orient3d.rs:309-316: the constant 3.070283610684406e-12 *)
Definition eps_teee : f64 -> f64 := eps [sq; sq; sq; mv] (fl 3800827013627913 (-90)).
(** orient3d.rs:335-342: the constant 5.12855469897434e-12 *)
Definition eps_llee : f64 -> f64 := eps [sq; sq; sq; mv] (fl 1587210801381379 (-88)).
(** orient3d.rs:359-369: the constant 7.437036403379365e-11 *)
Definition eps_ltee : f64 -> f64 := eps [sq; sq; sq; mv; mv; mv; mv] (fl 5754128210853909 (-86)).
(** orient3d.rs:386-399: the constant 1.036198238324465e-09 *)
Definition eps_ttee : f64 -> f64 := eps [sq; sq; sq; mv; mv; mv; mv; mv; mv; mv] (fl 5010747218198555 (-82)).
(** orient3d.rs:418-428: the constant 1.270161397934349e-10 *)
Definition eps_llle : f64 -> f64 := eps [sq; sq; sq; mv; mv; mv; mv] (fl 4913698908930067 (-85)).
(** orient3d.rs:445-458: the constant 1.7060943907632e-09 *)
Definition eps_llte : f64 -> f64 := eps [sq; sq; sq; mv; mv; mv; mv; mv; mv; mv] (fl 2062541559693323 (-80)).
(** orient3d.rs:475-484: the constant 2.211968919141342e-08 *)
Definition eps_ltte : f64 -> f64 := eps [sq; sq; sq; sq; mv; mv] (fl 6685265846337581 (-78)).
(** orient3d.rs:501-513: the constant 2.808754828720361e-07 *)
Definition eps_ttte : f64 -> f64 := eps [sq; sq; sq; sq; mv; mv; mv; mv; mv] (fl 2652793932349461 (-73)).
(** orient3d.rs:532-544: the constant 1.164303613521164e-07 *)
Definition eps_llll : f64 -> f64 := eps [sq; sq; sq; sq; mv; mv; mv; mv; mv] (fl 8797229376602173 (-76)).
(** orient3d.rs:561-582: the constant 0.0001675978376241023 *)
Definition eps_lllt : f64 -> f64 := eps [sq; sq; sq; sq; mv; mv; mv; mv; mv; mv; mv; mv; mv; mv; mv; mv; mv; mv] (fl 3091634417958945 (-64)).
(** orient3d.rs:599-608: the constant 0.001770733197190587 *)
Definition eps_lltt : f64 -> f64 := eps [sq; sq; sq; sq; sq; mv] (fl 8166065527849057 (-62)).
(** orient3d.rs:626-638: the constant 0.01883943108077826 *)
Definition eps_lttt : f64 -> f64 := eps [sq; sq; sq; sq; sq; mv; mv; mv; mv] (fl 5430096306896967 (-58)).
(** orient3d.rs:656-671: the constant 0.1952243033447331 *)
Definition eps_tttt : f64 -> f64 := eps [sq; sq; sq; sq; sq; mv; mv; mv; mv; mv; mv; mv] (fl 7033696798376037 (-55)).
(** orient2d.rs:706-712: the constant 4.752773695437811e-14 *)
Definition eps_lee : f64 -> f64 := eps [sq; sq; mv] (fl 7531070534713351 (-97)).
(** orient2d.rs:727-733: the constant 9.061883188277186e-13 *)
Definition eps_tee : f64 -> f64 := eps [sq; sq; sq] (fl 8974454424076309 (-93)).
(** orient2d.rs:931-940: the constant 1.699690735379461e-11 *)
Definition eps_lle : f64 -> f64 := eps [sq; sq; sq; mv; mv; mv] (fl 5260288039321617 (-88)).
(** orient2d.rs:956-968: the constant 2.184958117212875e-10 *)
Definition eps_lte : f64 -> f64 := eps [sq; sq; sq; mv; mv; mv; mv; mv; mv] (fl 4226323652280339 (-84)).
(** orient2d.rs:984-995: the constant 3.307187945722514e-08 *)
Definition eps_tte : f64 -> f64 := eps [sq; sq; sq; sq; mv; mv; mv; mv] (fl 4997681122377765 (-77)).
(** orient2d.rs:1201-1213: the constant 1.75634284893534e-10 *)
Definition eps_lll : f64 -> f64 := eps [sq; sq; sq; mv; mv; mv; mv; mv; mv] (fl 1698630574538759 (-83)).
(** orient2d.rs:1229-1237: the constant 2.144556754402072e-09 *)
Definition eps_llt : f64 -> f64 := eps [sq; sq; sq; sq; mv] (fl 1296305016012807 (-79)).
(** orient2d.rs:1253-1264: the constant 2.535681042914479e-08 *)
Definition eps_ltt : f64 -> f64 := eps [sq; sq; sq; sq; mv; mv; mv; mv] (fl 7663625707716661 (-78)).
(** orient2d.rs:1280-1297: the constant 3.103174776697445e-06 *)
Definition eps_ttt : f64 -> f64 := eps [sq; sq; sq; sq; mv; mv; mv; mv; mv; mv; mv; mv; mv; mv] (fl 7327164277981255 (-71)).
(** less_than.rs:206-211: the constant 1.932297637868842e-14 *)
Definition eps_lt_le : f64 -> f64 := eps [sq; sq] (fl 6123695651160069 (-98)).
(** less_than.rs:225-233: the constant 3.980270973924514e-13 *)
Definition eps_lt_te : f64 -> f64 := eps [sq; sq; mv; mv; mv] (fl 7883738889322515 (-94)).
(** less_than.rs:247-255: the constant 2.922887626377607e-13 *)
Definition eps_lt_ll : f64 -> f64 := eps [sq; sq; mv; mv; mv] (fl 5789375396839435 (-94)).
(** less_than.rs:269-277: the constant 4.321380059346694e-12 *)
Definition eps_lt_lt : f64 -> f64 := eps [sq; sq; sq; mv; mv] (fl 5349609400434705 (-90)).
(** less_than.rs:291-302: the constant 5.504141586953918e-11 *)
Definition eps_lt_tt : f64 -> f64 := eps [sq; sq; sq; mv; mv; mv; mv; mv] (fl 1064655820685317 (-84)).

(** * The kernels' formulas applied to caches and points *)
Section Ker.
Context {T : Type} (O : num_ops T) (of : f64 -> T).

Definition lpi_ker (l : lpi_pt f64) : cache T * list T :=
  lpi_lambda O
    (of (p3x (lp l))) (of (p3y (lp l))) (of (p3z (lp l)))
    (of (p3x (lq l))) (of (p3y (lq l))) (of (p3z (lq l)))
    (of (p3x (lr l))) (of (p3y (lr l))) (of (p3z (lr l)))
    (of (p3x (ls l))) (of (p3y (ls l))) (of (p3z (ls l)))
    (of (p3x (lt l))) (of (p3y (lt l))) (of (p3z (lt l))).

Definition tpi_ker (t : tpi_pt f64) : cache T * list T :=
  tpi_lambda O
    (of (p3x (tv1 t))) (of (p3y (tv1 t))) (of (p3z (tv1 t)))
    (of (p3x (tv2 t))) (of (p3y (tv2 t))) (of (p3z (tv2 t)))
    (of (p3x (tv3 t))) (of (p3y (tv3 t))) (of (p3z (tv3 t)))
    (of (p3x (tw1 t))) (of (p3y (tw1 t))) (of (p3z (tw1 t)))
    (of (p3x (tw2 t))) (of (p3y (tw2 t))) (of (p3z (tw2 t)))
    (of (p3x (tw3 t))) (of (p3y (tw3 t))) (of (p3z (tw3 t)))
    (of (p3x (tu1 t))) (of (p3y (tu1 t))) (of (p3z (tu1 t)))
    (of (p3x (tu2 t))) (of (p3y (tu2 t))) (of (p3z (tu2 t)))
    (of (p3x (tu3 t))) (of (p3y (tu3 t))) (of (p3z (tu3 t))).

Definition ker_ieee (c1 : cache T) (a b c : point) : T * list T :=
  orient3d_ieee_impl O (lx c1) (ly c1) (lz c1) (ld c1)
    (of (p3x a)) (of (p3y a)) (of (p3z a)) (of (p3x b)) (of (p3y b)) (of (p3z b))
    (of (p3x c)) (of (p3y c)) (of (p3z c)).
Definition ker_iiee (c1 c2 : cache T) (a b : point) : T * list T :=
  orient3d_iiee_impl O (lx c1) (ly c1) (lz c1) (ld c1) (lx c2) (ly c2) (lz c2) (ld c2)
    (of (p3x a)) (of (p3y a)) (of (p3z a)) (of (p3x b)) (of (p3y b)) (of (p3z b)).
Definition ker_iiie (c1 c2 c3 : cache T) (a : point) : T * list T :=
  orient3d_iiie_impl O (lx c1) (ly c1) (lz c1) (ld c1) (lx c2) (ly c2) (lz c2) (ld c2)
    (lx c3) (ly c3) (lz c3) (ld c3) (of (p3x a)) (of (p3y a)) (of (p3z a)).
Definition ker_iiii (c1 c2 c3 c4 : cache T) : T * list T :=
  (orient3d_iiii_impl O (lx c1) (ly c1) (lz c1) (ld c1) (lx c2) (ly c2) (lz c2) (ld c2)
    (lx c3) (ly c3) (lz c3) (ld c3) (lx c4) (ly c4) (lz c4) (ld c4), []).
Definition ker_iee (axis : nat) (c1 : cache T) (a b : point) : T * list T :=
  orient2d_iee_impl O (c_u axis c1) (c_v axis c1) (ld c1)
    (of (p_u axis a)) (of (p_v axis a)) (of (p_u axis b)) (of (p_v axis b)).
Definition ker_iie (axis : nat) (c1 c2 : cache T) (a : point) : T * list T :=
  orient2d_iie_impl O (c_u axis c1) (c_v axis c1) (ld c1)
    (c_u axis c2) (c_v axis c2) (ld c2) (of (p_u axis a)) (of (p_v axis a)).
Definition ker_iii (axis : nat) (c1 c2 c3 : cache T) : T * list T :=
  (orient2d_iii_impl O (c_u axis c1) (c_v axis c1) (ld c1)
    (c_u axis c2) (c_v axis c2) (ld c2) (c_u axis c3) (c_v axis c3) (ld c3), []).
Definition ker_ie (axis : nat) (c1 : cache T) (b : point) : T * list T :=
  (less_than_ie_impl O (c_w axis c1) (ld c1) (of (p_w axis b)), [of (p_w axis b)]).
Definition ker_ii (axis : nat) (c1 c2 : cache T) : T * list T :=
  (less_than_ii_impl O (c_w axis c1) (ld c1) (c_w axis c2) (ld c2), []).
(** less_than.rs:441-448, the dynamic stage: the second point contributes its
    x whatever the axis. *)
Definition ker_ii_dyn (axis : nat) (c1 c2 : cache T) : T * list T :=
  (less_than_ii_impl O (c_w axis c1) (ld c1) (lx c2) (ld c2), []).
End Ker.

(** * Static stage *)

(** generic_point.rs:219-247 and 582-611: keep the cache when the denominator
    is beyond its error bound, with the denominator made positive. *)
Definition static_cache (ops : list estep) (k : f64) (cl : cache f64 * list f64)
  : option (cache f64 * f64) :=
  let (c, l) := cl in
  let m := abs_max l in
  let e := eps ops k m in
  if flt e (ld c) || flt (ld c) (fneg e) then
    Some (if flt (ld c) fzero
          then Cache (fneg (lx c)) (fneg (ly c)) (fneg (lz c)) (fneg (ld c)) else c, m)
  else None.

(** generic_point.rs:199-250; the constant 4.884981308350689e-15.  The memo
    treats a cached max_var of 0 as "no filter": with max_var = 0 all of p and
    all differences are zero, so is d, and the filter is None as well. *)
Definition lpi_static (l : lpi_pt f64) : option (cache f64 * f64) :=
  static_cache [sq; mv] (fl 11 (-51)) (lpi_ker f64_ops (fun x => x) l).
(** generic_point.rs:549-617; the constant 8.704148513061234e-14 *)
Definition tpi_static (t : tpi_pt f64) : option (cache f64 * f64) :=
  static_cache [sq; sq; mv; mv] (fl 6896136929411077 (-96)) (tpi_ker f64_ops (fun x => x) t).

(** The max_var of a kernel: the kernel's own list and the points' max_vars. *)
Definition max_var (l ms : list f64) : f64 :=
  match l, ms with
  | [], m :: ms => fold_left fmax ms m
  | _, _ => fold_left fmax ms (abs_max l)
  end.

(** e.g. orient3d.rs:754-760: compare with epsilon. *)
Definition decide_static (e : f64 -> f64) (r : f64 * list f64) (ms : list f64) : option Orientation :=
  let (det, l) := r in
  let epsilon := e (max_var l ms) in
  if flt epsilon det then Some Positive
  else if flt det (fneg epsilon) then Some Negative
  else None.

Notation fid := (fun x : f64 => x).
Notation scache := (option (cache f64 * f64)).

Definition st1 (e : f64 -> f64) (s1 : scache) (f : cache f64 -> f64 * list f64) : option Orientation :=
  match s1 with Some (c1, m1) => decide_static e (f c1) [m1] | None => None end.
Definition st2 (e : f64 -> f64) (s1 s2 : scache) (f : cache f64 -> cache f64 -> f64 * list f64) : option Orientation :=
  match s1, s2 with Some (c1, m1), Some (c2, m2) => decide_static e (f c1 c2) [m1; m2] | _, _ => None end.
Definition st3 (e : f64 -> f64) (s1 s2 s3 : scache) (f : cache f64 -> cache f64 -> cache f64 -> f64 * list f64)
  : option Orientation :=
  match s1, s2, s3 with
  | Some (c1, m1), Some (c2, m2), Some (c3, m3) => decide_static e (f c1 c2 c3) [m1; m2; m3]
  | _, _, _ => None end.
Definition st4 (e : f64 -> f64) (s1 s2 s3 s4 : scache)
    (f : cache f64 -> cache f64 -> cache f64 -> cache f64 -> f64 * list f64) : option Orientation :=
  match s1, s2, s3, s4 with
  | Some (c1, m1), Some (c2, m2), Some (c3, m3), Some (c4, m4) => decide_static e (f c1 c2 c3 c4) [m1; m2; m3; m4]
  | _, _, _, _ => None end.

(** * Dynamic stage.  Outer [None]: an interval multiplication panicked. *)

(** f64::into for intervals *)
Definition iof (x : f64) : option ival := Some (iv_of x).

(** generic_point.rs:273-292 and 651-669 *)
Definition dyn_cache (c : cache (option ival)) : option (option (cache (option ival))) :=
  match lx c, ly c, lz c, ld c with
  | Some x, Some y, Some z, Some d =>
      let c1 := if iv_negative d
                then Cache (iv_neg x) (iv_neg y) (iv_neg z) (iv_neg d)
                else Cache x y z d in
      Some (if iv_not_zero (ld c1)
            then Some (Cache (Some (lx c1)) (Some (ly c1)) (Some (lz c1)) (Some (ld c1)))
            else None)
  | _, _, _, _ => None
  end.

Section Dyn.
(** the interval operations: [iv_ops], or a restriction of them *)
Context (O : num_ops (option ival)).
Definition lpi_dyn (l : lpi_pt f64) := dyn_cache (fst (lpi_ker O iof l)).
Definition tpi_dyn (t : tpi_pt f64) := dyn_cache (fst (tpi_ker O iof t)).

Notation dcache := (option (option (cache (option ival)))).

(** e.g. orient3d.rs:779-785 *)
Definition decide_orient (r : option ival * list (option ival)) : option (option Orientation) :=
  match fst r with
  | None => None
  | Some det =>
      Some (if iv_not_zero det then
              if iv_positive det then Some Positive
              else if iv_negative det then Some Negative else None
            else None)
  end.
(** less_than.rs:360-366, 450-456 *)
Definition decide_less (r : option ival * list (option ival)) : option (option Orientation) :=
  match fst r with
  | None => None
  | Some det =>
      Some (if iv_not_zero det then
              if iv_positive det then Some Positive else Some Negative
            else None)
  end.

(** The stage on the points' caches; a missing cache leaves the stage
    undecided.  The zip chains evaluate every filter, so a panic in any of
    them is a panic of the stage. *)
Definition dy1 (dec : option ival * list (option ival) -> option (option Orientation))
    (d1 : dcache) f : option (option Orientation) :=
  match d1 with None => None | Some None => Some None | Some (Some c1) => dec (f c1) end.
Definition dy2 (dec : option ival * list (option ival) -> option (option Orientation)) (d1 d2 : dcache) f : option (option Orientation) :=
  match d1, d2 with
  | Some (Some c1), Some (Some c2) => dec (f c1 c2)
  | Some _, Some _ => Some None
  | _, _ => None end.
(** less_than.rs:438-440 uses [&&]: the second filter is not evaluated when the
    first is missing. *)
Definition dy2_seq (dec : option ival * list (option ival) -> option (option Orientation)) (d1 d2 : dcache) f
  : option (option Orientation) :=
  match d1 with Some None => Some None | _ => dy2 dec d1 d2 f end.
Definition dy3 (dec : option ival * list (option ival) -> option (option Orientation)) (d1 d2 d3 : dcache) f : option (option Orientation) :=
  match d1, d2, d3 with
  | Some (Some c1), Some (Some c2), Some (Some c3) => dec (f c1 c2 c3)
  | Some _, Some _, Some _ => Some None
  | _, _, _ => None end.
Definition dy4 (dec : option ival * list (option ival) -> option (option Orientation)) (d1 d2 d3 d4 : dcache) f : option (option Orientation) :=
  match d1, d2, d3, d4 with
  | Some (Some c1), Some (Some c2), Some (Some c3), Some (Some c4) => dec (f c1 c2 c3 c4)
  | Some _, Some _, Some _, Some _ => Some None
  | _, _, _, _ => None end.
End Dyn.

(** * All three stages *)
Definition stages (st : option Orientation) (dy : option (option Orientation)) (ex : res) : res :=
  match st with
  | Some o => Some o
  | None => match dy with
            | None => None
            | Some (Some o) => Some o
            | Some None => ex
            end
  end.

Section Full.
Context {T : Type} (X : exact_num f64 T).

(** A point with the three functions of trait ImplicitPoint3D. *)
Record ipoint : Type := IP {
  ip_static : scache; ip_dyn : option (option (cache (option ival))); ip_exact : option (cache T) }.
Definition ip_l (p : lpi_pt f64) : ipoint := IP (lpi_static p) (lpi_dyn iv_ops p) (lpi_exact X p).
Definition ip_t (p : tpi_pt f64) : ipoint := IP (tpi_static p) (tpi_dyn iv_ops p) (tpi_exact X p).

(** orient3d.rs:727-815 *)
Definition full_ieee e (p : ipoint) (a b c : point) : res :=
  stages (st1 e (ip_static p) (fun c1 => ker_ieee f64_ops fid c1 a b c))
         (dy1 decide_orient (ip_dyn p) (fun c1 => ker_ieee iv_ops iof c1 a b c))
         (stage_ieee X (ip_exact p) a b c).
(** orient3d.rs:868-955 *)
Definition full_iiee e (p q : ipoint) (a b : point) : res :=
  stages (st2 e (ip_static p) (ip_static q) (fun c1 c2 => ker_iiee f64_ops fid c1 c2 a b))
         (dy2 decide_orient (ip_dyn p) (ip_dyn q) (fun c1 c2 => ker_iiee iv_ops iof c1 c2 a b))
         (stage_iiee X (ip_exact p) (ip_exact q) a b).
(** orient3d.rs:1014-1125 *)
Definition full_iiie e (p q r : ipoint) (a : point) : res :=
  stages (st3 e (ip_static p) (ip_static q) (ip_static r) (fun c1 c2 c3 => ker_iiie f64_ops fid c1 c2 c3 a))
         (dy3 decide_orient (ip_dyn p) (ip_dyn q) (ip_dyn r) (fun c1 c2 c3 => ker_iiie iv_ops iof c1 c2 c3 a))
         (stage_iiie X (ip_exact p) (ip_exact q) (ip_exact r) a).
(** orient3d.rs:1184-1297 *)
Definition full_iiii e (p q r s : ipoint) : res :=
  stages (st4 e (ip_static p) (ip_static q) (ip_static r) (ip_static s) (fun c1 c2 c3 c4 => ker_iiii f64_ops c1 c2 c3 c4))
         (dy4 decide_orient (ip_dyn p) (ip_dyn q) (ip_dyn r) (ip_dyn s) (fun c1 c2 c3 c4 => ker_iiii iv_ops c1 c2 c3 c4))
         (stage_iiii X (ip_exact p) (ip_exact q) (ip_exact r) (ip_exact s)).
(** orient2d.rs:555-694 *)
Definition full_iee e axis (p : ipoint) (a b : point) : res :=
  stages (st1 e (ip_static p) (fun c1 => ker_iee f64_ops fid axis c1 a b))
         (dy1 decide_orient (ip_dyn p) (fun c1 => ker_iee iv_ops iof axis c1 a b))
         (stage_iee X axis (ip_exact p) a b).
(** orient2d.rs:770-919 *)
Definition full_iie e axis (p q : ipoint) (a : point) : res :=
  stages (st2 e (ip_static p) (ip_static q) (fun c1 c2 => ker_iie f64_ops fid axis c1 c2 a))
         (dy2 decide_orient (ip_dyn p) (ip_dyn q) (fun c1 c2 => ker_iie iv_ops iof axis c1 c2 a))
         (stage_iie X axis (ip_exact p) (ip_exact q) a).
(** orient2d.rs:1029-1189 *)
Definition full_iii e axis (p q r : ipoint) : res :=
  stages (st3 e (ip_static p) (ip_static q) (ip_static r) (fun c1 c2 c3 => ker_iii f64_ops axis c1 c2 c3))
         (dy3 decide_orient (ip_dyn p) (ip_dyn q) (ip_dyn r) (fun c1 c2 c3 => ker_iii iv_ops axis c1 c2 c3))
         (stage_iii X axis (ip_exact p) (ip_exact q) (ip_exact r)).
(** less_than.rs:313-392 *)
Definition full_ie e axis (p : ipoint) (b : point) : res :=
  stages (st1 e (ip_static p) (fun c1 => ker_ie f64_ops fid axis c1 b))
         (dy1 decide_less (ip_dyn p) (fun c1 => ker_ie iv_ops iof axis c1 b))
         (stage_ie X axis (ip_exact p) b).
(** less_than.rs:400-479 *)
Definition full_ii e axis (p q : ipoint) : res :=
  stages (st2 e (ip_static p) (ip_static q) (fun c1 c2 => ker_ii f64_ops axis c1 c2))
         (dy2_seq decide_less (ip_dyn p) (ip_dyn q) (fun c1 c2 => ker_ii_dyn iv_ops axis c1 c2))
         (stage_ii X axis (ip_exact p) (ip_exact q)).

(** orient3d.rs:270-667: the wrappers passing the epsilon closures. *)
Definition full_kernels3 (eeee : point -> point -> point -> point -> res)
  : kernels3 point (lpi_pt f64) (tpi_pt f64) := {|
  o3_eeee := eeee;
  o3_leee p a b c := full_ieee eps_leee (ip_l p) a b c;
  o3_teee p a b c := full_ieee eps_teee (ip_t p) a b c;
  o3_llee p q a b := full_iiee eps_llee (ip_l p) (ip_l q) a b;
  o3_ltee p q a b := full_iiee eps_ltee (ip_l p) (ip_t q) a b;
  o3_ttee p q a b := full_iiee eps_ttee (ip_t p) (ip_t q) a b;
  o3_llle p q r a := full_iiie eps_llle (ip_l p) (ip_l q) (ip_l r) a;
  o3_llte p q r a := full_iiie eps_llte (ip_l p) (ip_l q) (ip_t r) a;
  o3_ltte p q r a := full_iiie eps_ltte (ip_l p) (ip_t q) (ip_t r) a;
  o3_ttte p q r a := full_iiie eps_ttte (ip_t p) (ip_t q) (ip_t r) a;
  o3_llll p q r s := full_iiii eps_llll (ip_l p) (ip_l q) (ip_l r) (ip_l s);
  o3_lllt p q r s := full_iiii eps_lllt (ip_l p) (ip_l q) (ip_l r) (ip_t s);
  o3_lltt p q r s := full_iiii eps_lltt (ip_l p) (ip_l q) (ip_t r) (ip_t s);
  o3_lttt p q r s := full_iiii eps_lttt (ip_l p) (ip_t q) (ip_t r) (ip_t s);
  o3_tttt p q r s := full_iiii eps_tttt (ip_t p) (ip_t q) (ip_t r) (ip_t s) |}.

(** orient2d.rs:696-736, 921-998, 1191-1300 *)
Definition full_kernels2 (eee : nat -> point -> point -> point -> res) (axis : nat)
  : kernels2 point (lpi_pt f64) (tpi_pt f64) := {|
  o2_eee := eee axis;
  o2_lee p a b := full_iee eps_lee axis (ip_l p) a b;
  o2_tee p a b := full_iee eps_tee axis (ip_t p) a b;
  o2_lle p q a := full_iie eps_lle axis (ip_l p) (ip_l q) a;
  o2_lte p q a := full_iie eps_lte axis (ip_l p) (ip_t q) a;
  o2_tte p q a := full_iie eps_tte axis (ip_t p) (ip_t q) a;
  o2_lll p q r := full_iii eps_lll axis (ip_l p) (ip_l q) (ip_l r);
  o2_llt p q r := full_iii eps_llt axis (ip_l p) (ip_l q) (ip_t r);
  o2_ltt p q r := full_iii eps_ltt axis (ip_l p) (ip_t q) (ip_t r);
  o2_ttt p q r := full_iii eps_ttt axis (ip_t p) (ip_t q) (ip_t r) |}.

(** less_than.rs:195-305 *)
Definition full_kernels1 (ee : nat -> point -> point -> res) (axis : nat)
  : kernels1 point (lpi_pt f64) (tpi_pt f64) := {|
  lt_ee := ee axis;
  lt_le p b := full_ie eps_lt_le axis (ip_l p) b;
  lt_te p b := full_ie eps_lt_te axis (ip_t p) b;
  lt_ll p q := full_ii eps_lt_ll axis (ip_l p) (ip_l q);
  lt_lt p q := full_ii eps_lt_lt axis (ip_l p) (ip_t q);
  lt_tt p q := full_ii eps_lt_tt axis (ip_t p) (ip_t q) |}.
End Full.
