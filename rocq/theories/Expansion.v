(** predicates/predicates.rs:20-441 and predicates/expansion_number.rs:
    error-free transformations and expansions of f64.  An expansion is the
    list of its components, least first, as in the code; [None] is a panic.
    Allocators are left out: they do not influence the values.  Paths are
    relative to /repo/src. *)
From Coq Require Import ZArith List Bool.
From Flocq Require Import Core BinarySingleNaN.
From Verif Require Import F64 GenericFormulas Dispatch ExactStage.
Import ListNotations.

Definition f_one : f64 := fl 1 0.
Definition f_half : f64 := fl 1 (-1).
Definition f_two : f64 := fl 2 0.

(** predicates.rs:20-47, the loop of [exact_init]: [(epsilon, splitter)].
    [fuel] bounds the number of rounds; [None] is running out of it, which
    [exact_init_ok] excludes. *)
Fixpoint exact_init_loop (fuel : nat) (every_other : bool) (epsilon splitter check : f64)
    : option (f64 * f64) :=
  match fuel with
  | O => None
  | S fuel =>
    let last_check := check in
    let epsilon := fmul epsilon f_half in
    let splitter := if every_other then fmul splitter f_two else splitter in
    let every_other := negb every_other in
    let check := fadd f_one epsilon in
    if feq check f_one || feq check last_check then Some (epsilon, fadd splitter f_one)
    else exact_init_loop fuel every_other epsilon splitter check
  end.
Definition exact_init : option (f64 * f64) := exact_init_loop 100 true f_one f_one f_one.

(** predicates.rs:78, [B.splitter]; [exact_init_ok] (Prop_Expansion.v) shows
    that it is what [exact_init] computes. *)
Definition splitter : f64 := fl 134217729 0.

(** predicates.rs:81-86 *)
Definition fast_two_sum (a b : f64) : f64 * f64 :=
  let x := fadd a b in
  let bvirt := fsub x a in
  let y := fsub b bvirt in
  (x, y).

(** predicates.rs:89-94 *)
Definition fast_two_diff (a b : f64) : f64 * f64 :=
  let x := fsub a b in
  let bvirt := fsub a x in
  let y := fsub bvirt b in
  (x, y).

(** predicates.rs:97-105 *)
Definition two_sum (a b : f64) : f64 * f64 :=
  let x := fadd a b in
  let bvirt := fsub x a in
  let avirt := fsub x bvirt in
  let bround := fsub b bvirt in
  let around := fsub a avirt in
  let y := fadd around bround in
  (x, y).

(** predicates.rs:108-114 *)
Definition two_diff_tail (a b x : f64) : f64 :=
  let bvirt := fsub a x in
  let avirt := fadd x bvirt in
  let bround := fsub bvirt b in
  let around := fsub a avirt in
  fadd around bround.

(** predicates.rs:117-124 *)
Definition two_diff (a b : f64) : f64 * f64 :=
  let x := fsub a b in
  let bvirt := fsub a x in
  let avirt := fadd x bvirt in
  let bround := fsub bvirt b in
  let around := fsub a avirt in
  (x, fadd around bround).

(** predicates.rs:127-133 *)
Definition split (a : f64) : f64 * f64 :=
  let c := fmul splitter a in
  let abig := fsub c a in
  let ahi := fsub c abig in
  let alo := fsub a ahi in
  (ahi, alo).

(** predicates.rs:169-177 *)
Definition two_product_pre_split (a b bhi blo : f64) : f64 * f64 :=
  let x := fmul a b in
  let (ahi, alo) := split a in
  let err1 := fsub x (fmul ahi bhi) in
  let err2 := fsub err1 (fmul alo bhi) in
  let err3 := fsub err2 (fmul ahi blo) in
  let y := fsub (fmul alo blo) err3 in
  (x, y).

(** predicates.rs:136-145: the same operations in another textual order. *)
Definition two_product (a b : f64) : f64 * f64 :=
  let (ahi, alo) := split a in
  let (bhi, blo) := split b in
  let x := fmul a b in
  let err1 := fsub x (fmul ahi bhi) in
  let err2 := fsub err1 (fmul alo bhi) in
  let err3 := fsub err2 (fmul ahi blo) in
  let y := fsub (fmul alo blo) err3 in
  (x, y).

(** predicates.rs:148-155 *)
Definition square (a : f64) : f64 * f64 :=
  let x := fmul a a in
  let (ahi, alo) := split a in
  let err1 := fsub x (fmul ahi ahi) in
  let err3 := fsub err1 (fmul (fadd ahi ahi) alo) in
  let y := fsub (fmul alo alo) err3 in
  (x, y).

(** predicates.rs:158-166 *)
Definition two_one_product (a1 a0 b : f64) : f64 * f64 * f64 * f64 :=
  let (bhi, blo) := split b in
  let (i, x0) := two_product_pre_split a0 b bhi blo in
  let (j, o) := two_product_pre_split a1 b bhi blo in
  let (k, x1) := two_sum i o in
  let (x3, x2) := fast_two_sum j k in
  (x3, x2, x1, x0).

(** predicates.rs:180-184 *)
Definition two_one_sum (a1 a0 b : f64) : f64 * f64 * f64 :=
  let (i, x0) := two_sum a0 b in
  let (x2, x1) := two_sum a1 i in
  (x2, x1, x0).

(** predicates.rs:187-191 *)
Definition two_two_sum (a1 a0 b1 b0 : f64) : f64 * f64 * f64 * f64 :=
  let '(j, o, x0) := two_one_sum a1 a0 b0 in
  let '(x3, x2, x1) := two_one_sum j o b1 in
  (x3, x2, x1, x0).

(** predicates.rs:194-198 *)
Definition two_one_diff (a1 a0 b : f64) : f64 * f64 * f64 :=
  let (i, x0) := two_diff a0 b in
  let (x2, x1) := two_sum a1 i in
  (x2, x1, x0).

(** predicates.rs:201-205 *)
Definition two_two_diff (a1 a0 b1 b0 : f64) : f64 * f64 * f64 * f64 :=
  let '(j, o, x0) := two_one_diff a1 a0 b0 in
  let '(x3, x2, x1) := two_one_diff j o b1 in
  (x3, x2, x1, x0).

(** The test [h != 0.0]: true of a NaN. *)
Definition nonzero (h : f64) : bool := negb (feq h fzero).
(** [if h != 0.0 { harr.push(h) }] *)
Definition push_nz (harr : list f64) (h : f64) : list f64 :=
  if nonzero h then harr ++ [h] else harr.

(** predicates.rs:208-218; the loop state is [(q, harr)]. *)
Definition grow_expansion (earr : list f64) (b : f64) : list f64 :=
  let '(q, harr) := fold_left (fun '(q, harr) enow =>
    let (qnew, h) := two_sum q enow in (qnew, harr ++ [h])) earr (b, []) in
  harr ++ [q].

(** predicates.rs:221-238 *)
Definition grow_expansion_zeroelim (earr : list f64) (b : f64) : list f64 :=
  let '(q, h) := fold_left (fun '(q, h) enow =>
    let (qnew, r) := two_sum q enow in (qnew, push_nz h r)) earr (b, []) in
  if nonzero q then h ++ [q] else h.

(** predicates.rs:255-259: the inner loop over [h_arr[start..]]. *)
Fixpoint sum_pass (q : f64) (hs : list f64) : f64 * list f64 :=
  match hs with
  | [] => (q, [])
  | h :: hs =>
    let (qnew, enew) := two_sum q h in
    let (q', hs') := sum_pass qnew hs in (q', enew :: hs')
  end.

(** predicates.rs:241-263 as written: the second loop runs over [earr] (not
    [farr]).  [farr[0]] panics when [farr] is empty. *)
Fixpoint expansion_sum_loop (start : nat) (es : list f64) (h_arr : list f64) : list f64 :=
  match es with
  | [] => h_arr
  | e :: es =>
    let (q, hs) := sum_pass e (skipn start h_arr) in
    expansion_sum_loop (S start) es (firstn start h_arr ++ hs ++ [q])
  end.
Definition expansion_sum (earr farr : list f64) : option (list f64) :=
  match farr with
  | [] => None
  | f0 :: _ =>
    let (q, h) := sum_pass f0 earr in
    Some (expansion_sum_loop 1 (skipn 1 earr) (h ++ [q]))
  end.

(** predicates.rs:265-316 ([TwoArr], its iterator): the merge of two lists.
    [take_second first second] is the test that advances the second array. *)
Definition take_second (first second : f64) : bool :=
  Bool.eqb (flt second first) (flt (fneg second) first).
Fixpoint merge (arr1 : list f64) : list f64 -> list f64 :=
  match arr1 with
  | [] => fun arr2 => arr2
  | first :: rest1 =>
    fix merge2 (arr2 : list f64) : list f64 :=
      match arr2 with
      | [] => first :: rest1
      | second :: rest2 =>
        if take_second first second then second :: merge2 rest2
        else first :: merge rest1 arr2
      end
  end.

(** The loop of fast_expansion_sum_zeroelim, predicates.rs:336-342. *)
Definition sum_loop (gs : list f64) (q : f64) (harr : list f64) : f64 * list f64 :=
  fold_left (fun '(q, harr) now =>
    let (qnew, h) := two_sum q now in (qnew, push_nz harr h)) gs (q, harr).
(** [if q != 0.0 || harr.is_empty() { harr.push(q) }; harr] *)
Definition finish (q : f64) (harr : list f64) : list f64 :=
  if nonzero q || match harr with [] => true | _ => false end then harr ++ [q] else harr.

(** predicates.rs:318-350: one component in all gives the empty list. *)
Definition fast_expansion_sum_zeroelim (earr farr : list f64) : option (list f64) :=
  match merge earr farr with
  | [] => None
  | [_] => Some []
  | q :: now :: gs =>
    let (qnew, h) := fast_two_sum now q in
    let '(q, harr) := sum_loop gs qnew (push_nz [] h) in
    Some (finish q harr)
  end.

(** predicates.rs:353-361 *)
Definition fast_expansion_diff_zeroelim (earr farr : list f64) : option (list f64) :=
  fast_expansion_sum_zeroelim earr (map fneg farr).

(** predicates.rs:378-393, one round of the loop of scale_expansion_zeroelim. *)
Definition scale_step (b bhi blo : f64) (st : f64 * list f64) (e : f64) : f64 * list f64 :=
  let '(q, harr) := st in
  let (p1, p0) := two_product_pre_split e b bhi blo in
  let (sum, h) := two_sum q p0 in
  let harr := push_nz harr h in
  let (q, h) := fast_two_sum p1 sum in
  (q, push_nz harr h).

(** predicates.rs:363-400 *)
Definition scale_expansion_zeroelim (earr : list f64) (b : f64) : option (list f64) :=
  let (bhi, blo) := split b in
  match earr with
  | [] => None
  | efirst :: earr =>
    let (q, h) := two_product_pre_split efirst b bhi blo in
    let '(q, harr) := fold_left (scale_step b bhi blo) earr (q, push_nz [] h) in
    Some (finish q harr)
  end.

(** Operations on values that may already have panicked. *)
Definition obind {A B} (a : option A) (f : A -> option B) : option B :=
  match a with Some x => f x | None => None end.

(** predicates.rs:403-412: [reduce] of the scaled copies; [None] on an empty
    [earr] ([unwrap]). *)
Definition mul_expansion_zeroelim_imp (earr farr : list f64) : option (list f64) :=
  match earr with
  | [] => None
  | s :: rest =>
    fold_left (fun acc s => obind acc (fun a => obind (scale_expansion_zeroelim farr s)
                (fun b => fast_expansion_sum_zeroelim a b)))
      rest (scale_expansion_zeroelim farr s)
  end.

(** predicates.rs:415-431 *)
Definition mul_expansion_zeroelim (earr farr : list f64) : option (list f64) :=
  match earr, farr with
  | [e], _ => scale_expansion_zeroelim farr e
  | _, [f] => scale_expansion_zeroelim earr f
  | _, _ => if Nat.ltb (length earr) (length farr)
            then mul_expansion_zeroelim_imp earr farr
            else mul_expansion_zeroelim_imp farr earr
  end.

(** predicates.rs:434-438 [expansion_invert] and expansion_number.rs:55-60 [neg] *)
Definition expansion_invert (arr : list f64) : list f64 := map fneg arr.

(** predicates.rs:441-443; [Sum] for f64 starts from -0.0 since Rust 1.83 and
    from 0.0 before: the two differ at most in the sign of a zero. *)
Definition estimate (arr : list f64) : f64 := fold_left fadd arr fzero.

(** [Vec::last] *)
Fixpoint last_opt (l : list f64) : option f64 :=
  match l with [] => None | [x] => Some x | _ :: l => last_opt l end.

(** expansion_number.rs: an [ExpansionNum]; [None] after a panic. *)
Definition xnum := option (list f64).

(** expansion_number.rs:45-53 *)
Definition x_last (x : xnum) : option f64 := obind x last_opt.
Definition xn_not_zero (x : xnum) : option bool := option_map nonzero (x_last x).
Definition xn_negative (x : xnum) : option bool := option_map (fun v => flt v fzero) (x_last x).

(** expansion_number.rs:62-75 *)
Definition xadd (a b : xnum) : xnum := obind a (fun a => obind b (fun b => fast_expansion_sum_zeroelim a b)).
Definition xsub (a b : xnum) : xnum := obind a (fun a => obind b (fun b => fast_expansion_diff_zeroelim a b)).
Definition xmul (a b : xnum) : xnum := obind a (fun a => obind b (fun b => mul_expansion_zeroelim a b)).
Definition xops : num_ops xnum := NumOps xadd xsub xmul.
(** [vec![x].into()] *)
Definition xof (v : f64) : xnum := Some [v].
Definition xneg (a : xnum) : xnum := option_map (map fneg) a.

(** predicates/mod.rs:51-59 [double_to_sign]. *)
Definition double_to_sign (x : f64) : Orientation :=
  if flt fzero x then Positive else if flt x fzero then Negative else Zero.

(** predicates/mod.rs:77-83 [get_exponent]: the biased exponent field minus
    1023 (a subnormal has field 0, infinities and NaN have field 2047). *)
Definition get_exponent (x : f64) : Z :=
  match x with
  | B754_zero _ => 0
  | B754_finite _ m e _ =>
      if Z.ltb (Zpos m) (2 ^ 52) then -1023 else e + 52
  | _ => 1024
  end.

(** [f64::total_cmp] on two non-negative values: NaN above infinity.  Ties
    and order follow the bit patterns. *)
Definition total_le (a b : f64) : bool :=
  if is_nan b then true else if is_nan a then false else fle a b.

(** generic_point.rs:33-53 [normalize_lambda3d]: [max_by] keeps the last of
    the largest; the scale factor is 2.0^-e. *)
Definition max_est (a b : f64) : f64 := if total_le (fabs a) (fabs b) then b else a.
Definition scale_all (s : f64) (l : list f64) : list f64 := map (fun v => fmul v s) l.
Definition normalize_lambda3d (c : cache xnum) : cache xnum :=
  match lx c, ly c, lz c, ld c with
  | Some x, Some y, Some z, Some d =>
    let max_val := max_est (max_est (max_est (estimate x) (estimate y)) (estimate z)) (estimate d) in
    let e := get_exponent max_val in
    if Z.eqb e 0 then c
    else let s := fl 1 (- e) in
      Cache (Some (scale_all s x)) (Some (scale_all s y)) (Some (scale_all s z)) (Some (scale_all s d))
  | _, _, _, _ => Cache None None None None
  end.
