(** Model of the spatial sort of src/triangle/tetrahedron.rs: hilbert_split
    (465-529), hilbert_sort (531-621), brio_multiscale_sort (623-641) and the
    insertion order of tetrahedralize (1103-1139).

    Slices of [indices] are lists; sorting a slice in place returns the list.
    Panics are [None]. *)
From Coq Require Import List Arith Bool ZArith.
From Verif Require Import Lib F64.
Import ListNotations.
Local Open Scope opt_scope.

(** tetrahedron.rs:459-463, followed by the choice of a coordinate. *)
Definition coord (points : list f64) (idx axis : nat) : option f64 :=
  if (3 * idx + 3 <=? length points) && (axis <? 3) then nth_error points (3 * idx + axis) else None.

(** while k < n { if stop(indices[k]) { break; } k += 1; } over the rest of the
    slice: the number of steps. *)
Fixpoint scan (stop : nat -> option bool) (l : list nat) : option nat :=
  match l with
  | [] => Some 0
  | x :: t => b <- stop x ;; if b then Some 0 else r <- scan stop t ;; Some (S r)
  end.
(** slice::swap *)
Definition swap (l : list nat) (i k : nat) : option (list nat) :=
  a <- nth_error l i ;; b <- nth_error l k ;; l' <- set l i b ;; set l' k a.

(** tetrahedron.rs:482-501 and 503-522, with the two tests as arguments.  The
    fuel n + 1 suffices (SpatialSortProofs.split_loop_ok). *)
Fixpoint split_loop (up down : nat -> option bool) (l : list nat) (i j fuel : nat)
    : option (list nat * nat) :=
  match fuel with
  | 0 => None
  | S k =>
    let n := length l in
    di <- scan up (skipn i l) ;;
    let i := i + di in
    dj <- scan down (skipn j (rev l)) ;;
    let j := j + dj in
    if i + j =? n then Some (l, i)
    else if n - 1 <? j then None (* n_points - 1 - j overflows *)
    else l' <- swap l i (n - 1 - j) ;; split_loop up down l' i j k
  end.

Definition half : f64 := fl 1 (-1).
Definition fge (a b : f64) : bool := fle b a.
Definition fgt (a b : f64) : bool := flt b a.

(** tetrahedron.rs:465-529 *)
Definition hilbert_split (points : list f64) (indices : list nat) (gc0 gc1 : nat) (bbox : list f64)
    : option (list nat * nat) :=
  if length indices =? 1 then Some (indices, 0) else
  let axis := Nat.shiftr (Nat.lxor gc0 gc1) 1 in
  lo <- nth_error bbox axis ;;
  hi <- nth_error bbox (axis + 3) ;;
  let split := fmul (fadd lo hi) half in
  let test (f : f64 -> f64 -> bool) (x : nat) := c <- coord points x axis ;; Some (f c split) in
  if Nat.land gc0 (Nat.shiftl 1 axis) =? 0 then
    split_loop (test fge) (test flt) indices 0 0 (S (length indices))
  else
    split_loop (test fle) (test fgt) indices 0 0 (S (length indices)).

(** tetrahedron.rs:353-384: TRANS_GC[e][d][i], of dimensions 8, 3, 8. *)
Definition trans_gc (e d i : nat) : option nat :=
  if (e <? 8) && (d <? 3) && (i <? 8) then
    let gc := Nat.lxor i (Nat.shiftr i 1) in
    let f := Nat.lxor e (Nat.shiftl 1 d) in
    let travel_bit := Nat.lxor e f in
    let k := gc * Nat.shiftl travel_bit 1 in
    let g := Nat.land (Nat.lor k (k / 8)) 7 in
    Some (Nat.lxor g e)
  else None.

(** tetrahedron.rs:386-406: TSB1_MOD3[i]; usize's [!] and [-] on the two's
    complement of unbounded width. *)
Definition tsb1_mod3 (i : nat) : option nat :=
  if i <? 8 then
    if i =? 0 then Some 0 else
    let v := Z.lnot (Z.of_nat i) in
    let v := Z.shiftr (Z.lxor v (v - 1)) 1 in
    let c := if (v =? 0)%Z then 0 else S (Z.to_nat (Z.log2 v)) in
    Some (c mod 3)
  else None.

(** tetrahedron.rs:524-529 without [ratio]. *)
Record sort_option : Type := SortOption { threshold : nat; hilbert_order : nat; hilbert_limit : nat }.

(** tetrahedron.rs:573-597: the orientation of sub-box w. *)
Definition sub_e (e d w : nat) : nat :=
  let k := if w =? 0 then 0 else let k := 2 * ((w - 1) / 2) in Nat.lxor k (Nat.shiftr k 1) in
  let e_w := Nat.lor (Nat.land (Nat.shiftl k (d + 1)) 7) (Nat.land (Nat.shiftr k (3 - d - 1)) 7) in
  Nat.lxor e e_w.
Definition sub_d (d w : nat) : option nat :=
  d_w <- (if w =? 0 then Some 0 else if w mod 2 =? 0 then tsb1_mod3 (w - 1) else tsb1_mod3 w) ;;
  Some ((d + d_w + 1) mod 3).
(** tetrahedron.rs:598-617 *)
Definition sub_axis (bbox : list f64) (g axis : nat) : option (f64 * f64) :=
  lo <- nth_error bbox axis ;;
  hi <- nth_error bbox (axis + 3) ;;
  let mid := fmul (fadd lo hi) half in
  Some (if Nat.land g (Nat.shiftl 1 axis) =? 0 then (lo, mid) else (mid, hi)).
Definition sub_box (bbox : list f64) (e d w : nat) : option (list f64) :=
  g <- trans_gc e d w ;;
  '(x0, x1) <- sub_axis bbox g 0 ;;
  '(y0, y1) <- sub_axis bbox g 1 ;;
  '(z0, z1) <- sub_axis bbox g 2 ;;
  Some [x0; y0; z0; x1; y1; z1].

(** Split a slice between TRANS_GC[e][d][a] and TRANS_GC[e][d][a + 1]. *)
Definition split_at (points : list f64) (bbox : list f64) (e d a : nat) (l : list nat)
    : option (list nat * list nat) :=
  g0 <- trans_gc e d a ;;
  g1 <- trans_gc e d (a + 1) ;;
  '(l', mid) <- hilbert_split points l g0 g1 bbox ;;
  Some (firstn mid l', skipn mid l').

(** tetrahedron.rs:540-563: the eight sub-slices, in order. *)
Definition eighths (points : list f64) (bbox : list f64) (e d : nat) (indices : list nat)
    : option (list (list nat)) :=
  '(lhs, rhs) <- split_at points bbox e d 3 indices ;;
  '(l_left, l_right) <- split_at points bbox e d 1 lhs ;;
  '(ll_left, ll_right) <- split_at points bbox e d 0 l_left ;;
  '(rl_left, rl_right) <- split_at points bbox e d 2 l_right ;;
  '(r_left, r_right) <- split_at points bbox e d 5 rhs ;;
  '(lr_left, lr_right) <- split_at points bbox e d 4 r_left ;;
  '(rr_left, rr_right) <- split_at points bbox e d 6 r_right ;;
  Some [ll_left; ll_right; rl_left; rl_right; lr_left; lr_right; rr_left; rr_right].

(** for w in 0..8: [f w slice] on each sub-slice; the concatenation. *)
Fixpoint each (f : nat -> list nat -> option (list nat)) (w : nat) (arr : list (list nat))
    : option (list nat) :=
  match arr with
  | [] => Some []
  | s :: t => s' <- f w s ;; r <- each f (S w) t ;; Some (s' ++ r)
  end.

(** tetrahedron.rs:531-621.  The fuel is an upper bound of the depth still
    available: hilbert_order - depth. *)
Fixpoint hilbert_sort (o : sort_option) (points : list f64) (indices : list nat) (bbox : list f64)
    (e d depth fuel : nat) : option (list nat) :=
  match fuel with
  | 0 => None
  | S k =>
    arr <- eighths points bbox e d indices ;;
    if (0 <? hilbert_order o) && (depth + 1 =? hilbert_order o) then Some (concat arr) else
    each (fun w s =>
      if hilbert_limit o <? length s then
        di <- sub_d d w ;;
        sbox <- sub_box bbox e d w ;;
        hilbert_sort o points s sbox (sub_e e d w) di (depth + 1) k
      else Some s) 0 arr
  end.

(** tetrahedron.rs:623-641.  [ratio] is 0.125: [(n as f64 * 0.125) as usize] is
    n / 8 below 2^53.  The counter [depth] is not used afterwards.  Fuel: the
    number of points. *)
Fixpoint brio_multiscale_sort (o : sort_option) (points : list f64) (indices : list nat) (bbox : list f64)
    (fuel : nat) : option (list nat) :=
  match fuel with
  | 0 => None
  | S k =>
    if threshold o <=? length indices then
      let mid := length indices / 8 in
      lhs <- brio_multiscale_sort o points (firstn mid indices) bbox k ;;
      rhs <- hilbert_sort o points (skipn mid indices) bbox 0 0 0 (hilbert_order o) ;;
      Some (lhs ++ rhs)
    else hilbert_sort o points indices bbox 0 0 0 (hilbert_order o)
  end.

(** tetrahedron.rs:1122-1127 *)
Definition SORT_OPTION : sort_option := SortOption 64 52 8.

(** tetrahedron.rs:1104-1116: the corners of the bounding box.  min_by keeps the
    first of equal elements, max_by the last; partial_cmp().unwrap() panics on
    NaN. *)
Definition pcmp (a b : f64) : option comparison := Flocq.IEEE754.BinarySingleNaN.Bcompare a b.
Fixpoint min_from (a : f64) (l : list f64) : option f64 :=
  match l with
  | [] => Some a
  | b :: t => c <- pcmp a b ;; min_from (match c with Gt => b | _ => a end) t
  end.
Fixpoint max_from (a : f64) (l : list f64) : option f64 :=
  match l with
  | [] => Some a
  | b :: t => c <- pcmp a b ;; max_from (match c with Gt => a | _ => b end) t
  end.
Definition of_list {A} (f : A -> list A -> option A) (l : list A) : option A :=
  match l with [] => None | a :: t => f a t end.
(** points[k..].iter().step_by(3); slicing beyond the end panics. *)
Fixpoint step3 (l : list f64) (skip : nat) : list f64 :=
  match l with
  | [] => []
  | a :: t => match skip with 0 => a :: step3 t 2 | S k => step3 t k end
  end.
Definition bounding_box (points : list f64) : option (list f64) :=
  if length points <? 2 then None else
  x0 <- of_list min_from (step3 points 0) ;;
  y0 <- of_list min_from (step3 points 1) ;;
  z0 <- of_list min_from (step3 points 2) ;;
  x1 <- of_list max_from (step3 points 0) ;;
  y1 <- of_list max_from (step3 points 1) ;;
  z1 <- of_list max_from (step3 points 2) ;;
  Some [x0; y0; z0; x1; y1; z1].

(** tetrahedron.rs:1103-1139.  [shuffle] is the random permutation. *)
Definition insertion_order (shuffle : list nat -> list nat) (points : list f64) : option (list nat) :=
  bbox <- bounding_box points ;;
  let n := length points / 3 in
  brio_multiscale_sort SORT_OPTION points (shuffle (seq 0 n)) bbox (S n).
