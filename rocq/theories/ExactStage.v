(** The last (exact) stage of the indirect predicates, generic in the number
    type.  Every kernel of orient3d.rs, orient2d.rs and less_than.rs ends with

      if let Some(e1) = p1.exact(bump) (zipped with the other points) {
          let det = ..._impl(...); return double_to_sign( *det.last().unwrap() );
      }
      Orientation::Undefined

    The type [F] is the type of the input coordinates (f64 in the code), [T]
    the type of exact numbers (ExpansionNum in the code). *)
From Coq Require Import List.
From Verif Require Import GenericFormulas Dispatch.
Import ListNotations.

(** generic_point.rs:10-30 (ExplicitPoint3D): three coordinates. *)
Record pt3 (F : Type) : Type := P3 { p3x : F; p3y : F; p3z : F }.
Arguments P3 {F}. Arguments p3x {F}. Arguments p3y {F}. Arguments p3z {F}.

(** generic_point.rs:98-113 (ImplicitPointLPI): line [p q], plane [r s t];
    the memo fields are left out, they are a function of the others. *)
Record lpi_pt (F : Type) : Type := LP { lp : pt3 F; lq : pt3 F; lr : pt3 F; ls : pt3 F; lt : pt3 F }.
Arguments LP {F}. Arguments lp {F}. Arguments lq {F}. Arguments lr {F}. Arguments ls {F}. Arguments lt {F}.

(** generic_point.rs:347-372 (ImplicitPointTPI): planes [v], [w], [u]. *)
Record tpi_pt (F : Type) : Type := TP {
  tv1 : pt3 F; tv2 : pt3 F; tv3 : pt3 F;
  tw1 : pt3 F; tw2 : pt3 F; tw3 : pt3 F;
  tu1 : pt3 F; tu2 : pt3 F; tu3 : pt3 F }.
Arguments TP {F}. Arguments tv1 {F}. Arguments tv2 {F}. Arguments tv3 {F}.
Arguments tw1 {F}. Arguments tw2 {F}. Arguments tw3 {F}.
Arguments tu1 {F}. Arguments tu2 {F}. Arguments tu3 {F}.

(** What the exact stage needs of a number: ring operations, the conversion of
    a coordinate (vec![x].into()), negation, [negative], [not_zero], the power
    of two scaling [normalize_lambda3d] (generic_point.rs:33-53) and
    [double_to_sign] of the last component ([None] when there is none: the
    [unwrap] panics). *)
Record exact_num (F T : Type) : Type := ExactNum {
  x_ops : num_ops T;
  x_of : F -> T;
  x_neg : T -> T;
  x_negative : T -> bool;
  x_not_zero : T -> bool;
  x_normalize : cache T -> cache T;
  x_sign : T -> res }.
Arguments x_ops {F T}. Arguments x_of {F T}. Arguments x_neg {F T}.
Arguments x_negative {F T}. Arguments x_not_zero {F T}.
Arguments x_normalize {F T}. Arguments x_sign {F T}.

Section Stage.
Context {F T : Type} (X : exact_num F T).
Notation of := (x_of X).

(** generic_point.rs:320-332 and the same lines of the TPI version
    (generic_point.rs:708-720): make the denominator non-negative, normalise,
    and give up when it is zero. *)
Definition exact_cache (c : cache T) : option (cache T) :=
  let c1 := if x_negative X (ld c)
            then Cache (x_neg X (lx c)) (x_neg X (ly c)) (x_neg X (lz c)) (x_neg X (ld c))
            else c in
  let c2 := x_normalize X c1 in
  if x_not_zero X (ld c2) then Some c2 else None.

(** generic_point.rs:297-343 *)
Definition lpi_exact (l : lpi_pt F) : option (cache T) :=
  exact_cache (fst (lpi_lambda (x_ops X)
    (of (p3x (lp l))) (of (p3y (lp l))) (of (p3z (lp l)))
    (of (p3x (lq l))) (of (p3y (lq l))) (of (p3z (lq l)))
    (of (p3x (lr l))) (of (p3y (lr l))) (of (p3z (lr l)))
    (of (p3x (ls l))) (of (p3y (ls l))) (of (p3z (ls l)))
    (of (p3x (lt l))) (of (p3y (lt l))) (of (p3z (lt l))))).

(** generic_point.rs:670-735 *)
Definition tpi_exact (t : tpi_pt F) : option (cache T) :=
  exact_cache (fst (tpi_lambda (x_ops X)
    (of (p3x (tv1 t))) (of (p3y (tv1 t))) (of (p3z (tv1 t)))
    (of (p3x (tv2 t))) (of (p3y (tv2 t))) (of (p3z (tv2 t)))
    (of (p3x (tv3 t))) (of (p3y (tv3 t))) (of (p3z (tv3 t)))
    (of (p3x (tw1 t))) (of (p3y (tw1 t))) (of (p3z (tw1 t)))
    (of (p3x (tw2 t))) (of (p3y (tw2 t))) (of (p3z (tw2 t)))
    (of (p3x (tw3 t))) (of (p3y (tw3 t))) (of (p3z (tw3 t)))
    (of (p3x (tu1 t))) (of (p3y (tu1 t))) (of (p3z (tu1 t)))
    (of (p3x (tu2 t))) (of (p3y (tu2 t))) (of (p3z (tu2 t)))
    (of (p3x (tu3 t))) (of (p3y (tu3 t))) (of (p3z (tu3 t))))).

(** The exact stages on caches; [Undefined] when a point has none. *)
Definition with1 (c1 : option (cache T)) (f : cache T -> T) : res :=
  match c1 with Some c1 => x_sign X (f c1) | None => Some Undefined end.
Definition with2 (c1 c2 : option (cache T)) (f : cache T -> cache T -> T) : res :=
  match c1, c2 with Some c1, Some c2 => x_sign X (f c1 c2) | _, _ => Some Undefined end.
Definition with3 (c1 c2 c3 : option (cache T)) (f : cache T -> cache T -> cache T -> T) : res :=
  match c1, c2, c3 with Some c1, Some c2, Some c3 => x_sign X (f c1 c2 c3) | _, _, _ => Some Undefined end.
Definition with4 (c1 c2 c3 c4 : option (cache T))
    (f : cache T -> cache T -> cache T -> cache T -> T) : res :=
  match c1, c2, c3, c4 with
  | Some c1, Some c2, Some c3, Some c4 => x_sign X (f c1 c2 c3 c4) | _, _, _, _ => Some Undefined end.

(** orient3d.rs, last stage of orient3d_ieee / iiee / iiie / iiii. *)
Definition stage_ieee (c1 : option (cache T)) (a b c : pt3 F) : res :=
  with1 c1 (fun c1 => fst (orient3d_ieee_impl (x_ops X) (lx c1) (ly c1) (lz c1) (ld c1)
    (of (p3x a)) (of (p3y a)) (of (p3z a)) (of (p3x b)) (of (p3y b)) (of (p3z b))
    (of (p3x c)) (of (p3y c)) (of (p3z c)))).
Definition stage_iiee (c1 c2 : option (cache T)) (a b : pt3 F) : res :=
  with2 c1 c2 (fun c1 c2 => fst (orient3d_iiee_impl (x_ops X) (lx c1) (ly c1) (lz c1) (ld c1)
    (lx c2) (ly c2) (lz c2) (ld c2)
    (of (p3x a)) (of (p3y a)) (of (p3z a)) (of (p3x b)) (of (p3y b)) (of (p3z b)))).
Definition stage_iiie (c1 c2 c3 : option (cache T)) (a : pt3 F) : res :=
  with3 c1 c2 c3 (fun c1 c2 c3 => fst (orient3d_iiie_impl (x_ops X) (lx c1) (ly c1) (lz c1) (ld c1)
    (lx c2) (ly c2) (lz c2) (ld c2) (lx c3) (ly c3) (lz c3) (ld c3)
    (of (p3x a)) (of (p3y a)) (of (p3z a)))).
Definition stage_iiii (c1 c2 c3 c4 : option (cache T)) : res :=
  with4 c1 c2 c3 c4 (fun c1 c2 c3 c4 => orient3d_iiii_impl (x_ops X) (lx c1) (ly c1) (lz c1) (ld c1)
    (lx c2) (ly c2) (lz c2) (ld c2) (lx c3) (ly c3) (lz c3) (ld c3)
    (lx c4) (ly c4) (lz c4) (ld c4)).

(** The constant AXIS selects the coordinates: 2 keeps (x,y), 1 keeps (z,x),
    anything else keeps (y,z) (e.g. orient2d.rs:656-690). *)
Definition c_u (axis : nat) (c : cache T) : T := match axis with 2 => lx c | 1 => lz c | _ => ly c end.
Definition c_v (axis : nat) (c : cache T) : T := match axis with 2 => ly c | 1 => lx c | _ => lz c end.
Definition p_u (axis : nat) (p : pt3 F) : F := match axis with 2 => p3x p | 1 => p3z p | _ => p3y p end.
Definition p_v (axis : nat) (p : pt3 F) : F := match axis with 2 => p3y p | 1 => p3x p | _ => p3z p end.

Definition stage_iee (axis : nat) (c1 : option (cache T)) (a b : pt3 F) : res :=
  with1 c1 (fun c1 => fst (orient2d_iee_impl (x_ops X) (c_u axis c1) (c_v axis c1) (ld c1)
    (of (p_u axis a)) (of (p_v axis a)) (of (p_u axis b)) (of (p_v axis b)))).
Definition stage_iie (axis : nat) (c1 c2 : option (cache T)) (a : pt3 F) : res :=
  with2 c1 c2 (fun c1 c2 => fst (orient2d_iie_impl (x_ops X) (c_u axis c1) (c_v axis c1) (ld c1)
    (c_u axis c2) (c_v axis c2) (ld c2) (of (p_u axis a)) (of (p_v axis a)))).
Definition stage_iii (axis : nat) (c1 c2 c3 : option (cache T)) : res :=
  with3 c1 c2 c3 (fun c1 c2 c3 => orient2d_iii_impl (x_ops X) (c_u axis c1) (c_v axis c1) (ld c1)
    (c_u axis c2) (c_v axis c2) (ld c2) (c_u axis c3) (c_v axis c3) (ld c3)).

(** less_than.rs: AXIS 0, 1, 2 select x, y, z (less_than.rs:365-383, 452-477). *)
Definition c_w (axis : nat) (c : cache T) : T := match axis with 0 => lx c | 1 => ly c | _ => lz c end.
Definition p_w (axis : nat) (p : pt3 F) : F := match axis with 0 => p3x p | 1 => p3y p | _ => p3z p end.
Definition stage_ie (axis : nat) (c1 : option (cache T)) (b : pt3 F) : res :=
  with1 c1 (fun c1 => less_than_ie_impl (x_ops X) (c_w axis c1) (ld c1) (of (p_w axis b))).
Definition stage_ii (axis : nat) (c1 c2 : option (cache T)) : res :=
  with2 c1 c2 (fun c1 c2 => less_than_ii_impl (x_ops X) (c_w axis c1) (ld c1) (c_w axis c2) (ld c2)).

(** The kernels consisting of the exact stage only, over a given predicate for
    explicit points (predicates::orient3d, orient2d and the float
    comparison). *)
Definition exact_kernels3 (eeee : pt3 F -> pt3 F -> pt3 F -> pt3 F -> res)
  : kernels3 (pt3 F) (lpi_pt F) (tpi_pt F) := {|
  o3_eeee := eeee;
  o3_leee p a b c := stage_ieee (lpi_exact p) a b c;
  o3_teee p a b c := stage_ieee (tpi_exact p) a b c;
  o3_llee p q a b := stage_iiee (lpi_exact p) (lpi_exact q) a b;
  o3_ltee p q a b := stage_iiee (lpi_exact p) (tpi_exact q) a b;
  o3_ttee p q a b := stage_iiee (tpi_exact p) (tpi_exact q) a b;
  o3_llle p q r a := stage_iiie (lpi_exact p) (lpi_exact q) (lpi_exact r) a;
  o3_llte p q r a := stage_iiie (lpi_exact p) (lpi_exact q) (tpi_exact r) a;
  o3_ltte p q r a := stage_iiie (lpi_exact p) (tpi_exact q) (tpi_exact r) a;
  o3_ttte p q r a := stage_iiie (tpi_exact p) (tpi_exact q) (tpi_exact r) a;
  o3_llll p q r s := stage_iiii (lpi_exact p) (lpi_exact q) (lpi_exact r) (lpi_exact s);
  o3_lllt p q r s := stage_iiii (lpi_exact p) (lpi_exact q) (lpi_exact r) (tpi_exact s);
  o3_lltt p q r s := stage_iiii (lpi_exact p) (lpi_exact q) (tpi_exact r) (tpi_exact s);
  o3_lttt p q r s := stage_iiii (lpi_exact p) (tpi_exact q) (tpi_exact r) (tpi_exact s);
  o3_tttt p q r s := stage_iiii (tpi_exact p) (tpi_exact q) (tpi_exact r) (tpi_exact s) |}.

Definition exact_kernels2 (eee : nat -> pt3 F -> pt3 F -> pt3 F -> res) (axis : nat)
  : kernels2 (pt3 F) (lpi_pt F) (tpi_pt F) := {|
  o2_eee := eee axis;
  o2_lee p a b := stage_iee axis (lpi_exact p) a b;
  o2_tee p a b := stage_iee axis (tpi_exact p) a b;
  o2_lle p q a := stage_iie axis (lpi_exact p) (lpi_exact q) a;
  o2_lte p q a := stage_iie axis (lpi_exact p) (tpi_exact q) a;
  o2_tte p q a := stage_iie axis (tpi_exact p) (tpi_exact q) a;
  o2_lll p q r := stage_iii axis (lpi_exact p) (lpi_exact q) (lpi_exact r);
  o2_llt p q r := stage_iii axis (lpi_exact p) (lpi_exact q) (tpi_exact r);
  o2_ltt p q r := stage_iii axis (lpi_exact p) (tpi_exact q) (tpi_exact r);
  o2_ttt p q r := stage_iii axis (tpi_exact p) (tpi_exact q) (tpi_exact r) |}.

Definition exact_kernels1 (ee : nat -> pt3 F -> pt3 F -> res) (axis : nat)
  : kernels1 (pt3 F) (lpi_pt F) (tpi_pt F) := {|
  lt_ee := ee axis;
  lt_le p b := stage_ie axis (lpi_exact p) b;
  lt_te p b := stage_ie axis (tpi_exact p) b;
  lt_ll p q := stage_ii axis (lpi_exact p) (lpi_exact q);
  lt_lt p q := stage_ii axis (lpi_exact p) (tpi_exact q);
  lt_tt p q := stage_ii axis (tpi_exact p) (tpi_exact q) |}.
End Stage.
