(** The generic straight-line formulas of the indirect predicates, over any
    number type with +, -, * (the trait alias [GenericNum], mod.rs:29-38).
    Each [let] below is one [let] of the Rust code, same names, same operand
    order, so the definitions can be run at f64, intervals, expansions and R
    ([by] is a Coq keyword and is spelt [by_]).
    Paths are relative to /repo/src/predicates. *)
From Coq Require Import List.
Import ListNotations.

(** mod.rs:29-38 [GenericNum]: the three operations the formulas use. *)
Record num_ops (T : Type) : Type := NumOps {
  nadd : T -> T -> T;
  nsub : T -> T -> T;
  nmul : T -> T -> T }.
Arguments NumOps {T}.
Arguments nadd {T}. Arguments nsub {T}. Arguments nmul {T}.

(** generic_point.rs:51-57 [Implicit3DCache]. *)
Record cache (T : Type) : Type := Cache { lx : T; ly : T; lz : T; ld : T }.
Arguments Cache {T}. Arguments lx {T}. Arguments ly {T}.
Arguments lz {T}. Arguments ld {T}.

Section Formulas.
Context {T : Type} (O : num_ops T).
Let add := nadd O.
Let sub := nsub O.
Let mul := nmul O.

(** generic_point.rs:125-196 [lpi_lambda].  The second component is the
    list handed to [abs_max]; the code only builds it when [NEED_MAX] holds. *)
Definition lpi_lambda
    (px py pz qx qy qz rx ry rz sx sy sz tx ty tz : T)
    : cache T * list T :=
  let a11 := sub px qx in
  let a12 := sub py qy in
  let a13 := sub pz qz in
  let a21 := sub sx rx in
  let a22 := sub sy ry in
  let a23 := sub sz rz in
  let a31 := sub tx rx in
  let a32 := sub ty ry in
  let a33 := sub tz rz in
  let tv1 := mul a22 a33 in
  let tv2 := mul a23 a32 in
  let a2233 := sub tv1 tv2 in
  let tv3 := mul a21 a33 in
  let tv4 := mul a23 a31 in
  let a2133 := sub tv3 tv4 in
  let tv5 := mul a21 a32 in
  let tv6 := mul a22 a31 in
  let a2132 := sub tv5 tv6 in
  let tv7 := mul a11 a2233 in
  let tv8 := mul a12 a2133 in
  let tv9 := mul a13 a2132 in
  let tt1 := sub tv7 tv8 in
  let d := add tt1 tv9 in
  let px_rx := sub px rx in
  let py_ry := sub py ry in
  let pz_rz := sub pz rz in
  let tt2 := mul py_ry a2133 in
  let tt3 := mul px_rx a2233 in
  let tt4 := mul pz_rz a2132 in
  let tt5 := add tt3 tt4 in
  let n := sub tt5 tt2 in
  let ax := mul a11 n in
  let ay := mul a12 n in
  let az := mul a13 n in
  let dpx := mul d px in
  let dpy := mul d py in
  let dpz := mul d pz in
  let x := sub dpx ax in
  let y := sub dpy ay in
  let z := sub dpz az in
  (Cache x y z d, [px; py; pz; a11; a12; a13; a21; a22; a23; a31; a32; a33;
  px_rx; py_ry; pz_rz]).

(** generic_point.rs:396-546 [tpi_lambda].  The second component is the
    list handed to [abs_max]; the code only builds it when [NEED_MAX] holds. *)
Definition tpi_lambda
    (ov1x ov1y ov1z ov2x ov2y ov2z ov3x ov3y ov3z ow1x ow1y ow1z ow2x ow2y
    ow2z ow3x ow3y ow3z ou1x ou1y ou1z ou2x ou2y ou2z ou3x ou3y ou3z : T)
    : cache T * list T :=
  let v3x := sub ov3x ov2x in
  let v3y := sub ov3y ov2y in
  let v3z := sub ov3z ov2z in
  let v2x := sub ov2x ov1x in
  let v2y := sub ov2y ov1y in
  let v2z := sub ov2z ov1z in
  let w3x := sub ow3x ow2x in
  let w3y := sub ow3y ow2y in
  let w3z := sub ow3z ow2z in
  let w2x := sub ow2x ow1x in
  let w2y := sub ow2y ow1y in
  let w2z := sub ow2z ow1z in
  let u3x := sub ou3x ou2x in
  let u3y := sub ou3y ou2y in
  let u3z := sub ou3z ou2z in
  let u2x := sub ou2x ou1x in
  let u2y := sub ou2y ou1y in
  let u2z := sub ou2z ou1z in
  let nvx1 := mul v2y v3z in
  let nvx2 := mul v2z v3y in
  let nvx := sub nvx1 nvx2 in
  let nvy1 := mul v3x v2z in
  let nvy2 := mul v3z v2x in
  let nvy := sub nvy1 nvy2 in
  let nvz1 := mul v2x v3y in
  let nvz2 := mul v2y v3x in
  let nvz := sub nvz1 nvz2 in
  let nwx1 := mul w2y w3z in
  let nwx2 := mul w2z w3y in
  let nwx := sub nwx1 nwx2 in
  let nwy1 := mul w3x w2z in
  let nwy2 := mul w3z w2x in
  let nwy := sub nwy1 nwy2 in
  let nwz1 := mul w2x w3y in
  let nwz2 := mul w2y w3x in
  let nwz := sub nwz1 nwz2 in
  let nux1 := mul u2y u3z in
  let nux2 := mul u2z u3y in
  let nux := sub nux1 nux2 in
  let nuy1 := mul u3x u2z in
  let nuy2 := mul u3z u2x in
  let nuy := sub nuy1 nuy2 in
  let nuz1 := mul u2x u3y in
  let nuz2 := mul u2y u3x in
  let nuz := sub nuz1 nuz2 in
  let nwyuz1 := mul nwy nuz in
  let nwyuz2 := mul nwz nuy in
  let nwyuz := sub nwyuz1 nwyuz2 in
  let nwxuz1 := mul nwx nuz in
  let nwxuz2 := mul nwz nux in
  let nwxuz := sub nwxuz1 nwxuz2 in
  let nwxuy1 := mul nwx nuy in
  let nwxuy2 := mul nwy nux in
  let nwxuy := sub nwxuy1 nwxuy2 in
  let nvyuz1 := mul nvy nuz in
  let nvyuz2 := mul nvz nuy in
  let nvyuz := sub nvyuz1 nvyuz2 in
  let nvxuz1 := mul nvx nuz in
  let nvxuz2 := mul nvz nux in
  let nvxuz := sub nvxuz1 nvxuz2 in
  let nvxuy1 := mul nvx nuy in
  let nvxuy2 := mul nvy nux in
  let nvxuy := sub nvxuy1 nvxuy2 in
  let nvywz1 := mul nvy nwz in
  let nvywz2 := mul nvz nwy in
  let nvywz := sub nvywz1 nvywz2 in
  let nvxwz1 := mul nvx nwz in
  let nvxwz2 := mul nvz nwx in
  let nvxwz := sub nvxwz1 nvxwz2 in
  let nvxwy1 := mul nvx nwy in
  let nvxwy2 := mul nvy nwx in
  let nvxwy := sub nvxwy1 nvxwy2 in
  let p1a := mul nvx ov1x in
  let p1b := mul nvy ov1y in
  let p1c := mul nvz ov1z in
  let p1ab := add p1a p1b in
  let p1 := add p1ab p1c in
  let p2a := mul nwx ow1x in
  let p2b := mul nwy ow1y in
  let p2c := mul nwz ow1z in
  let p2ab := add p2a p2b in
  let p2 := add p2ab p2c in
  let p3a := mul nux ou1x in
  let p3b := mul nuy ou1y in
  let p3c := mul nuz ou1z in
  let p3ab := add p3a p3b in
  let p3 := add p3ab p3c in
  let lxa := mul p1 nwyuz in
  let lxb := mul p3 nvywz in
  let lxc := mul p2 nvyuz in
  let lxab := add lxa lxb in
  let x := sub lxab lxc in
  let lya := mul p2 nvxuz in
  let lyb := mul p3 nvxwz in
  let lyc := mul p1 nwxuz in
  let lybc := add lyc lyb in
  let y := sub lya lybc in
  let lza := mul p3 nvxwy in
  let lzb := mul p1 nwxuy in
  let lzc := mul p2 nvxuy in
  let lzab := add lza lzb in
  let z := sub lzab lzc in
  let da := mul nvx nwyuz in
  let db := mul nvz nwxuy in
  let dc := mul nvy nwxuz in
  let dab := add da db in
  let d := sub dab dc in
  (Cache x y z d, [ov1x; ov1y; ov1z; ow1x; ow1y; ow1z; ou1x; ou1y; ou1z;
  v3x; v3y; v3z; v2x; v2y; v2z; w3x; w3y; w3z; w2x; w2y; w2z; u3x; u3y;
  u3z; u2x; u2y; u2z]).

(** orient3d.rs:676-725 [orient3d_ieee_impl].  The second component is the
    list handed to [abs_max]; the code only builds it when [NEED_MAX] holds. *)
Definition orient3d_ieee_impl
    (l1x l1y l1z d1 ax ay az bx by_ bz cx cy cz : T)
    : T * list T :=
  let dcx := mul d1 cx in
  let dcy := mul d1 cy in
  let dcz := mul d1 cz in
  let ix_cx := sub l1x dcx in
  let iy_cy := sub l1y dcy in
  let ax_cx := sub ax cx in
  let ay_cy := sub ay cy in
  let az_cz := sub az cz in
  let iz_cz := sub l1z dcz in
  let bx_cx := sub bx cx in
  let by_cy := sub by_ cy in
  let bz_cz := sub bz cz in
  let tmc_a := mul ix_cx ay_cy in
  let tmc_b := mul iy_cy ax_cx in
  let m01 := sub tmc_a tmc_b in
  let tmi_a := mul ix_cx az_cz in
  let tmi_b := mul iz_cz ax_cx in
  let m02 := sub tmi_a tmi_b in
  let tma_a := mul iy_cy az_cz in
  let tma_b := mul iz_cz ay_cy in
  let m12 := sub tma_a tma_b in
  let mt1 := mul m01 bz_cz in
  let mt2 := mul m02 by_cy in
  let mt3 := mul m12 bx_cx in
  let mtt := sub mt2 mt1 in
  let m012 := sub mtt mt3 in
  (m012, [cx; cy; cz; ax_cx; ay_cy; az_cz; bx_cx; by_cy; bz_cz]).

(** orient3d.rs:810-863 [orient3d_iiee_impl].  The second component is the
    list handed to [abs_max]; the code only builds it when [NEED_MAX] holds. *)
Definition orient3d_iiee_impl
    (l1x l1y l1z d1 l2x l2y l2z d2 p3x p3y p3z p4x p4y p4z : T)
    : T * list T :=
  let d1p4x := mul d1 p4x in
  let d1p4y := mul d1 p4y in
  let d1p4z := mul d1 p4z in
  let d2p4x := mul d2 p4x in
  let d2p4y := mul d2 p4y in
  let d2p4z := mul d2 p4z in
  let p1p4x := sub l1x d1p4x in
  let p1p4y := sub l1y d1p4y in
  let p1p4z := sub l1z d1p4z in
  let p2p4x := sub l2x d2p4x in
  let p2p4y := sub l2y d2p4y in
  let p2p4z := sub l2z d2p4z in
  let p3p4x := sub p3x p4x in
  let p3p4y := sub p3y p4y in
  let p3p4z := sub p3z p4z in
  let tmc_a := mul p1p4x p2p4y in
  let tmc_b := mul p1p4y p2p4x in
  let m01 := sub tmc_a tmc_b in
  let tmi_a := mul p1p4x p2p4z in
  let tmi_b := mul p1p4z p2p4x in
  let m02 := sub tmi_a tmi_b in
  let tma_a := mul p1p4y p2p4z in
  let tma_b := mul p1p4z p2p4y in
  let m12 := sub tma_a tma_b in
  let mt1 := mul m01 p3p4z in
  let mt2 := mul m02 p3p4y in
  let mt3 := mul m12 p3p4x in
  let mtt := sub mt2 mt1 in
  let m012 := sub mtt mt3 in
  (m012, [p4x; p4y; p4z; p3p4x; p3p4y; p3p4z]).

(** orient3d.rs:956-1012 [orient3d_iiie_impl].  The second component is the
    list handed to [abs_max]; the code only builds it when [NEED_MAX] holds. *)
Definition orient3d_iiie_impl
    (l1x l1y l1z d1 l2x l2y l2z d2 l3x l3y l3z d3 p4x p4y p4z : T)
    : T * list T :=
  let d1p4x := mul d1 p4x in
  let d1p4y := mul d1 p4y in
  let d1p4z := mul d1 p4z in
  let d2p4x := mul d2 p4x in
  let d2p4y := mul d2 p4y in
  let d2p4z := mul d2 p4z in
  let d3p4x := mul d3 p4x in
  let d3p4y := mul d3 p4y in
  let d3p4z := mul d3 p4z in
  let p1p4x := sub l1x d1p4x in
  let p1p4y := sub l1y d1p4y in
  let p1p4z := sub l1z d1p4z in
  let p2p4x := sub l2x d2p4x in
  let p2p4y := sub l2y d2p4y in
  let p2p4z := sub l2z d2p4z in
  let p3p4x := sub l3x d3p4x in
  let p3p4y := sub l3y d3p4y in
  let p3p4z := sub l3z d3p4z in
  let tmc_a := mul p1p4x p2p4y in
  let tmc_b := mul p1p4y p2p4x in
  let m01 := sub tmc_a tmc_b in
  let tmi_a := mul p1p4x p2p4z in
  let tmi_b := mul p1p4z p2p4x in
  let m02 := sub tmi_a tmi_b in
  let tma_a := mul p1p4y p2p4z in
  let tma_b := mul p1p4z p2p4y in
  let m12 := sub tma_a tma_b in
  let mt1 := mul m01 p3p4z in
  let mt2 := mul m02 p3p4y in
  let mt3 := mul m12 p3p4x in
  let mtt := sub mt2 mt1 in
  let m012 := sub mtt mt3 in
  (m012, [p4x; p4y; p4z]).

(** orient3d.rs:1123-1182 [orient3d_iiii_impl]. *)
Definition orient3d_iiii_impl
    (l1x l1y l1z d1 l2x l2y l2z d2 l3x l3y l3z d3 l4x l4y l4z d4 : T)
    : T :=
  let d1p4x := mul d1 l4x in
  let d1p4y := mul d1 l4y in
  let d1p4z := mul d1 l4z in
  let d2p4x := mul d2 l4x in
  let d2p4y := mul d2 l4y in
  let d2p4z := mul d2 l4z in
  let d3p4x := mul d3 l4x in
  let d3p4y := mul d3 l4y in
  let d3p4z := mul d3 l4z in
  let d4l1x := mul d4 l1x in
  let d4l1y := mul d4 l1y in
  let d4l1z := mul d4 l1z in
  let d4l2x := mul d4 l2x in
  let d4l2y := mul d4 l2y in
  let d4l2z := mul d4 l2z in
  let d4l3x := mul d4 l3x in
  let d4l3y := mul d4 l3y in
  let d4l3z := mul d4 l3z in
  let p1p4x := sub d4l1x d1p4x in
  let p1p4y := sub d4l1y d1p4y in
  let p1p4z := sub d4l1z d1p4z in
  let p2p4x := sub d4l2x d2p4x in
  let p2p4y := sub d4l2y d2p4y in
  let p2p4z := sub d4l2z d2p4z in
  let p3p4x := sub d4l3x d3p4x in
  let p3p4y := sub d4l3y d3p4y in
  let p3p4z := sub d4l3z d3p4z in
  let tmc_a := mul p1p4x p2p4y in
  let tmc_b := mul p1p4y p2p4x in
  let m01 := sub tmc_a tmc_b in
  let tmi_a := mul p1p4x p2p4z in
  let tmi_b := mul p1p4z p2p4x in
  let m02 := sub tmi_a tmi_b in
  let tma_a := mul p1p4y p2p4z in
  let tma_b := mul p1p4z p2p4y in
  let m12 := sub tma_a tma_b in
  let mt1 := mul m01 p3p4z in
  let mt2 := mul m02 p3p4y in
  let mt3 := mul m12 p3p4x in
  let mtt := sub mt2 mt1 in
  sub mtt mt3.

(** orient2d.rs:524-554 [orient2d_iee_impl].  The second component is the
    list handed to [abs_max]; the code only builds it when [NEED_MAX] holds. *)
Definition orient2d_iee_impl
    (l1x l1y d1 p2x p2y p3x p3y : T)
    : T * list T :=
  let t1x := sub p2y p3y in
  let t1y := sub p3x p2x in
  let e2 := mul l1x t1x in
  let e3 := mul l1y t1y in
  let e := add e2 e3 in
  let pr1 := mul p2x p3y in
  let pr2 := mul p2y p3x in
  let pr := sub pr1 pr2 in
  let dpr := mul d1 pr in
  let det := add dpr e in
  (det, [p2x; p2y; p3x; p3y; t1x; t1y]).

(** orient2d.rs:738-768 [orient2d_iie_impl].  The second component is the
    list handed to [abs_max]; the code only builds it when [NEED_MAX] holds. *)
Definition orient2d_iie_impl
    (l1x l1y d1 l2x l2y d2 op3x op3y : T)
    : T * list T :=
  let a := mul d1 l2x in
  let b := mul d2 l1x in
  let c := mul d1 op3y in
  let e := mul d1 l2y in
  let f := mul d2 l1y in
  let g := mul d1 op3x in
  let ab := sub a b in
  let cd := sub c l1y in
  let ef := sub e f in
  let gh := sub g l1x in
  let abcd := mul ab cd in
  let efgh := mul ef gh in
  let det := sub abcd efgh in
  (det, [op3x; op3y]).

(** orient2d.rs:1000-1027 [orient2d_iii_impl]. *)
Definition orient2d_iii_impl
    (l1x l1y d1 l2x l2y d2 l3x l3y d3 : T)
    : T :=
  let a := mul d1 l2x in
  let b := mul d2 l1x in
  let c := mul d1 l3y in
  let d := mul d3 l1y in
  let e := mul d1 l2y in
  let f := mul d2 l1y in
  let g := mul d1 l3x in
  let h := mul d3 l1x in
  let ab := sub a b in
  let cd := sub c d in
  let ef := sub e f in
  let gh := sub g h in
  let abcd := mul ab cd in
  let efgh := mul ef gh in
  let det := sub abcd efgh in
  det.

(** less_than.rs:308-311 [less_than_ie_impl]. *)
Definition less_than_ie_impl
    (l1x d1 bx : T)
    : T :=
  let dbx := mul bx d1 in
  sub l1x dbx.

(** less_than.rs:394-398 [less_than_ii_impl]. *)
Definition less_than_ii_impl
    (l1x d1 l2x d2 : T)
    : T :=
  let k1 := mul d2 l1x in
  let k2 := mul d1 l2x in
  sub k1 k2.

(** mod.rs:85-122 [max_comp_in_tri_normal_impl].  The second component is the
    list handed to [abs_max]; the code only builds it when [NEED_MAX] holds. *)
Definition max_comp_in_tri_normal_impl
    (ov1x ov1y ov1z ov2x ov2y ov2z ov3x ov3y ov3z : T)
    : (T * T * T) * list T :=
  let v3x := sub ov3x ov2x in
  let v3y := sub ov3y ov2y in
  let v3z := sub ov3z ov2z in
  let v2x := sub ov2x ov1x in
  let v2y := sub ov2y ov1y in
  let v2z := sub ov2z ov1z in
  let nvx1 := mul v2y v3z in
  let nvx2 := mul v2z v3y in
  let nvx := sub nvx1 nvx2 in
  let nvy1 := mul v3x v2z in
  let nvy2 := mul v3z v2x in
  let nvy := sub nvy1 nvy2 in
  let nvz1 := mul v2x v3y in
  let nvz2 := mul v2y v3x in
  let nvz := sub nvz1 nvz2 in
  ((nvx, nvy, nvz), [v3x; v3y; v3z; v2x; v2y; v2z]).

End Formulas.
