(** Dispatch of the indirect predicates on the kinds of their arguments.
    Paths are relative to /repo/src/predicates.  The bump-allocator argument
    is dropped.  The kernels (one per combination of kinds that has its own
    function) are fields of a record, so that the dispatch can be studied
    apart from the filters; a kernel returns [None] when the code panics. *)
From Coq Require Import List.
From Verif Require Import Lib.
Import ListNotations.
Local Open Scope opt_scope.

(** mod.rs:21-27 [Orientation]. *)
Inductive Orientation : Type := Positive | Negative | Zero | Undefined.

(** mod.rs:64-70 [sign_reverse]. *)
Definition sign_reverse (o : Orientation) : Orientation :=
  match o with
  | Positive => Negative
  | Negative => Positive
  | o => o
  end.

(** mod.rs:73-76 [sign_reversed]. *)
Definition sign_reversed (o1 o2 : Orientation) : bool :=
  match o1, o2 with
  | Positive, Negative => true
  | Negative, Positive => true
  | _, _ => false
  end.

(** generic_point.rs:738-743 [Point3D]. *)
Inductive point3d (E L T : Type) : Type :=
| Explicit (p : E)
| LPI (p : L)
| TPI (p : T).
Arguments Explicit {E L T}. Arguments LPI {E L T}. Arguments TPI {E L T}.

(** A predicate result: [None] is a panic. *)
Notation res := (option Orientation).

(** The kernels called by [orient3d]; [o3_eeee] stands for
    [double_to_sign(-predicates::orient3d(..))], orient3d.rs:25. *)
Record kernels3 (E L T : Type) : Type := {
  o3_eeee : E -> E -> E -> E -> res;
  o3_leee : L -> E -> E -> E -> res;
  o3_teee : T -> E -> E -> E -> res;
  o3_llee : L -> L -> E -> E -> res;
  o3_ltee : L -> T -> E -> E -> res;
  o3_ttee : T -> T -> E -> E -> res;
  o3_llle : L -> L -> L -> E -> res;
  o3_llte : L -> L -> T -> E -> res;
  o3_ltte : L -> T -> T -> E -> res;
  o3_ttte : T -> T -> T -> E -> res;
  o3_llll : L -> L -> L -> L -> res;
  o3_lllt : L -> L -> L -> T -> res;
  o3_lltt : L -> L -> T -> T -> res;
  o3_lttt : L -> T -> T -> T -> res;
  o3_tttt : T -> T -> T -> T -> res }.
Arguments o3_eeee {E L T}.
Arguments o3_leee {E L T}.
Arguments o3_teee {E L T}.
Arguments o3_llee {E L T}.
Arguments o3_ltee {E L T}.
Arguments o3_ttee {E L T}.
Arguments o3_llle {E L T}.
Arguments o3_llte {E L T}.
Arguments o3_ltte {E L T}.
Arguments o3_ttte {E L T}.
Arguments o3_llll {E L T}.
Arguments o3_lllt {E L T}.
Arguments o3_lltt {E L T}.
Arguments o3_lttt {E L T}.
Arguments o3_tttt {E L T}.

(** orient3d.rs:13-268 [orient3d]. *)
Definition orient3d {E L T} (k : kernels3 E L T) (pa pb pc pd : point3d E L T) : res :=
  match pa, pb, pc, pd with
  | Explicit pa, Explicit pb, Explicit pc, Explicit pd => o3_eeee k pa pb pc pd
  | Explicit pa, Explicit pb, Explicit pc, LPI pd => o3_leee k pd pa pc pb
  | Explicit pa, Explicit pb, Explicit pc, TPI pd => o3_teee k pd pa pc pb
  | Explicit pa, Explicit pb, LPI pc, Explicit pd => o3_leee k pc pd pa pb
  | Explicit pa, Explicit pb, LPI pc, LPI pd => o3_llee k pc pd pa pb
  | Explicit pa, Explicit pb, LPI pc, TPI pd => o3_ltee k pc pd pa pb
  | Explicit pa, Explicit pb, TPI pc, Explicit pd => o3_teee k pc pd pa pb
  | Explicit pa, Explicit pb, TPI pc, LPI pd => o3_ltee k pd pc pb pa
  | Explicit pa, Explicit pb, TPI pc, TPI pd => o3_ttee k pc pd pa pb
  | Explicit pa, LPI pb, Explicit pc, Explicit pd => o3_leee k pb pc pa pd
  | Explicit pa, LPI pb, Explicit pc, LPI pd => o3_llee k pb pd pc pa
  | Explicit pa, LPI pb, Explicit pc, TPI pd => o3_ltee k pb pd pc pa
  | Explicit pa, LPI pb, LPI pc, Explicit pd => o3_llee k pb pc pa pd
  | Explicit pa, LPI pb, LPI pc, LPI pd => o3_llle k pb pd pc pa
  | Explicit pa, LPI pb, LPI pc, TPI pd => o3_llte k pc pb pd pa
  | Explicit pa, LPI pb, TPI pc, Explicit pd => o3_ltee k pb pc pa pd
  | Explicit pa, LPI pb, TPI pc, LPI pd => o3_llte k pb pd pc pa
  | Explicit pa, LPI pb, TPI pc, TPI pd => o3_ltte k pb pd pc pa
  | Explicit pa, TPI pb, Explicit pc, Explicit pd => o3_teee k pb pc pa pd
  | Explicit pa, TPI pb, Explicit pc, LPI pd => o3_ltee k pd pb pa pc
  | Explicit pa, TPI pb, Explicit pc, TPI pd => o3_ttee k pd pb pa pc
  | Explicit pa, TPI pb, LPI pc, Explicit pd => o3_ltee k pc pb pd pa
  | Explicit pa, TPI pb, LPI pc, LPI pd => o3_llte k pd pc pb pa
  | Explicit pa, TPI pb, LPI pc, TPI pd => o3_ltte k pc pb pd pa
  | Explicit pa, TPI pb, TPI pc, Explicit pd => o3_ttee k pb pc pa pd
  | Explicit pa, TPI pb, TPI pc, LPI pd => o3_ltte k pd pc pb pa
  | Explicit pa, TPI pb, TPI pc, TPI pd => o3_ttte k pd pc pb pa
  | LPI pa, Explicit pb, Explicit pc, Explicit pd => o3_leee k pa pb pc pd
  | LPI pa, Explicit pb, Explicit pc, LPI pd => o3_llee k pd pa pc pb
  | LPI pa, Explicit pb, Explicit pc, TPI pd => o3_ltee k pa pd pb pc
  | LPI pa, Explicit pb, LPI pc, Explicit pd => o3_llee k pa pc pd pb
  | LPI pa, Explicit pb, LPI pc, LPI pd => o3_llle k pa pc pd pb
  | LPI pa, Explicit pb, LPI pc, TPI pd => o3_llte k pa pc pd pb
  | LPI pa, Explicit pb, TPI pc, Explicit pd => o3_ltee k pa pc pd pb
  | LPI pa, Explicit pb, TPI pc, LPI pd => o3_llte k pd pa pc pb
  | LPI pa, Explicit pb, TPI pc, TPI pd => o3_ltte k pa pc pd pb
  | LPI pa, LPI pb, Explicit pc, Explicit pd => o3_llee k pa pb pc pd
  | LPI pa, LPI pb, Explicit pc, LPI pd => o3_llle k pa pd pb pc
  | LPI pa, LPI pb, Explicit pc, TPI pd => o3_llte k pb pa pd pc
  | LPI pa, LPI pb, LPI pc, Explicit pd => o3_llle k pa pb pc pd
  | LPI pa, LPI pb, LPI pc, LPI pd => o3_llll k pa pb pc pd
  | LPI pa, LPI pb, LPI pc, TPI pd => o3_lllt k pa pb pc pd
  | LPI pa, LPI pb, TPI pc, Explicit pd => o3_llte k pa pb pc pd
  | LPI pa, LPI pb, TPI pc, LPI pd => o3_lllt k pb pa pd pc
  | LPI pa, LPI pb, TPI pc, TPI pd => o3_lltt k pa pb pc pd
  | LPI pa, TPI pb, Explicit pc, Explicit pd => o3_ltee k pa pb pc pd
  | LPI pa, TPI pb, Explicit pc, LPI pd => o3_llte k pa pd pb pc
  | LPI pa, TPI pb, Explicit pc, TPI pd => o3_ltte k pa pd pb pc
  | LPI pa, TPI pb, LPI pc, Explicit pd => o3_llte k pc pa pb pd
  | LPI pa, TPI pb, LPI pc, LPI pd => o3_lllt k pc pd pa pb
  | LPI pa, TPI pb, LPI pc, TPI pd => o3_lltt k pc pa pb pd
  | LPI pa, TPI pb, TPI pc, Explicit pd => o3_ltte k pa pb pc pd
  | LPI pa, TPI pb, TPI pc, LPI pd => o3_lltt k pa pd pb pc
  | LPI pa, TPI pb, TPI pc, TPI pd => o3_lttt k pa pb pc pd
  | TPI pa, Explicit pb, Explicit pc, Explicit pd => o3_teee k pa pb pc pd
  | TPI pa, Explicit pb, Explicit pc, LPI pd => o3_ltee k pd pa pc pb
  | TPI pa, Explicit pb, Explicit pc, TPI pd => o3_ttee k pd pa pc pb
  | TPI pa, Explicit pb, LPI pc, Explicit pd => o3_ltee k pc pa pb pd
  | TPI pa, Explicit pb, LPI pc, LPI pd => o3_llte k pc pd pa pb
  | TPI pa, Explicit pb, LPI pc, TPI pd => o3_ltte k pc pd pa pb
  | TPI pa, Explicit pb, TPI pc, Explicit pd => o3_ttee k pc pa pb pd
  | TPI pa, Explicit pb, TPI pc, LPI pd => o3_ltte k pd pa pc pb
  | TPI pa, Explicit pb, TPI pc, TPI pd => o3_ttte k pd pa pc pb
  | TPI pa, LPI pb, Explicit pc, Explicit pd => o3_ltee k pb pa pd pc
  | TPI pa, LPI pb, Explicit pc, LPI pd => o3_llte k pd pb pa pc
  | TPI pa, LPI pb, Explicit pc, TPI pd => o3_ltte k pb pa pd pc
  | TPI pa, LPI pb, LPI pc, Explicit pd => o3_llte k pb pc pa pd
  | TPI pa, LPI pb, LPI pc, LPI pd => o3_lllt k pd pc pb pa
  | TPI pa, LPI pb, LPI pc, TPI pd => o3_lltt k pb pc pa pd
  | TPI pa, LPI pb, TPI pc, Explicit pd => o3_ltte k pb pc pa pd
  | TPI pa, LPI pb, TPI pc, LPI pd => o3_lltt k pb pd pc pa
  | TPI pa, LPI pb, TPI pc, TPI pd => o3_lttt k pb pa pd pc
  | TPI pa, TPI pb, Explicit pc, Explicit pd => o3_ttee k pb pa pd pc
  | TPI pa, TPI pb, Explicit pc, LPI pd => o3_ltte k pd pb pa pc
  | TPI pa, TPI pb, Explicit pc, TPI pd => o3_ttte k pd pb pa pc
  | TPI pa, TPI pb, LPI pc, Explicit pd => o3_ltte k pc pa pb pd
  | TPI pa, TPI pb, LPI pc, LPI pd => o3_lltt k pc pd pa pb
  | TPI pa, TPI pb, LPI pc, TPI pd => o3_lttt k pc pd pa pb
  | TPI pa, TPI pb, TPI pc, Explicit pd => o3_ttte k pc pa pb pd
  | TPI pa, TPI pb, TPI pc, LPI pd => o3_lttt k pd pc pb pa
  | TPI pa, TPI pb, TPI pc, TPI pd => o3_tttt k pa pb pc pd
  end.

(** The kernels of the planar predicate for one axis; [o2_eee] stands for
    [double_to_sign(predicates::orient2d(..))] on the two remaining
    coordinates. *)
Record kernels2 (E L T : Type) : Type := {
  o2_eee : E -> E -> E -> res;
  o2_lee : L -> E -> E -> res;
  o2_tee : T -> E -> E -> res;
  o2_lle : L -> L -> E -> res;
  o2_lte : L -> T -> E -> res;
  o2_tte : T -> T -> E -> res;
  o2_lll : L -> L -> L -> res;
  o2_llt : L -> L -> T -> res;
  o2_ltt : L -> T -> T -> res;
  o2_ttt : T -> T -> T -> res }.
Arguments o2_eee {E L T}.
Arguments o2_lee {E L T}.
Arguments o2_tee {E L T}.
Arguments o2_lle {E L T}.
Arguments o2_lte {E L T}.
Arguments o2_tte {E L T}.
Arguments o2_lll {E L T}.
Arguments o2_llt {E L T}.
Arguments o2_ltt {E L T}.
Arguments o2_ttt {E L T}.

(** The wrappers orient2d.rs:262-522 fix the axis constant: 2 for xy, 1 for
    zx, 0 for yz.  The kernels are indexed by that constant. *)
Definition orient2d_lee_xy {E L T} (k : nat -> kernels2 E L T) := o2_lee (k 2).
Definition orient2d_tee_xy {E L T} (k : nat -> kernels2 E L T) := o2_tee (k 2).
Definition orient2d_lle_xy {E L T} (k : nat -> kernels2 E L T) := o2_lle (k 2).
Definition orient2d_lte_xy {E L T} (k : nat -> kernels2 E L T) := o2_lte (k 2).
Definition orient2d_tte_xy {E L T} (k : nat -> kernels2 E L T) := o2_tte (k 2).
Definition orient2d_lll_xy {E L T} (k : nat -> kernels2 E L T) := o2_lll (k 2).
Definition orient2d_llt_xy {E L T} (k : nat -> kernels2 E L T) := o2_llt (k 2).
Definition orient2d_ltt_xy {E L T} (k : nat -> kernels2 E L T) := o2_ltt (k 2).
Definition orient2d_ttt_xy {E L T} (k : nat -> kernels2 E L T) := o2_ttt (k 2).
Definition orient2d_lee_zx {E L T} (k : nat -> kernels2 E L T) := o2_lee (k 1).
Definition orient2d_tee_zx {E L T} (k : nat -> kernels2 E L T) := o2_tee (k 1).
Definition orient2d_lle_zx {E L T} (k : nat -> kernels2 E L T) := o2_lle (k 1).
Definition orient2d_lte_zx {E L T} (k : nat -> kernels2 E L T) := o2_lte (k 1).
Definition orient2d_tte_zx {E L T} (k : nat -> kernels2 E L T) := o2_tte (k 1).
Definition orient2d_lll_zx {E L T} (k : nat -> kernels2 E L T) := o2_lll (k 1).
Definition orient2d_llt_zx {E L T} (k : nat -> kernels2 E L T) := o2_llt (k 1).
Definition orient2d_ltt_zx {E L T} (k : nat -> kernels2 E L T) := o2_ltt (k 1).
Definition orient2d_ttt_zx {E L T} (k : nat -> kernels2 E L T) := o2_ttt (k 1).
Definition orient2d_lee_yz {E L T} (k : nat -> kernels2 E L T) := o2_lee (k 0).
Definition orient2d_tee_yz {E L T} (k : nat -> kernels2 E L T) := o2_tee (k 0).
Definition orient2d_lle_yz {E L T} (k : nat -> kernels2 E L T) := o2_lle (k 0).
Definition orient2d_lte_yz {E L T} (k : nat -> kernels2 E L T) := o2_lte (k 0).
Definition orient2d_tte_yz {E L T} (k : nat -> kernels2 E L T) := o2_tte (k 0).
Definition orient2d_lll_yz {E L T} (k : nat -> kernels2 E L T) := o2_lll (k 0).
Definition orient2d_llt_yz {E L T} (k : nat -> kernels2 E L T) := o2_llt (k 0).
Definition orient2d_ltt_yz {E L T} (k : nat -> kernels2 E L T) := o2_ltt (k 0).
Definition orient2d_ttt_yz {E L T} (k : nat -> kernels2 E L T) := o2_ttt (k 0).

(** orient2d.rs:30-104 [orient2d_xy]. *)
Definition orient2d_xy {E L T} (k : nat -> kernels2 E L T) (pa pb pc : point3d E L T) : res :=
  match pa, pb, pc with
  | Explicit pa, Explicit pb, Explicit pc => o2_eee (k 2) pa pb pc
  | Explicit pa, Explicit pb, LPI pc => orient2d_lee_xy k pc pa pb
  | Explicit pa, Explicit pb, TPI pc => orient2d_tee_xy k pc pa pb
  | Explicit pa, LPI pb, Explicit pc => orient2d_lee_xy k pb pc pa
  | Explicit pa, LPI pb, LPI pc => orient2d_lle_xy k pb pc pa
  | Explicit pa, LPI pb, TPI pc => orient2d_lte_xy k pb pc pa
  | Explicit pa, TPI pb, Explicit pc => orient2d_tee_xy k pb pc pa
  | Explicit pa, TPI pb, LPI pc => option_map sign_reverse (orient2d_lte_xy k pc pb pa)
  | Explicit pa, TPI pb, TPI pc => orient2d_tte_xy k pb pc pa
  | LPI pa, Explicit pb, Explicit pc => orient2d_lee_xy k pa pb pc
  | LPI pa, Explicit pb, LPI pc => orient2d_lle_xy k pc pa pb
  | LPI pa, Explicit pb, TPI pc => option_map sign_reverse (orient2d_lte_xy k pa pc pb)
  | LPI pa, LPI pb, Explicit pc => orient2d_lle_xy k pa pb pc
  | LPI pa, LPI pb, LPI pc => orient2d_lll_xy k pa pb pc
  | LPI pa, LPI pb, TPI pc => orient2d_llt_xy k pa pb pc
  | LPI pa, TPI pb, Explicit pc => orient2d_lte_xy k pa pb pc
  | LPI pa, TPI pb, LPI pc => orient2d_llt_xy k pc pa pb
  | LPI pa, TPI pb, TPI pc => orient2d_ltt_xy k pa pb pc
  | TPI pa, Explicit pb, Explicit pc => orient2d_tee_xy k pa pb pc
  | TPI pa, Explicit pb, LPI pc => orient2d_lte_xy k pc pa pb
  | TPI pa, Explicit pb, TPI pc => orient2d_tte_xy k pc pa pb
  | TPI pa, LPI pb, Explicit pc => option_map sign_reverse (orient2d_lte_xy k pb pa pc)
  | TPI pa, LPI pb, LPI pc => orient2d_llt_xy k pb pc pa
  | TPI pa, LPI pb, TPI pc => orient2d_ltt_xy k pb pc pa
  | TPI pa, TPI pb, Explicit pc => orient2d_tte_xy k pa pb pc
  | TPI pa, TPI pb, LPI pc => orient2d_ltt_xy k pc pa pb
  | TPI pa, TPI pb, TPI pc => orient2d_ttt_xy k pa pb pc
  end.

(** orient2d.rs:106-185 [orient2d_zx]. *)
Definition orient2d_zx {E L T} (k : nat -> kernels2 E L T) (pa pb pc : point3d E L T) : res :=
  match pa, pb, pc with
  | Explicit pa, Explicit pb, Explicit pc => o2_eee (k 1) pa pb pc
  | Explicit pa, Explicit pb, LPI pc => orient2d_lee_zx k pc pa pb
  | Explicit pa, Explicit pb, TPI pc => orient2d_tee_zx k pc pa pb
  | Explicit pa, LPI pb, Explicit pc => orient2d_lee_zx k pb pc pa
  | Explicit pa, LPI pb, LPI pc => orient2d_lle_zx k pb pc pa
  | Explicit pa, LPI pb, TPI pc => orient2d_lte_zx k pb pc pa
  | Explicit pa, TPI pb, Explicit pc => orient2d_tee_zx k pb pc pa
  | Explicit pa, TPI pb, LPI pc => option_map sign_reverse (orient2d_lte_zx k pc pb pa)
  | Explicit pa, TPI pb, TPI pc => orient2d_tte_zx k pb pc pa
  | LPI pa, Explicit pb, Explicit pc => orient2d_lee_zx k pa pb pc
  | LPI pa, Explicit pb, LPI pc => orient2d_lle_zx k pc pa pb
  | LPI pa, Explicit pb, TPI pc => option_map sign_reverse (orient2d_lte_zx k pa pc pb)
  | LPI pa, LPI pb, Explicit pc => orient2d_lle_zx k pa pb pc
  | LPI pa, LPI pb, LPI pc => orient2d_lll_zx k pa pb pc
  | LPI pa, LPI pb, TPI pc => orient2d_llt_zx k pa pb pc
  | LPI pa, TPI pb, Explicit pc => orient2d_lte_zx k pa pb pc
  | LPI pa, TPI pb, LPI pc => orient2d_llt_zx k pc pa pb
  | LPI pa, TPI pb, TPI pc => orient2d_ltt_zx k pa pb pc
  | TPI pa, Explicit pb, Explicit pc => orient2d_tee_zx k pa pb pc
  | TPI pa, Explicit pb, LPI pc => orient2d_lte_zx k pc pa pb
  | TPI pa, Explicit pb, TPI pc => orient2d_tte_zx k pc pa pb
  | TPI pa, LPI pb, Explicit pc => option_map sign_reverse (orient2d_lte_zx k pb pa pc)
  | TPI pa, LPI pb, LPI pc => orient2d_llt_zx k pb pc pa
  | TPI pa, LPI pb, TPI pc => orient2d_ltt_zx k pb pc pa
  | TPI pa, TPI pb, Explicit pc => orient2d_tte_zx k pa pb pc
  | TPI pa, TPI pb, LPI pc => orient2d_ltt_zx k pc pa pb
  | TPI pa, TPI pb, TPI pc => orient2d_ttt_zx k pa pb pc
  end.

(** orient2d.rs:187-261 [orient2d_yz]. *)
Definition orient2d_yz {E L T} (k : nat -> kernels2 E L T) (pa pb pc : point3d E L T) : res :=
  match pa, pb, pc with
  | Explicit pa, Explicit pb, Explicit pc => o2_eee (k 0) pa pb pc
  | Explicit pa, Explicit pb, LPI pc => orient2d_lee_yz k pc pa pb
  | Explicit pa, Explicit pb, TPI pc => orient2d_tee_yz k pc pa pb
  | Explicit pa, LPI pb, Explicit pc => orient2d_lee_yz k pb pc pa
  | Explicit pa, LPI pb, LPI pc => orient2d_lle_yz k pb pc pa
  | Explicit pa, LPI pb, TPI pc => orient2d_lte_yz k pb pc pa
  | Explicit pa, TPI pb, Explicit pc => orient2d_tee_yz k pb pc pa
  | Explicit pa, TPI pb, LPI pc => option_map sign_reverse (orient2d_lte_yz k pc pb pa)
  | Explicit pa, TPI pb, TPI pc => orient2d_tte_yz k pb pc pa
  | LPI pa, Explicit pb, Explicit pc => orient2d_lee_yz k pa pb pc
  | LPI pa, Explicit pb, LPI pc => orient2d_lle_yz k pc pa pb
  | LPI pa, Explicit pb, TPI pc => option_map sign_reverse (orient2d_lte_yz k pa pc pb)
  | LPI pa, LPI pb, Explicit pc => orient2d_lle_yz k pa pb pc
  | LPI pa, LPI pb, LPI pc => orient2d_lll_yz k pa pb pc
  | LPI pa, LPI pb, TPI pc => orient2d_llt_yz k pa pb pc
  | LPI pa, TPI pb, Explicit pc => orient2d_lte_yz k pa pb pc
  | LPI pa, TPI pb, LPI pc => orient2d_llt_yz k pc pa pb
  | LPI pa, TPI pb, TPI pc => orient2d_ltt_yz k pa pb pc
  | TPI pa, Explicit pb, Explicit pc => orient2d_tee_yz k pa pb pc
  | TPI pa, Explicit pb, LPI pc => orient2d_lte_yz k pc pa pb
  | TPI pa, Explicit pb, TPI pc => orient2d_tte_yz k pc pa pb
  | TPI pa, LPI pb, Explicit pc => option_map sign_reverse (orient2d_lte_yz k pb pa pc)
  | TPI pa, LPI pb, LPI pc => orient2d_llt_yz k pb pc pa
  | TPI pa, LPI pb, TPI pc => orient2d_ltt_yz k pb pc pa
  | TPI pa, TPI pb, Explicit pc => orient2d_tte_yz k pa pb pc
  | TPI pa, TPI pb, LPI pc => orient2d_ltt_yz k pc pa pb
  | TPI pa, TPI pb, TPI pc => orient2d_ttt_yz k pa pb pc
  end.

(** orient2d.rs:9-23 [orient2d_by_axis]. *)
Definition orient2d_by_axis {E L T} (k : nat -> kernels2 E L T)
    (pa pb pc : point3d E L T) (axis : nat) : res :=
  match axis with
  | 0 => orient2d_yz k pa pb pc
  | 1 => orient2d_zx k pa pb pc
  | _ => orient2d_xy k pa pb pc
  end.

(** The kernels of the coordinate comparison for one axis. *)
Record kernels1 (E L T : Type) : Type := {
  lt_ee : E -> E -> res;
  lt_le : L -> E -> res;
  lt_te : T -> E -> res;
  lt_ll : L -> L -> res;
  lt_lt : L -> T -> res;
  lt_tt : T -> T -> res }.
Arguments lt_ee {E L T}.
Arguments lt_le {E L T}.
Arguments lt_te {E L T}.
Arguments lt_ll {E L T}.
Arguments lt_lt {E L T}.
Arguments lt_tt {E L T}.

(** The wrappers less_than.rs:63-195 fix the axis constant. *)
Definition less_than_on_x_le {E L T} (k : nat -> kernels1 E L T) := lt_le (k 0).
Definition less_than_on_x_te {E L T} (k : nat -> kernels1 E L T) := lt_te (k 0).
Definition less_than_on_x_ll {E L T} (k : nat -> kernels1 E L T) := lt_ll (k 0).
Definition less_than_on_x_lt {E L T} (k : nat -> kernels1 E L T) := lt_lt (k 0).
Definition less_than_on_x_tt {E L T} (k : nat -> kernels1 E L T) := lt_tt (k 0).
Definition less_than_on_y_le {E L T} (k : nat -> kernels1 E L T) := lt_le (k 1).
Definition less_than_on_y_te {E L T} (k : nat -> kernels1 E L T) := lt_te (k 1).
Definition less_than_on_y_ll {E L T} (k : nat -> kernels1 E L T) := lt_ll (k 1).
Definition less_than_on_y_lt {E L T} (k : nat -> kernels1 E L T) := lt_lt (k 1).
Definition less_than_on_y_tt {E L T} (k : nat -> kernels1 E L T) := lt_tt (k 1).
Definition less_than_on_z_le {E L T} (k : nat -> kernels1 E L T) := lt_le (k 2).
Definition less_than_on_z_te {E L T} (k : nat -> kernels1 E L T) := lt_te (k 2).
Definition less_than_on_z_ll {E L T} (k : nat -> kernels1 E L T) := lt_ll (k 2).
Definition less_than_on_z_lt {E L T} (k : nat -> kernels1 E L T) := lt_lt (k 2).
Definition less_than_on_z_tt {E L T} (k : nat -> kernels1 E L T) := lt_tt (k 2).

(** less_than.rs:8-20 [less_than_on_x]. *)
Definition less_than_on_x {E L T} (k : nat -> kernels1 E L T) (pa pb : point3d E L T) : res :=
  match pa, pb with
  | Explicit pa, Explicit pb => lt_ee (k 0) pa pb
  | Explicit pa, LPI pb => less_than_on_x_le k pb pa
  | Explicit pa, TPI pb => less_than_on_x_te k pb pa
  | LPI pa, Explicit pb => less_than_on_x_le k pa pb
  | LPI pa, LPI pb => less_than_on_x_ll k pa pb
  | LPI pa, TPI pb => less_than_on_x_lt k pa pb
  | TPI pa, Explicit pb => less_than_on_x_te k pa pb
  | TPI pa, LPI pb => less_than_on_x_lt k pb pa
  | TPI pa, TPI pb => less_than_on_x_tt k pa pb
  end.

(** less_than.rs:22-34 [less_than_on_y]. *)
Definition less_than_on_y {E L T} (k : nat -> kernels1 E L T) (pa pb : point3d E L T) : res :=
  match pa, pb with
  | Explicit pa, Explicit pb => lt_ee (k 1) pa pb
  | Explicit pa, LPI pb => less_than_on_y_le k pb pa
  | Explicit pa, TPI pb => less_than_on_y_te k pb pa
  | LPI pa, Explicit pb => less_than_on_y_le k pa pb
  | LPI pa, LPI pb => less_than_on_y_ll k pa pb
  | LPI pa, TPI pb => less_than_on_y_lt k pa pb
  | TPI pa, Explicit pb => less_than_on_y_te k pa pb
  | TPI pa, LPI pb => less_than_on_y_lt k pb pa
  | TPI pa, TPI pb => less_than_on_y_tt k pa pb
  end.

(** less_than.rs:36-48 [less_than_on_z]. *)
Definition less_than_on_z {E L T} (k : nat -> kernels1 E L T) (pa pb : point3d E L T) : res :=
  match pa, pb with
  | Explicit pa, Explicit pb => lt_ee (k 2) pa pb
  | Explicit pa, LPI pb => less_than_on_z_le k pb pa
  | Explicit pa, TPI pb => less_than_on_z_te k pb pa
  | LPI pa, Explicit pb => less_than_on_z_le k pa pb
  | LPI pa, LPI pb => less_than_on_z_ll k pa pb
  | LPI pa, TPI pb => less_than_on_z_lt k pa pb
  | TPI pa, Explicit pb => less_than_on_z_te k pa pb
  | TPI pa, LPI pb => less_than_on_z_lt k pb pa
  | TPI pa, TPI pb => less_than_on_z_tt k pa pb
  end.
