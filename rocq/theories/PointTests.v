(** The segment and triangle tests of /repo/src/predicates/mod.rs, over exact
    real coordinates.  [predicates::orient2d] and [predicates::orient3d] are
    replaced by the exact determinants whose sign they report (Shewchuk's
    adaptive predicates are treated in the expansion files); a test
    [orient(..) != 0.0] becomes "the sign is not [Zero]".  f64 comparisons are
    comparisons of reals, so NaN and infinities are excluded. *)
From Coq Require Import Reals Lra Bool List.
From Verif Require Import Lib Geo Dispatch Orient.
Local Open Scope R_scope.

Definition ori_eqb (a b : Orientation) : bool :=
  match a, b with
  | Positive, Positive | Negative, Negative | Zero, Zero | Undefined, Undefined => true
  | _, _ => false
  end.

(** Comparison of f64 values. *)
Definition Rltb (a b : R) : bool := if Rlt_dec a b then true else false.
Definition Rleb (a b : R) : bool := if Rle_dec a b then true else false.
Definition Reqb (a b : R) : bool := if Req_EM_T a b then true else false.

(** [double_to_sign(predicates::orient2d(..))] on the three coordinate planes
    the code projects to: [p], [&p[1..]] and [[p[0], p[2]]]. *)
Definition s_xy (a b c : vec3) : Orientation :=
  ori_of (orient2 (vx a) (vy a) (vx b) (vy b) (vx c) (vy c)).
Definition s_yz (a b c : vec3) : Orientation :=
  ori_of (orient2 (vy a) (vz a) (vy b) (vz b) (vy c) (vz c)).
Definition s_xz (a b c : vec3) : Orientation :=
  ori_of (orient2 (vx a) (vz a) (vx b) (vz b) (vx c) (vz c)).

(** [double_to_sign(predicates::orient3d(..))]. *)
Definition s3 (a b c d : vec3) : Orientation := ori_of (orient3 a b c d).

(** mod.rs:211-286 [point_in_inner_triangle]; the early [return false]s become
    a conjunction. *)
Definition point_in_inner_triangle (p v1 v2 v3 : vec3) : bool :=
  let oo2 := s_xy v1 v2 v3 in
  let oo4 := s_yz v1 v2 v3 in
  let oo6 := s_xz v1 v2 v3 in
  ori_eqb (s_xy p v2 v3) oo2 && ori_eqb (s_yz p v2 v3) oo4 && ori_eqb (s_xz p v2 v3) oo6 &&
  ori_eqb (s_xy p v3 v1) oo2 && ori_eqb (s_yz p v3 v1) oo4 && ori_eqb (s_xz p v3 v1) oo6 &&
  ori_eqb (s_xy p v1 v2) oo2 && ori_eqb (s_yz p v1 v2) oo4 && ori_eqb (s_xz p v1 v2) oo6.

(** mod.rs:297-330: the box rejection on one axis. *)
Definition box_reject (c : vec3 -> R) (u1 u2 v1 v2 v3 : vec3) : bool :=
  (let bound := Rmin (c u1) (c u2) in
   Rleb (c v1) bound && Rleb (c v2) bound && Rleb (c v3) bound) ||
  (let bound := Rmax (c u1) (c u2) in
   Rleb bound (c v1) && Rleb bound (c v2) && Rleb bound (c v3)).

(** mod.rs:288-373 [inner_segment_cross_inner_triangle]. *)
Definition inner_segment_cross_inner_triangle (u1 u2 v1 v2 v3 : vec3) : bool :=
  if box_reject vx u1 u2 v1 v2 v3 || box_reject vy u1 u2 v1 v2 v3 || box_reject vz u1 u2 v1 v2 v3
  then false else
  let o1 := s3 u1 v1 v2 v3 in
  let o2 := s3 u2 v1 v2 v3 in
  if ori_eqb o1 Zero || ori_eqb o2 Zero then false else
  if ori_eqb o1 o2 then false else
  let o12 := s3 u1 u2 v1 v2 in
  let o23 := s3 u1 u2 v2 v3 in
  if ori_eqb o12 Zero || ori_eqb o23 Zero then false else
  if negb (ori_eqb o12 o23) then false else
  let o31 := s3 u1 u2 v3 v1 in
  if ori_eqb o31 Zero then false else
  if negb (ori_eqb o31 o23) then false else
  true.

(** mod.rs:375-378 [same_point]. *)
Definition same_point (p q : vec3) : bool :=
  Reqb (vx p) (vx q) && Reqb (vy p) (vy q) && Reqb (vz p) (vz q).

(** mod.rs:380-408 [same_half_plane]. *)
Definition same_half_plane (p q v1 v2 : vec3) : bool :=
  if negb (ori_eqb (s_xy p v1 v2) (s_xy q v1 v2)) then false else
  if negb (ori_eqb (s_yz p v1 v2) (s_yz q v1 v2)) then false else
  ori_eqb (s_xz p v1 v2) (s_xz q v1 v2).

(** mod.rs:410-427 [mis_alignment]. *)
Definition mis_alignment (p q r : vec3) : bool :=
  if negb (ori_eqb (s_xy p q r) Zero) then true else
  if negb (ori_eqb (s_yz p q r) Zero) then true else
  negb (ori_eqb (s_xz p q r) Zero).

(** mod.rs:429-491 [inner_segments_cross]. *)
Definition inner_segments_cross (u1 u2 v1 v2 : vec3) : bool :=
  if negb (ori_eqb (s3 u1 u2 v1 v2) Zero) then false else
  if same_half_plane u1 u2 v1 v2 || same_half_plane v1 v2 u1 u2 then false else
  if negb (mis_alignment u1 v1 v2) then false else
  if negb (mis_alignment u2 v1 v2) then false else
  if negb (mis_alignment v1 u1 u2) then false else
  if negb (mis_alignment v2 u1 u2) then false else
  if negb (ori_eqb (s_xy u1 u2 v1) Zero) then true else
  if negb (ori_eqb (s_xy v1 v2 u2) Zero) then true else
  if negb (ori_eqb (s_yz u1 u2 v1) Zero) then true else
  if negb (ori_eqb (s_yz v1 v2 u2) Zero) then true else
  if negb (ori_eqb (s_xz u1 u2 v1) Zero) then true else
  if negb (ori_eqb (s_xz v1 v2 u2) Zero) then true else
  false.

(** mod.rs:493-507 [point_in_inner_segment]; [x < y] and [y > x] are the same
    comparison. *)
Definition strictly_between (a b p : R) : bool :=
  (Rltb a b && Rltb a p && Rltb p b) || (Rltb b a && Rltb p a && Rltb b p).
Definition point_in_inner_segment (p v1 v2 : vec3) : bool :=
  negb (mis_alignment p v1 v2) &&
  (strictly_between (vx v1) (vx v2) (vx p) ||
   strictly_between (vy v1) (vy v2) (vy p) ||
   strictly_between (vz v1) (vz v2) (vz p)).

(** mod.rs:509-517 [point_in_segment]. *)
Definition point_in_segment (p v1 v2 : vec3) : bool :=
  same_point p v1 || same_point p v2 || point_in_inner_segment p v1 v2.

(** mod.rs:567-583 [inner_segment_cross_triangle]. *)
Definition inner_segment_cross_triangle (u1 u2 v1 v2 v3 : vec3) : bool :=
  point_in_inner_segment v1 u1 u2 || point_in_inner_segment v2 u1 u2 ||
  point_in_inner_segment v3 u1 u2 ||
  inner_segments_cross v2 v3 u1 u2 || inner_segments_cross v3 v1 u1 u2 ||
  inner_segments_cross v1 v2 u1 u2 ||
  inner_segment_cross_inner_triangle u1 u2 v1 v2 v3.

(** mod.rs:584-596 [point_in_triangle]. *)
Definition point_in_triangle (p v1 v2 v3 : vec3) : bool :=
  point_in_segment p v1 v2 || point_in_segment p v2 v3 || point_in_segment p v3 v1 ||
  point_in_inner_triangle p v1 v2 v3.

(** mod.rs:521-565 [point_in_segment_general], on top of the three coordinate
    comparisons; one block per axis, [None] when a comparison panics. *)
Definition seg_block (c1 c2 : res) (rest : option bool) : option bool :=
  match c1, c2 with
  | Some o1, Some o2 =>
      if negb (ori_eqb o1 o2) then
        if ori_eqb o1 Zero || ori_eqb o2 Zero then Some true else Some false
      else if negb (ori_eqb o1 Zero) then Some true
      else rest
  | _, _ => None
  end.

(** The last block, mod.rs:552-564, has no "else if": equal comparisons mean
    [true] in any case. *)
Definition seg_last (c1 c2 : res) : option bool :=
  match c1, c2 with
  | Some o1, Some o2 =>
      if negb (ori_eqb o1 o2) then
        if ori_eqb o1 Zero || ori_eqb o2 Zero then Some true else Some false
      else Some true
  | _, _ => None
  end.

Definition point_in_segment_general {E L T} (k : nat -> kernels1 E L T)
    (p v1 v2 : point3d E L T) : option bool :=
  seg_block (less_than_on_x k v1 p) (less_than_on_x k p v2)
  (seg_block (less_than_on_y k v1 p) (less_than_on_y k p v2)
   (seg_last (less_than_on_z k v1 p) (less_than_on_z k p v2))).
