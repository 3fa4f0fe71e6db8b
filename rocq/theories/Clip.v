(** Model of the vertex bookkeeping of the BSP complex: which side of a plane a
    vertex is on, and which point an edge is cut at
    (src/polygonlization/bsp_complex.rs).  Definitions only.

    Coordinates are exact reals instead of f64 (-0.0 == 0.0 holds as in the
    code; NaN is excluded).  The hash map of orientations is an association
    list.  The memo cells of implicit points are left out. *)
From Coq Require Import Reals List Arith Bool.
From Verif Require Import Lib Geo Dispatch Orient PointTests.
Import ListNotations.

(** generic_point.rs:89-102 and 347-365: the defining points. *)
Record lpi := mk_lpi { lp : vec3; lq : vec3; lr : vec3; ls : vec3; lt_ : vec3 }.
Record tpi := mk_tpi { v1 : vec3; v2 : vec3; v3 : vec3; w1 : vec3; w2 : vec3; w3 : vec3; u1 : vec3; u2 : vec3; u3 : vec3 }.
Notation bpoint := (point3d vec3 lpi tpi).

(** bsp_complex.rs:1487-1518 is_point_built_from_plane; [same_point] is the
    derived equality of ExplicitPoint3D. *)
Definition is_point_built_from_plane (p : bpoint) (pa pb pc : vec3) : bool :=
  match p with
  | Explicit e => same_point e pa || same_point e pb || same_point e pc
  | LPI l =>
    (((same_point pa (lp l) && same_point pb (lq l)) || (same_point pb (lp l) && same_point pa (lq l)))
     || ((same_point pb (lp l) && same_point pc (lq l)) || (same_point pc (lp l) && same_point pb (lq l))))
    || ((same_point pc (lp l) && same_point pa (lq l)) || (same_point pa (lp l) && same_point pc (lq l)))
    || (same_point pa (lr l) && same_point pb (ls l) && same_point pc (lt_ l))
  | TPI t =>
    (same_point pa (v1 t) && same_point pb (v2 t) && same_point pc (v3 t))
    || (same_point pa (w1 t) && same_point pb (w2 t) && same_point pc (w3 t))
    || (same_point pa (u1 t) && same_point pb (u2 t) && same_point pc (u3 t))
  end.

Definition omap_ := list (nat * Orientation).
Fixpoint mget (m : omap_) (v : nat) : option Orientation :=
  match m with [] => None | (w, o) :: t => if v =? w then Some o else mget t v end.
Definition mhas (m : omap_) (v : nat) : bool := match mget m v with Some _ => true | None => false end.

(** A loop whose body may panic. *)
Fixpoint oiter {A B} (f : A -> B -> option B) (l : list A) (b : B) : option B :=
  match l with [] => Some b | a :: t => match f a b with Some b' => oiter f t b' | None => None end end.

Section Model.
(** generic_point orient3d on the three plane points and a vertex's point. *)
Variable o3 : vec3 -> vec3 -> vec3 -> bpoint -> option Orientation.
Variable (points : list bpoint) (parents : list (nat * nat)).

(** bsp_complex.rs:1479-1483 *)
Definition orient_direct (pa pb pc : vec3) (vid : nat) (m : omap_) : option omap_ :=
  match nth_error points vid with
  | None => None
  | Some p =>
    if is_point_built_from_plane p pa pb pc then Some ((vid, Zero) :: m)
    else match o3 pa pb pc p with Some o => Some ((vid, o) :: m) | None => None end
  end.
(** bsp_complex.rs:1430-1485 verts_orient_wrt_plane.  [None] for a panic or
    when the recursion is deeper than the fuel.  The plane points are explicit
    (the unwrap of 1440-1442). *)
Fixpoint verts_orient_wrt_plane (fuel : nat) (pa pb pc : vec3) (verts : list nat) (m : omap_) : option omap_ :=
  match fuel with
  | O => None
  | S fuel =>
    oiter (fun vid m =>
      if mhas m vid then Some m else
      match nth_error parents vid with
      | None => None
      | Some (vp0, vp1) =>
        if vid =? vp0 then orient_direct pa pb pc vid m
        else
          match (if negb (mhas m vp0) || negb (mhas m vp1)
                 then verts_orient_wrt_plane fuel pa pb pc [vp0; vp1] m else Some m) with
          | None => None
          | Some m =>
            match mget m vp0, mget m vp1 with
            | Some ori_a, Some ori_b =>
              if ori_eqb ori_a ori_b then Some ((vid, ori_a) :: m)
              else if ori_eqb ori_a Zero then Some ((vid, ori_b) :: m)
              else if ori_eqb ori_b Zero then Some ((vid, ori_a) :: m)
              else orient_direct pa pb pc vid m
            | _, _ => None
            end
          end
      end) verts m
  end.

(** points[i].explicit().unwrap() *)
Definition explicit_at (i : nat) : option vec3 :=
  match nth_error points i with Some (Explicit e) => Some e | _ => None end.

(** bsp_complex.rs:1527-1535: the vertices of tri1 found in tri2, at most two. *)
Fixpoint common_two (tri1 tri2 : list nat) (common : list nat) : list nat :=
  match tri1 with
  | [] => common
  | va :: t =>
    let common := if existsb (Nat.eqb va) tri2 then common ++ [va] else common in
    if 1 <? length common then common else common_two t tri2 common
  end.
(** bsp_complex.rs:1526-1544: one turn of the loop. *)
Definition shared_line (tri tri1 tri2 : list nat) : option (option bpoint) :=
  match common_two tri1 tri2 [] with
  | c0 :: c1 :: _ =>
    match explicit_at c0, explicit_at c1, tri with
    | Some p, Some q, [a; b; c] =>
      match explicit_at a, explicit_at b, explicit_at c with
      | Some r, Some s, Some t => Some (Some (LPI (mk_lpi p q r s t)))
      | _, _, _ => None
      end
    | _, _, _ => None
    end
  | _ => Some None
  end.
(** bsp_complex.rs:1521-1557 three_planes_intersection on three planes of three
    vertices each; circular_tuple_windows visits (0,1,2), (1,2,0), (2,0,1). *)
Definition three_planes_intersection (p0 p1 p2 : list nat) : option bpoint :=
  match shared_line p0 p1 p2 with
  | None => None
  | Some (Some r) => Some r
  | Some None =>
    match shared_line p1 p2 p0 with
    | None => None
    | Some (Some r) => Some r
    | Some None =>
      match shared_line p2 p0 p1 with
      | None => None
      | Some (Some r) => Some r
      | Some None =>
        match p0, p1, p2 with
        | [a; b; c], [d; e; f], [g; h; i] =>
          match explicit_at a, explicit_at b, explicit_at c, explicit_at d, explicit_at e, explicit_at f,
                explicit_at g, explicit_at h, explicit_at i with
          | Some a, Some b, Some c, Some d, Some e, Some f, Some g, Some h, Some i =>
              Some (TPI (mk_tpi a b c d e f g h i))
          | _, _, _, _, _, _, _, _, _ => None
          end
        | _, _, _ => None
        end
      end
    end
  end.
(** bsp_complex.rs:1269-1297 get_ef_clip_pt; [par] is edge_data[eid].parents. *)
Definition get_ef_clip_pt (par : list nat) (tri : list nat) : option bpoint :=
  match tri with
  | [a; b; c] =>
    match explicit_at a, explicit_at b, explicit_at c with
    | Some p0, Some p1, Some p2 =>
      if 2 <? length par then three_planes_intersection (firstn 3 par) (skipn 3 par) tri
      else match par with
           | [x; y] =>
             match explicit_at x, explicit_at y with
             | Some p, Some q => Some (LPI (mk_lpi p q p0 p1 p2))
             | _, _ => None
             end
           | _ => None
           end
    | _, _, _ => None
    end
  | _ => None
  end.
End Model.
