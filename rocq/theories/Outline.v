(** Model of the outlines of the merged faces: polygonlization/bsp_complex.rs
    842-1189.  An edge is the pair of its vertices, a halfedge (eid, reversed) is
    the pair of its start and its end; edges are equal when they have the same
    vertices.  Allocators are left out. *)
From Coq Require Import List Arith Bool.
From Verif Require Import Lib Tet Bsp.
Import ListNotations.
Local Open Scope opt_scope.

(** A kept face: its vertex cycle, and whether its sign in kept_faces is
    positive (bsp_complex.rs:740-755). *)
Record kface : Type := KFace { kcycle : list nat; kpos : bool }.

(** * extract_faces_outlines *)

(** bsp_complex.rs:933-946: the direction in which an edge of a face is counted;
    he_same_dir xor (sign > 0) is -1, so a positive face counts its halfedges
    as they are, a negative one counts them turned. *)
Definition kedges (f : kface) : list (nat * nat) := if kpos f then hes (kcycle f) else map swap (hes (kcycle f)).
Definition counted (fs : list kface) : list (nat * nat) := concat (map kedges fs).
Definition count (l : list (nat * nat)) (e : nat * nat) : nat := length (filter (he_eqb e) l).
(** bsp_complex.rs:947-958: one halfedge for each edge whose count is not 0, in
    its direction.  The order is that of a hash map: the functions below take
    the halfedges as an argument, any permutation of these. *)
Fixpoint once (l : list (nat * nat)) : list (nat * nat) :=
  match l with [] => [] | e :: t => if existsb (he_eqb e) t then once t else e :: once t end.
Definition outline_halfedges (fs : list kface) : list (nat * nat) :=
  let l := counted fs in filter (fun e => count l (swap e) <? count l e) (once l).

(** vert_out_edge_map, bsp_complex.rs:965-985 (halfedges are distinct, so their
    indices are replaced by themselves); multi_out_verts. *)
Definition outs (hs : list (nat * nat)) (v : nat) : list (nat * nat) := filter (fun e => fst e =? v) hs.
Definition multi (hs : list (nat * nat)) (v : nat) : bool := 2 <=? length (outs hs v).

(** he_next_map, bsp_complex.rs:987-1002: the insertions in order.  Keys and
    values are edges; they are given with the direction they come from. *)
Definition he_nexts (l : list nat) : list ((nat * nat) * (nat * nat)) :=
  match hes l with [] => [] | h :: t => combine (h :: t) (t ++ [h]) end.
Definition insertions (fs : list kface) (hs : list (nat * nat)) : list ((nat * nat) * (nat * nat)) :=
  concat (map (fun f => concat (map (fun p : (nat * nat) * (nat * nat) =>
    let '(ha, hb) := p in
    if multi hs (snd ha) then [if kpos f then (ha, hb) else (swap hb, swap ha)] else []) (he_nexts (kcycle f)))) fs).
(** A later insertion replaces an earlier one with the same edge. *)
Definition lookup (ins : list ((nat * nat) * (nat * nat))) (e : nat * nat) : option (nat * nat) :=
  option_map snd (find (fun p => edge_eqb (fst p) e) (rev ins)).

(** bsp_complex.rs:1031-1043: turning around a vertex. *)
Fixpoint turn (ins : list ((nat * nat) * (nat * nat))) (group : list (nat * nat)) (cur : nat * nat) (fuel : nat) : option (nat * nat) :=
  match fuel with
  | 0 => None
  | S k =>
    next <- lookup ins cur ;;
    match find (fun h => edge_eqb h next) group with
    | Some h => Some h
    | None => turn ins group next k
    end
  end.
Definition visited (vis : list (nat * nat)) (e : nat * nat) : bool := existsb (he_eqb e) vis.
(** bsp_complex.rs:1021-1052: the loop that follows one outline from [he]; the
    result is the visited halfedges and the rest of the outline. *)
Fixpoint walk (ins : list ((nat * nat) * (nat * nat))) (hs vis : list (nat * nat)) (he : nat * nat) (tf fuel : nat)
    : option (list (nat * nat) * list (nat * nat)) :=
  match fuel with
  | 0 => None
  | S k =>
    let c := outs hs (snd he) in
    next <- match c with
            | [] => None
            | [h] => Some h
            | _ => match filter (fun h => negb (visited vis h)) c with
                   | [h] => Some h
                   | _ => turn ins c he tf
                   end
            end ;;
    if visited vis next then Some (vis, [])
    else '(vis', r) <- walk ins hs (next :: vis) next tf k ;; Some (vis', next :: r)
  end.
(** bsp_complex.rs:1014-1056 *)
Fixpoint outlines (ins : list ((nat * nat) * (nat * nat))) (hs vis todo : list (nat * nat)) (tf : nat) : option (list (list (nat * nat))) :=
  match todo with
  | [] => Some []
  | h :: t =>
    if visited vis h then outlines ins hs vis t tf
    else '(vis', r) <- walk ins hs (h :: vis) h tf (S (length hs)) ;;
         l <- outlines ins hs vis' t tf ;; Some ((h :: r) :: l)
  end.
(** extract_faces_outlines, bsp_complex.rs:927-1057; [hs] is the order of the
    hash map, [tf] bounds the turns around a vertex. *)
Definition extract_outlines (fs : list kface) (hs : list (nat * nat)) (tf : nat) : option (list (list (nat * nat))) :=
  outlines (insertions fs hs) hs [] hs tf.

(** * merge_colinear_edges *)

(** bsp_complex.rs:1100-1137: the loop over the outline.  edge_in_group is
    created with INVALID_IND (869) and never written, so start_idx is 0 and the
    branches for groups are never taken; they are left out. *)
Fixpoint group_edges (col : nat * nat -> nat * nat -> bool) (l : list (nat * nat)) (groups : list (list (nat * nat))) (cur : list (nat * nat))
    : list (list (nat * nat)) * list (nat * nat) :=
  match l with
  | [] => (groups, cur)
  | he :: t =>
    match last_error cur with
    | Some prev => if col prev he then group_edges col t groups (cur ++ [he]) else group_edges col t (groups ++ [cur]) [he]
    | None => group_edges col t groups (cur ++ [he])
    end
  end.
(** bsp_complex.rs:1096-1177: the groups of halfedges that become one edge;
    None for the empty outline (first().unwrap(), 1173) and when halfedges[0]
    does not exist (1139). *)
Definition colinear_groups (col : nat * nat -> nat * nat -> bool) (outline : list (nat * nat)) : option (list (list (nat * nat))) :=
  match outline with
  | [] => None
  | _ =>
    let '(groups, cur) := group_edges col outline [] [] in
    match last_error cur with
    | None => Some groups
    | Some lst =>
      first <- hd_error groups ;;
      f0 <- hd_error first ;;
      if col lst f0 then Some ((cur ++ first) :: tl groups) else Some (groups ++ [cur])
    end
  end.
(** bsp_complex.rs:1179-1187: the end of each group. *)
Definition merge_colinear (col : nat * nat -> nat * nat -> bool) (outline : list (nat * nat)) : option (list nat) :=
  gs <- colinear_groups col outline ;;
  omap (fun g => option_map snd (last_error g)) gs.

(** * merge_faces *)

(** bsp_complex.rs:878-883: the groups of the faces at an edge, sorted and
    without repetition; [grp] is face_in_group. *)
Fixpoint insert_group (x : nat) (l : list nat) : list nat :=
  match l with [] => [x] | y :: t => if x <? y then x :: l else if x =? y then l else y :: insert_group x t end.
Definition edge_face_groups (fs : list kface) (grp : nat -> nat) (e : nat * nat) : list nat :=
  fold_left (fun l i => match nth_error fs i with
                        | Some f => if existsb (edge_eqb e) (hes (kcycle f)) then insert_group (grp i) l else l
                        | None => l
                        end) (seq 0 (length fs)) [].
Fixpoint list_eqb (a b : list nat) : bool :=
  match a, b with [], [] => true | x :: s, y :: t => (x =? y) && list_eqb s t | _, _ => false end.
(** The closure colinear, bsp_complex.rs:1080-1095.  The ids of different edges
    differ (394-397, 435-436), so the comparison of ids only holds for one edge
    (where the orientation is zero too); [line a b c] is orient2d_by_axis = Zero. *)
Definition colinear (fs : list kface) (grp : nat -> nat) (line : nat -> nat -> nat -> bool) (ha hb : nat * nat) : bool :=
  list_eqb (edge_face_groups fs grp ha) (edge_face_groups fs grp hb) && (edge_eqb ha hb || line (fst ha) (snd ha) (snd hb)).
(** The faces of one group, in order. *)
Definition group_faces (fs : list kface) (grp : nat -> nat) (g : nat) : list kface :=
  concat (map (fun i => match nth_error fs i with Some f => if grp i =? g then [f] else [] | None => [] end) (seq 0 (length fs))).
(** bsp_complex.rs:885-925: the loops of all groups; [order g] is the order of
    the hash map in the group [g], [line g] the test with its axis. *)
Fixpoint merge_groups (fs : list kface) (grp : nat -> nat) (line : nat -> nat -> nat -> nat -> bool) (order : nat -> list (nat * nat)) (tf : nat) (gs : list nat)
    : option (list (list (list nat))) :=
  match gs with
  | [] => Some []
  | g :: t =>
    ol <- extract_outlines (group_faces fs grp g) (order g) tf ;;
    loops <- omap (merge_colinear (colinear fs grp (line g))) ol ;;
    r <- merge_groups fs grp line order tf t ;;
    Some (loops :: r)
  end.
