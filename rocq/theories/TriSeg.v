(** Model of the walks over a triangulation of src/triangle/triangle.rs: the
    classification of the regions at the end of [triangulate] (40-93),
    [mark_ghost] (825-837), [make_vertex_map] (839-866), [find_direction]
    (874-924), [twin], [set_mark] (926-949) and [scout_segment] (951-986).
    Definitions only.  [INV] is the constant INVALID_IND. *)
From Coq Require Import List Arith Bool ZArith.
From Verif Require Import Lib Flip.
Import ListNotations.
Local Open Scope opt_scope.

(** * Regions: triangle.rs:41-75 *)

(** lines 53-66: one side of the triangle [tr] at the head of the queue. *)
Definition side (INV : nat) (tr : triangle) (ghost : list bool) (st : list bool * list nat * nat) (j : nat)
    : option (list bool * list nat * nat) :=
  let '(visited, queue, flag) := st in
  mk <- nth_error (data tr) (j + 3) ;;
  if negb (mk =? INV) then
    Some (visited, queue, if 1 <? flag then (if Nat.even mk then 1 else 0) else flag)
  else
    he <- nth_error (nei tr) j ;;
    v <- nth_error visited (fst he) ;;
    if v : bool then Some st
    else
      g <- nth_error ghost (fst he) ;;
      if g : bool then Some st
      else vis <- set visited (fst he) true ;; Some (vis, queue ++ [fst he], flag).
(** lines 51-69: the while loop. *)
Fixpoint flood (INV : nat) (m : list triangle) (ghost : list bool) (idx : nat) (st : list bool * list nat * nat) (fuel : nat)
    : option (list bool * list nat * nat) :=
  let '(visited, queue, flag) := st in
  match fuel with
  | 0 => None
  | S k =>
    match nth_error queue idx with
    | None => Some st
    | Some t =>
      tr <- nth_error m t ;;
      st1 <- side INV tr ghost st 0 ;;
      st2 <- side INV tr ghost st1 1 ;;
      st3 <- side INV tr ghost st2 2 ;;
      flood INV m ghost (S idx) st3 k
    end
  end.
(** lines 70-74 *)
Fixpoint drop_all (ghost : list bool) (l : list nat) : option (list bool) :=
  match l with [] => Some ghost | j :: l' => g <- set ghost j true ;; drop_all g l' end.
(** lines 42-75: the loop over the triangles from number [i] on. *)
Fixpoint regions (INV : nat) (m : list triangle) (visited ghost : list bool) (l : list nat) : option (list bool) :=
  match l with
  | [] => Some ghost
  | i :: l' =>
    v <- nth_error visited i ;;
    g <- nth_error ghost i ;;
    if v || g then regions INV m visited ghost l'
    else
      vis <- set visited i true ;;
      '(vis, queue, flag) <- flood INV m ghost 0 (vis, [i], 2) (S (length m)) ;;
      gh <- (if flag =? 0 then drop_all ghost queue else Some ghost) ;;
      regions INV m vis gh l'
  end.
(** lines 76-92: the corners of the triangles that are left. *)
Fixpoint corners_of (m : list triangle) (ghost : list bool) : option (list nat) :=
  match m, ghost with
  | tr :: m', g :: ghost' =>
    r <- corners_of m' ghost' ;;
    if g : bool then Some r
    else a <- nth_error (data tr) 0 ;; b <- nth_error (data tr) 1 ;; c <- nth_error (data tr) 2 ;; Some (a :: b :: c :: r)
  | _, _ => Some []
  end.
(** lines 41-93 *)
Definition classify (INV : nat) (m : list triangle) (ghost : list bool) : option (list nat) :=
  g <- regions INV m (repeat false (length m)) ghost (seq 0 (length m)) ;; corners_of m g.

(** * mark_ghost: triangle.rs:825-837.  The fuel is the number of sides. *)
Fixpoint mark_ghost_loop (m : list triangle) (start h : hedge) (ghost : list bool) (fuel : nat) : option (list bool) :=
  match fuel with
  | 0 => None
  | S k =>
    ghost <- set ghost (fst h) true ;;
    g <- sym m (next h) ;;
    if he_eqb g start then Some ghost else mark_ghost_loop m start g ghost k
  end.
Definition mark_ghost (m : list triangle) (start : hedge) : option (list bool) :=
  mark_ghost_loop m start start (repeat false (length m)) (3 * length m).

(** * make_vertex_map: triangle.rs:839-866 *)
(** lines 851-863 *)
Definition map_corner (INV : nat) (ghost : list bool) (idx : nat) (tr : triangle) (vm : list hedge) (i : nat) : option (list hedge) :=
  o <- nth_error (data tr) i ;;
  e <- nth_error vm o ;;
  if negb (fst e =? INV) then Some vm
  else
    he <- nth_error (nei tr) ((i + 1) mod 3) ;;
    g <- nth_error ghost (fst he) ;;
    set vm o (if g : bool then (idx, (i + 2) mod 3) else he).
(** lines 846-864 *)
Fixpoint map_tris (INV : nat) (m : list triangle) (ghost : list bool) (vm : list hedge) (l : list nat) : option (list hedge) :=
  match l with
  | [] => Some vm
  | idx :: l' =>
    g <- nth_error ghost idx ;;
    if g : bool then map_tris INV m ghost vm l'
    else
      tr <- nth_error m idx ;;
      vm <- map_corner INV ghost idx tr vm 0 ;;
      vm <- map_corner INV ghost idx tr vm 1 ;;
      vm <- map_corner INV ghost idx tr vm 2 ;;
      map_tris INV m ghost vm l'
  end.
Definition make_vertex_map (INV : nat) (m : list triangle) (ghost : list bool) (n : nat) : option (list hedge) :=
  map_tris INV m ghost (repeat (INV, 0) n) (seq 0 (length m)).

(** * Finding the way to a point *)
(** triangle.rs:272-318 *)
Definition onext (m : list triangle) (h : hedge) : option hedge := sym m (prev h).
Definition oprev (m : list triangle) (h : hedge) : option hedge := g <- sym m h ;; Some (next g).
(** triangle.rs:326-335: [ccw] is the exact sign of the orientation (C35); a
    vertex that is not a point (the ghost vertex) panics. *)
Definition turn (n : nat) (ccw : nat -> nat -> nat -> Z) (a b c : nat) : option Z :=
  if (a <? n) && (b <? n) && (c <? n) then Some (ccw a b c) else None.
(** triangle.rs:868-872 *)
Inductive direction : Type := WITHIN | LEFTCOLLINEAR | RIGHTCOLLINEAR.
(** lines 901-908: [left] is [left_ccw], [right] is [right_ccw]. *)
Fixpoint turn_left (n : nat) ccw (m : list triangle) (sp st : nat) (h : hedge) (left right : Z) (fuel : nat) : option (hedge * Z * Z) :=
  if (0 <? left)%Z then
    match fuel with
    | 0 => None
    | S k => h <- onext m h ;; v <- apex m h ;; l <- turn n ccw sp st v ;; turn_left n ccw m sp st h l left k
    end
  else Some (h, left, right).
(** lines 910-917 *)
Fixpoint turn_right (n : nat) ccw (m : list triangle) (sp st : nat) (h : hedge) (left right : Z) (fuel : nat) : option (hedge * Z * Z) :=
  if (0 <? right)%Z then
    match fuel with
    | 0 => None
    | S k => h <- oprev m h ;; v <- dest m h ;; r <- turn n ccw st sp v ;; turn_right n ccw m sp st h right r k
    end
  else Some (h, left, right).
(** triangle.rs:874-924.  A loop whose flag is false is not entered: when both
    values are positive only one loop runs.  The fuel bounds the turns. *)
Definition find_direction (n : nat) ccw (m : list triangle) (ghost : list bool) (h : hedge) (sp : nat) (fuel : nat)
    : option (direction * hedge) :=
  st <- org m h ;;
  rv <- dest m h ;;
  lv <- apex m h ;;
  left <- turn n ccw sp st lv ;;
  right <- turn n ccw st sp rv ;;
  lf <- (if (0 <? left)%Z && (0 <? right)%Z
         then c <- onext m h ;; g <- nth_error ghost (fst c) ;; Some (negb g)
         else Some (0 <? left)%Z) ;;
  '(h, left, right) <- (if lf : bool then turn_left n ccw m sp st h left right fuel
                        else if (0 <? right)%Z then turn_right n ccw m sp st h left right fuel
                        else Some (h, left, right)) ;;
  Some (if (left =? 0)%Z then LEFTCOLLINEAR else if (right =? 0)%Z then RIGHTCOLLINEAR else WITHIN, h).

(** triangle.rs:926-933 *)
Definition twin (k : nat) : nat := if Nat.even k then k + 1 else k - 1.
(** triangle.rs:940-949 with [reverse = true]. *)
Definition set_marks (INV : nat) (m : list triangle) (h : hedge) (k : nat) : option (list triangle) :=
  m <- set_mark m h k ;;
  g <- sym m h ;;
  if negb (fst g =? INV) then set_mark m g (twin k) else Some m.
(** triangle.rs:951-986; [fuel] bounds the recursion, [turns] the turns of each search. *)
Fixpoint scout_segment (INV n : nat) ccw (m : list triangle) (ghost : list bool) (h : hedge) (endpoint2 k : nat) (turns fuel : nat)
    : option (list triangle * hedge * bool) :=
  match fuel with
  | 0 => None
  | S f =>
    '(dir, h) <- find_direction n ccw m ghost h endpoint2 turns ;;
    right_vertex <- dest m h ;;
    left_vertex <- apex m h ;;
    if left_vertex =? endpoint2 then
      m <- set_marks INV m (prev h) (twin k) ;; Some (m, prev h, true)
    else if right_vertex =? endpoint2 then
      m <- set_marks INV m h k ;; Some (m, h, true)
    else
      match dir with
      | WITHIN => Some (m, h, false)
      | LEFTCOLLINEAR => m <- set_marks INV m (prev h) (twin k) ;; scout_segment INV n ccw m ghost (prev h) endpoint2 k turns f
      | RIGHTCOLLINEAR => m <- set_marks INV m h k ;; scout_segment INV n ccw m ghost (next h) endpoint2 k turns f
      end
  end.
