(** Model of the merging of two triangulations: src/triangle/triangle.rs
    [merge_hulls] (354-680).  Definitions only; the readers and writers of a triangle
    are those of Flip.v, [make_triangle] is that of DivConq.v.  [ccw] and [inc] are the
    signs of counterclockwise (326-334) and of incircle (337-352), [lt axis a b] tells
    whether coordinate [axis] of point [a] is below that of [b]; the code indexes out
    of range when one of them is given the ghost vertex [INV], the model does not.
    Each loop has its own fuel. *)
From Coq Require Import List Arith Bool ZArith.
From Verif Require Import Lib Flip DivConq.
Import ListNotations.
Local Open Scope opt_scope.

Section MergeHulls.
Context (INV : nat) (ccw : nat -> nat -> nat -> Z) (inc : nat -> nat -> nat -> nat -> Z) (lt : nat -> nat -> nat -> bool).

(** triangle.rs:379-384, 397-402 and 519-524 (with [prev] for [next]): follow the
    hull as long as the apex is further than the point. *)
Fixpoint shift_apex (turn : hedge -> hedge) (more : nat -> nat -> bool) (m : list triangle) (h : hedge) (pt ap fuel : nat) : option (hedge * nat * nat) :=
  match fuel with
  | 0 => None
  | S k =>
    if more ap pt then h <- sym m (turn h) ;; a <- apex m h ;; shift_apex turn more m h ap a k
    else Some (h, pt, ap)
  end.
(** triangle.rs:386-395, 404-411 and 508-518 (with [prev] for [next]): follow it the
    other way; [ap] is the point before [pt]. *)
Fixpoint shift_check (turn : hedge -> hedge) (more : nat -> nat -> bool) (m : list triangle) (h : hedge) (pt ap fuel : nat) : option (hedge * nat * nat) :=
  match fuel with
  | 0 => None
  | S k =>
    check <- sym m h ;;
    cv <- apex m check ;;
    if more cv pt then shift_check turn more m (turn check) cv pt k
    else Some (h, pt, ap)
  end.

(** triangle.rs:414-449; inner_left and inner_right with the points they end at *)
Fixpoint tangent (m : list triangle) (il : hedge) (ild ila : nat) (ir : hedge) (iro ira fuel : nat) : option (hedge * nat * hedge * nat) :=
  match fuel with
  | 0 => None
  | S k =>
    '(c1, il, ild, ila) <- (if (0 <? ccw ild ila iro)%Z then
        il <- sym m (prev il) ;; a <- apex m il ;; Some (true, il, ila, a)
      else Some (false, il, ild, ila)) ;;
    '(c2, ir, iro, ira) <- (if (0 <? ccw ira iro ild)%Z then
        ir <- sym m (next ir) ;; a <- apex m ir ;; Some (true, ir, ira, a)
      else Some (false, ir, iro, ira)) ;;
    if c1 || c2 then tangent m il ild ila ir iro ira k
    else Some (il, ild, ir, iro)
  end.

(** triangle.rs:532-591: [ne] is next_edge; the mesh, left_cand and upper_left *)
Fixpoint eat_left (ll lr : nat) (m : list triangle) (lc ne : hedge) (ul fuel : nat) : option (list triangle * hedge * nat) :=
  match fuel with
  | 0 => None
  | S k =>
    na <- apex m ne ;;
    if negb (na =? INV) && (0 <? inc ll lr ul na)%Z then
      let ne := next ne in
      top_casing <- sym m ne ;;
      let ne := next ne in
      side_casing <- sym m ne ;;
      m <- bond m ne top_casing ;;
      m <- bond m lc side_casing ;;
      let lc := next lc in
      outer_casing <- sym m lc ;;
      let ne := prev ne in
      m <- bond m ne outer_casing ;;
      m <- set_org m lc ll ;;
      m <- set_dest m lc INV ;;
      m <- set_apex m lc na ;;
      m <- set_org m ne INV ;;
      m <- set_dest m ne ul ;;
      m <- set_apex m ne na ;;
      eat_left ll lr m lc side_casing na k
    else Some (m, lc, ul)
  end.
(** triangle.rs:595-648 *)
Fixpoint eat_right (ll lr : nat) (m : list triangle) (rc ne : hedge) (ur fuel : nat) : option (list triangle * hedge * nat) :=
  match fuel with
  | 0 => None
  | S k =>
    na <- apex m ne ;;
    if negb (na =? INV) && (0 <? inc ll lr ur na)%Z then
      let ne := prev ne in
      top_casing <- sym m ne ;;
      let ne := prev ne in
      side_casing <- sym m ne ;;
      m <- bond m ne top_casing ;;
      m <- bond m rc side_casing ;;
      let rc := prev rc in
      outer_casing <- sym m rc ;;
      let ne := next ne in
      m <- bond m ne outer_casing ;;
      m <- set_org m rc INV ;;
      m <- set_dest m rc lr ;;
      m <- set_apex m rc na ;;
      m <- set_org m ne ur ;;
      m <- set_dest m ne INV ;;
      m <- set_apex m ne na ;;
      eat_right ll lr m rc side_casing na k
    else Some (m, rc, ur)
  end.

(** triangle.rs:483-679 without 503-525, which use the mesh this returns *)
Fixpoint knit (ef : nat) (m : list triangle) (base lc rc : hedge) (ll lr ul ur fuel : nat) : option (list triangle) :=
  match fuel with
  | 0 => None
  | S k =>
    let left_finished := (ccw ul ll lr <=? 0)%Z in
    let right_finished := (ccw ur ll lr <=? 0)%Z in
    if left_finished && right_finished then
      let (m, ne) := make_triangle INV m in
      m <- set_org m ne ll ;;
      m <- set_dest m ne lr ;;
      m <- bond m ne base ;;
      let ne := next ne in
      m <- bond m ne rc ;;
      let ne := next ne in
      bond m ne lc
    else
      '(m, lc, ul) <- (if left_finished then Some (m, lc, ul) else ne <- sym m (prev lc) ;; eat_left ll lr m lc ne ul ef) ;;
      '(m, rc, ur) <- (if right_finished then Some (m, rc, ur) else ne <- sym m (next rc) ;; eat_right ll lr m rc ne ur ef) ;;
      if left_finished || (negb right_finished && (0 <? inc ul ll lr ur)%Z) then
        m <- bond m base rc ;;
        let base := prev rc in
        m <- set_dest m base ll ;;
        let lr := ur in
        rc <- sym m base ;;
        ur <- apex m rc ;;
        knit ef m base lc rc ll lr ul ur k
      else
        m <- bond m base lc ;;
        let base := next lc in
        m <- set_org m base lr ;;
        let ll := ul in
        lc <- sym m base ;;
        ul <- apex m lc ;;
        knit ef m base lc rc ll lr ul ur k
  end.

(** triangle.rs:371-412: the four sides are moved to the ends of the other axis *)
Definition shift_ends (m : list triangle) (axis : nat) (fl il : hedge) (ild ila : nat) (ir : hedge) (iro ira : nat) (fr : hedge) (fuel : nat)
  : option (hedge * (hedge * nat * nat) * (hedge * nat * nat) * hedge) :=
  if axis =? 1 then
    flp <- org m fl ;;
    fla <- apex m fl ;;
    frp <- dest m fr ;;
    '(fl, _, _) <- shift_apex next (fun a p => lt 1 a p) m fl flp fla fuel ;;
    '(il, ild, ila) <- shift_check next (fun c p => lt 1 p c) m il ild ila fuel ;;
    '(ir, iro, ira) <- shift_apex next (fun a p => lt 1 a p) m ir iro ira fuel ;;
    '(fr, _, _) <- shift_check next (fun c p => lt 1 p c) m fr frp 0 fuel ;;
    Some (fl, (il, ild, ila), (ir, iro, ira), fr)
  else Some (fl, (il, ild, ila), (ir, iro, ira), fr).
(** triangle.rs:503-525: and back *)
Definition restore_ends (m : list triangle) (axis : nat) (fl fr : hedge) (fuel : nat) : option (hedge * hedge) :=
  if axis =? 1 then
    flp <- org m fl ;;
    frp <- dest m fr ;;
    fra <- apex m fr ;;
    '(fl, _, _) <- shift_check prev (fun c p => lt 0 c p) m fl flp 0 fuel ;;
    '(fr, _, _) <- shift_apex prev (fun a p => lt 0 p a) m fr frp fra fuel ;;
    Some (fl, fr)
  else Some (fl, fr).

(** triangle.rs:354-680; the mesh, far_left and far_right *)
Definition merge_hulls (fuel : nat) (m : list triangle) (axis : nat) (fl il ir fr : hedge) : option (list triangle * hedge * hedge) :=
  ild <- dest m il ;;
  ila <- apex m il ;;
  iro <- org m ir ;;
  ira <- apex m ir ;;
  '(fl, (il, ild, ila), (ir, iro, ira), fr) <- shift_ends m axis fl il ild ila ir iro ira fr fuel ;;
  '(il, ild, ir, iro) <- tangent m il ild ila ir iro ira fuel ;;
  lc <- sym m il ;;
  rc <- sym m ir ;;
  let (m, base) := make_triangle INV m in
  m <- bond m base il ;;
  let base := next base in
  m <- bond m base ir ;;
  let base := next base in
  m <- set_org m base iro ;;
  m <- set_dest m base ild ;;
  flp <- org m fl ;;
  let fl := if ild =? flp then next base else fl in
  frp <- dest m fr ;;
  let fr := if iro =? frp then prev base else fr in
  ul <- apex m lc ;;
  ur <- apex m rc ;;
  m <- knit fuel m base lc rc ild iro ul ur fuel ;;
  '(fl, fr) <- restore_ends m axis fl fr fuel ;;
  Some (m, fl, fr).
End MergeHulls.
