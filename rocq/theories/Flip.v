(** Model of the half-edge primitives and of [flip] of
    src/triangle/triangle.rs (148-190, 212-320, 936-949, 988-1048).
    Definitions only.  A triangle is its six numbers [data] (three corners,
    three segment marks) and its three neighbours; indexing out of range is
    [None].  The coordinates play no part. *)
From Coq Require Import List Arith Bool.
From Verif Require Import Lib.
Import ListNotations.
Local Open Scope opt_scope.

(** triangle.rs:148 HEdge *)
Definition hedge : Type := nat * nat.
Definition he_eqb (a b : hedge) : bool := (fst a =? fst b) && (snd a =? snd b).
(** triangle.rs:163 Triangle *)
Record triangle : Type := mk_tri { data : list nat; nei : list hedge }.

Definition get_data (m : list triangle) (t i : nat) : option nat := tr <- nth_error m t ;; nth_error (data tr) i.
Definition put_data (m : list triangle) (t i v : nat) : option (list triangle) :=
  tr <- nth_error m t ;; d <- set (data tr) i v ;; set m t (mk_tri d (nei tr)).
Definition put_nei (m : list triangle) (h g : hedge) : option (list triangle) :=
  tr <- nth_error m (fst h) ;; d <- set (nei tr) (snd h) g ;; set m (fst h) (mk_tri (data tr) d).

(** triangle.rs:296-320 *)
Definition next (h : hedge) : hedge := (fst h, (snd h + 1) mod 3).
Definition prev (h : hedge) : hedge := (fst h, (snd h + 2) mod 3).
(** triangle.rs:302 *)
Definition sym (m : list triangle) (h : hedge) : option hedge := tr <- nth_error m (fst h) ;; nth_error (nei tr) (snd h).
(** triangle.rs:242-255 *)
Definition org (m : list triangle) (h : hedge) : option nat := get_data m (fst h) ((snd h + 1) mod 3).
Definition dest (m : list triangle) (h : hedge) : option nat := get_data m (fst h) ((snd h + 2) mod 3).
Definition apex (m : list triangle) (h : hedge) : option nat := get_data m (fst h) (snd h).
(** triangle.rs:220-234 *)
Definition set_org (m : list triangle) (h : hedge) (v : nat) := put_data m (fst h) ((snd h + 1) mod 3) v.
Definition set_dest (m : list triangle) (h : hedge) (v : nat) := put_data m (fst h) ((snd h + 2) mod 3) v.
Definition set_apex (m : list triangle) (h : hedge) (v : nat) := put_data m (fst h) (snd h) v.
(** triangle.rs:236 *)
Definition bond (m : list triangle) (h1 h2 : hedge) : option (list triangle) := m <- put_nei m h1 h2 ;; put_nei m h2 h1.
(** triangle.rs:936-949, with [reverse = false] in [set_mark] *)
Definition mark (m : list triangle) (h : hedge) : option nat := get_data m (fst h) (snd h + 3).
Definition set_mark (m : list triangle) (h : hedge) (v : nat) := put_data m (fst h) (snd h + 3) v.
(** triangle.rs:1019-1030: replace the entry of [v] when it is [a] or [b]. *)
Definition redirect (vm : list hedge) (v : nat) (a b new : hedge) : option (list hedge) :=
  g <- nth_error vm v ;; if he_eqb g a || he_eqb g b then set vm v new else Some vm.

(** triangle.rs:988-1048 *)
Definition flip (m : list triangle) (e : hedge) (vm : list hedge) : option (list triangle * list hedge) :=
  right_vertex <- org m e ;;
  left_vertex <- dest m e ;;
  bot_vertex <- apex m e ;;
  top <- sym m e ;;
  far_vertex <- apex m top ;;
  let top_left := prev top in
  topl_casing <- sym m top_left ;;
  let top_right := next top in
  topr_casing <- sym m top_right ;;
  let bot_left := next e in
  botl_casing <- sym m bot_left ;;
  let bot_right := prev e in
  botr_casing <- sym m bot_right ;;
  m <- bond m top_left botl_casing ;;
  m <- bond m bot_left botr_casing ;;
  m <- bond m bot_right topr_casing ;;
  m <- bond m top_right topl_casing ;;
  tl_mark <- mark m top_left ;;
  tr_mark <- mark m top_right ;;
  bl_mark <- mark m bot_left ;;
  br_mark <- mark m bot_right ;;
  vm <- redirect vm right_vertex e top_right bot_right ;;
  vm <- redirect vm left_vertex top bot_left top_left ;;
  vm <- redirect vm bot_vertex bot_right bot_right bot_left ;;
  vm <- redirect vm far_vertex top_left top_left top_right ;;
  m <- set_mark m top_right tl_mark ;;
  m <- set_mark m bot_right tr_mark ;;
  m <- set_mark m top_left bl_mark ;;
  m <- set_mark m bot_left br_mark ;;
  m <- set_org m e far_vertex ;;
  m <- set_dest m e bot_vertex ;;
  m <- set_apex m e right_vertex ;;
  m <- set_org m top bot_vertex ;;
  m <- set_dest m top far_vertex ;;
  m <- set_apex m top left_vertex ;;
  Some (m, vm).
