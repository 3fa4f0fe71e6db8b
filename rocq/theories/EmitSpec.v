(** Specification vocabulary for the output of complex_partition. *)
From Coq Require Import List Arith Bool.
From Verif Require Import Emit.
Import ListNotations.

(** The elements of a list in the order of their first occurrence, behind [seen]. *)
Fixpoint firsts (seen l : list nat) : list nat :=
  match l with [] => seen | v :: t => firsts (if existsb (Nat.eqb v) seen then seen else seen ++ [v]) t end.
(** Each element with the next one, the last with the first. *)
Definition turns (l : list nat) : list (nat * nat) := match l with [] => [] | a :: t => combine (a :: t) (t ++ [a]) end.

Section Spec.
Context {A : Type} (N : num A) (tri : list (A * A) -> list (nat * nat) -> list nat) (ex : list (A * A * A)).

(** The vertices of the local points of a face: those of each loop, each once. *)
Definition locals (ls : list (list nat)) : list nat := concat (map (firsts []) ls).
Definition flat (axis v : nat) (q : A * A) : Prop := exists p, nth_error ex v = Some p /\ q = project_point p axis.
Definition doubled (p q : A * A) : A := n_sub N (n_mul N (fst p) (snd q)) (n_mul N (snd p) (fst q)).
(** [a] is the doubled area of the loop [l] in the plane across [axis]. *)
Definition area_of (axis : nat) (l : list nat) (a : A) : Prop :=
  exists ts, Forall2 (fun vw t => exists p q, flat axis (fst vw) p /\ flat axis (snd vw) q /\ t = doubled p q) (turns l) ts /\ a = fold_left (n_add N) ts (n_zero N).
(** What the face is, as vertices: a loop of three vertices as it is; else the
    triangles of its points and segments, the points mirrored if a loop of largest
    area has a negative one. *)
Definition shape (ls : list (list nat)) (axis : nat) (out : list nat) : Prop :=
  match ls with [l] => length l = 3 | _ => False end /\ out = locals ls \/
  ~ match ls with [l] => length l = 3 | _ => False end /\
  exists pts segs l a areas, Forall2 (flat axis) (locals ls) pts /\
    (** the segments join the vertices of the loops *)
    Forall2 (fun s vw => nth_error (locals ls) (fst s) = Some (fst vw) /\ nth_error (locals ls) (snd s) = Some (snd vw)) segs (concat (map turns ls)) /\
    Forall2 (area_of axis) ls areas /\ (exists i, nth_error ls i = Some l /\ nth_error areas i = Some a) /\
    (forall b, In b areas -> n_cmp N (n_abs N a) (n_abs N b) <> Some Lt) /\
    Forall2 (fun i v => nth_error (locals ls) i = Some v)
      (tri (if match n_cmp N a (n_zero N) with Some Lt => true | _ => false end then map (fun p => (snd p, fst p)) pts else pts) segs) out.
End Spec.
(** partial_cmp is that of a total order on the numbers that occur. *)
Definition ordered {A} (N : num A) : Prop := (forall a b, n_cmp N a b <> None) /\
  (forall a, n_cmp N a a <> Some Lt) /\ (forall a b, n_cmp N a b <> Some Gt -> n_cmp N b a <> Some Lt) /\
  (forall a b c, n_cmp N b a <> Some Lt -> n_cmp N c b <> Some Lt -> n_cmp N c a <> Some Lt).
