(** The output of complex_partition (C76). *)
From Coq Require Import List Arith Bool ZArith Lia.
From Verif Require Import Lib Emit EmitSpec EmitProofs.
Import ListNotations.

(** * C76: the vertices and triangles of the output *)

(** If no comparison of areas fails (there is no NaN), every face has a loop, the
    vertices exist and triangulate returns indices of its points, then the output is
    made without a panic.  The points are those of the vertices of all loops, each
    once, in the order of their first use, and the triangles, read as
    vertices, are those of the faces one after the other. *)
Theorem C76_output {A} (N : num A) tri ex fs : ordered N -> (forall pts segs i, In i (tri pts segs) -> i < length pts) ->
  (forall ls axis, In (ls, axis) fs -> ls <> [] /\ forall l v, In l ls -> In v l -> v < length ex) ->
  let ids := firsts [] (concat (concat (map fst fs))) in
  NoDup ids /\ (forall v, In v ids <-> exists ls axis l, In (ls, axis) fs /\ In l ls /\ In v l) /\
  exists outs ts outl, emit N tri ex fs = Some (outs, ts) /\
    Forall2 (fun v p => nth_error ex v = Some p) ids outs /\
    Forall2 (fun f out => shape N tri ex (fst f) (snd f) out) fs outl /\
    Forall2 (fun k v => nth_error ids k = Some v) ts (concat outl).
Proof.
  intros O T B. cbn zeta. split; [apply firsts_nodup; constructor|]. split.
  - intros v. rewrite firsts_in. split.
    + intros [[]|H]. apply in_concat in H as (l & H & Hv). apply in_concat in H as (ls & H & Hl). apply in_map_iff in H as ((ls', a) & E & H). cbn in E. subst. eauto 6.
    + intros (ls & a & l & H & Hl & Hv). right. apply in_concat. exists l. split; auto. apply in_concat. exists ls. split; auto. apply in_map_iff. exists (ls, a). auto.
  - unfold emit. apply faces_ok; auto. assert (R : forall n v k, nth_error (repeat (@None nat) n) v = Some (Some k) -> False).
    { intros n v k H. apply nth_error_In, repeat_spec in H. discriminate. }
    split; cbn [o2n outp lvi p2d fnv app]; try apply repeat_length; try constructor.
    + intros H. destruct (R _ _ _ H).
    + destruct k; discriminate.
    + intros H. destruct (R _ _ _ H).
    + intros (j & _ & H). destruct j; discriminate.
Qed.

(** The mirrored points have the opposite area, where the numbers allow it: after
    the exchange the chosen loop is not turned the wrong way. *)
Theorem C76_mirror {A} (N : num A) (neg : A -> A) : (forall a b, n_sub N b a = neg (n_sub N a b)) -> (forall a b, n_mul N a b = n_mul N b a) ->
  (forall a b, n_add N (neg a) (neg b) = neg (n_add N a b)) -> neg (n_zero N) = n_zero N ->
  forall pts poly a, poly_area N pts poly = Some a -> poly_area N (map swap2 pts) poly = Some (neg a).
Proof.
  intros S M P Z pts poly a. unfold poly_area.
  assert (Q : forall poly, poly_terms N (map swap2 pts) poly = option_map (map neg) (poly_terms N pts poly)).
  { induction poly0 as [|(i, j) t IH]; cbn [poly_terms]; auto. rewrite !nth_error_map, IH. destruct (nth_error pts i) as [(x, y)|]; cbn; auto.
    destruct (nth_error pts j) as [(x', y')|]; cbn; auto. destruct (poly_terms N pts t); cbn; auto. do 2 f_equal. now rewrite (S (n_mul N x y') (n_mul N y x')). }
  rewrite Q. destruct (poly_terms N pts poly) as [l|]; cbn; [|discriminate]. intros E. injection E as <-. f_equal.
  assert (G : forall z, fold_left (n_add N) (map neg l) (neg z) = neg (fold_left (n_add N) l z)).
  { induction l as [|b l IH]; intros z; cbn; auto. now rewrite P, IH. }
  rewrite <- G, Z. reflexivity.
Qed.

(** * Integers *)
Definition z_num : num Z := Num Z 0%Z Z.add Z.sub Z.mul Z.abs (fun a b => Some (a ?= b)%Z).
Example z_ordered : ordered z_num.
Proof.
  split; [discriminate|]. split; [intros a; cbn; rewrite Z.compare_refl; discriminate|]. split; cbn.
  - intros a b H Q. apply H. f_equal. injection Q as Q. now rewrite Z.compare_antisym, Q.
  - intros a b c H1 H2 Q. injection Q as Q. change (c < a)%Z in Q.
    assert (P1 : ~ (b < a)%Z) by (intros X; apply H1; now rewrite X). assert (P2 : ~ (c < b)%Z) by (intros X; apply H2; now rewrite X). lia.
Qed.
(** A fan about the first point, as far as the points go. *)
Definition fan (pts : list (Z * Z)) (segs : list (nat * nat)) : list nat := concat (map (fun i => [0; i; S i]) (seq 1 (length pts - 2))).
Example fan_bound : forall pts segs i, In i (fan pts segs) -> i < length pts.
Proof.
  intros pts segs i H. apply in_concat in H as (l & H & Hi). apply in_map_iff in H as (j & <- & Hj). apply in_seq in Hj. cbn in Hi. destruct Hi as [<-|[<-|[<-|[]]]]; lia.
Qed.
Definition pts5 : list (Z * Z * Z) := [(0, 0, 0); (4, 0, 0); (4, 4, 0); (0, 4, 0); (0, 0, 9)]%Z.
(** A square turned the wrong way, and a triangle that shares an edge with it. *)
Example C76_case : exists outs, emit z_num fan pts5 [([[3; 2; 1; 0]], 2); ([[0; 1; 4]], 1)] = Some (outs, [0; 1; 2; 0; 2; 3; 3; 2; 4]) /\
  outs = [(0, 4, 0); (4, 4, 0); (4, 0, 0); (0, 0, 0); (0, 0, 9)]%Z.
Proof. eexists. split; vm_compute; reflexivity. Qed.
Example C76_mirror_case : poly_area z_num [(0, 4); (4, 4); (4, 0); (0, 0)]%Z [(0, 1); (1, 2); (2, 3); (3, 0)] = Some (-32)%Z.
Proof. reflexivity. Qed.

(** * Loops that share a vertex *)

(** One would expect every point of a face to be given to triangulate once.  It is
    so if the loops have no vertex in common, but a vertex of two loops is given twice. *)
Theorem C76_once ls : (forall i j l l' v, nth_error ls i = Some l -> nth_error ls j = Some l' -> In v l -> In v l' -> i = j) -> NoDup (locals ls).
Proof.
  unfold locals. induction ls as [|l ls IH]; intros H; cbn [map concat]; [constructor|].
  assert (D : forall v, In v (firsts [] l) -> ~ In v (concat (map (firsts []) ls))).
  { intros v Hv Hc. apply in_concat in Hc as (f & Hf & Hv'). apply in_map_iff in Hf as (l' & <- & Hl'). apply firsts_in in Hv as [[]|Hv]. apply firsts_in in Hv' as [[]|Hv'].
    apply In_nth_error in Hl' as (j & Hj). specialize (H 0 (S j) l l' v eq_refl Hj Hv Hv'). discriminate. }
  assert (N1 : NoDup (firsts [] l)) by (apply firsts_nodup; constructor).
  assert (N2 : NoDup (concat (map (firsts []) ls))). { apply IH. intros i j a b v Ha Hb Va Vb. specialize (H (S i) (S j) a b v Ha Hb Va Vb). lia. }
  clear -D N1 N2. induction (firsts [] l) as [|a f IHf]; cbn; auto. inversion N1; subst. constructor.
  - rewrite in_app_iff. intros [?|?]; [contradiction|]. apply (D a); [now left|auto].
  - apply IHf; auto. intros v Hv. apply D. now right.
Qed.
Theorem C76_once_refuted : exists s segs, emit_loops pts5 2 (Emitted (repeat None 5) [] (repeat None 5) [] []) [[0; 1; 2]; [2; 3; 0]] = Some (s, segs) /\
  nth_error (p2d s) 0 = nth_error (p2d s) 5 /\ nth_error (p2d s) 0 <> None /\ nth_error (fnv s) 0 = nth_error (fnv s) 5 /\ segs = [(0, 1); (1, 2); (2, 0); (3, 4); (4, 5); (5, 3)].
Proof. eexists. eexists. split; [vm_compute; reflexivity|]. repeat split; try reflexivity. discriminate. Qed.

Print Assumptions C76_output.
Print Assumptions C76_mirror.
Print Assumptions C76_once.
Print Assumptions C76_once_refuted.
