(** C31-C33: the dispatch of the public predicates on argument kinds.
    "Sound kernels" means: every kernel returns the sign of the exact
    determinant of its arguments taken in the order in which it receives
    them.  The theorems say what the public functions then return. *)
From Coq Require Import Reals Lra ZArith List.
From Verif Require Import Lib Geo Dispatch Orient.
Import ListNotations.
Local Open Scope R_scope.

Section Dispatch.
Context {E L T : Type}.
(** The exact point each kind of argument denotes, and which arguments denote
    one (a line/plane intersection needs a non-zero denominator). *)
Context (semE : E -> vec3) (semL : L -> vec3) (semT : T -> vec3).
Context (okE : E -> Prop) (okL : L -> Prop) (okT : T -> Prop).

Definition sem (p : point3d E L T) : vec3 :=
  match p with Explicit e => semE e | LPI l => semL l | TPI t => semT t end.
Definition ok (p : point3d E L T) : Prop :=
  match p with Explicit e => okE e | LPI l => okL l | TPI t => okT t end.

(** The exact value whose sign [orient3d] reports: minus the Shewchuk
    determinant. *)
Definition o3 (a b c d : vec3) : R := - orient3 a b c d.

Definition sound4 {A B C D} (f : A -> B -> C -> D -> res)
    (sa : A -> vec3) (sb : B -> vec3) (sc : C -> vec3) (sd : D -> vec3)
    (ka : A -> Prop) (kb : B -> Prop) (kc : C -> Prop) (kd : D -> Prop) : Prop :=
  forall a b c d, ka a -> kb b -> kc c -> kd d ->
  f a b c d = Some (ori_of (o3 (sa a) (sb b) (sc c) (sd d))).

Record sound_kernels3 (k : kernels3 E L T) : Prop := {
  s3_eeee : sound4 (o3_eeee k) semE semE semE semE okE okE okE okE;
  s3_leee : sound4 (o3_leee k) semL semE semE semE okL okE okE okE;
  s3_teee : sound4 (o3_teee k) semT semE semE semE okT okE okE okE;
  s3_llee : sound4 (o3_llee k) semL semL semE semE okL okL okE okE;
  s3_ltee : sound4 (o3_ltee k) semL semT semE semE okL okT okE okE;
  s3_ttee : sound4 (o3_ttee k) semT semT semE semE okT okT okE okE;
  s3_llle : sound4 (o3_llle k) semL semL semL semE okL okL okL okE;
  s3_llte : sound4 (o3_llte k) semL semL semT semE okL okL okT okE;
  s3_ltte : sound4 (o3_ltte k) semL semT semT semE okL okT okT okE;
  s3_ttte : sound4 (o3_ttte k) semT semT semT semE okT okT okT okE;
  s3_llll : sound4 (o3_llll k) semL semL semL semL okL okL okL okL;
  s3_lllt : sound4 (o3_lllt k) semL semL semL semT okL okL okL okT;
  s3_lltt : sound4 (o3_lltt k) semL semL semT semT okL okL okT okT;
  s3_lttt : sound4 (o3_lttt k) semL semT semT semT okL okT okT okT;
  s3_tttt : sound4 (o3_tttt k) semT semT semT semT okT okT okT okT }.

Theorem orient3d_dispatch k :
  sound_kernels3 k ->
  forall pa pb pc pd, ok pa -> ok pb -> ok pc -> ok pd ->
  orient3d k pa pb pc pd = Some (ori_of (o3 (sem pa) (sem pb) (sem pc) (sem pd))).
Proof.
  intros S pa pb pc pd Ha Hb Hc Hd.
  assert (X : forall (r : res) x y, r = Some (ori_of x) -> x = y -> r = Some (ori_of y))
    by (intros; congruence).
  destruct S.
  destruct pa, pb, pc, pd; simpl in *;
  (eapply X;
   [ match goal with
     | H : sound4 (?f k) _ _ _ _ _ _ _ _ |- ?f k _ _ _ _ = _ => apply H; assumption
     end
   | unfold o3, orient3, det3, dot, cross, vsub; simpl; ring ]).
Qed.

(** Planar predicates: the two coordinates left when an axis is dropped, in
    the cyclic order the code uses. *)
Definition proj (axis : nat) (v : vec3) : R * R :=
  match axis with
  | 0 => (vy v, vz v)
  | 1 => (vz v, vx v)
  | _ => (vx v, vy v)
  end.

Definition o2 (axis : nat) (a b c : vec3) : R :=
  orient2 (fst (proj axis a)) (snd (proj axis a))
          (fst (proj axis b)) (snd (proj axis b))
          (fst (proj axis c)) (snd (proj axis c)).

Definition sound3 {A B C} (axis : nat) (f : A -> B -> C -> res)
    (sa : A -> vec3) (sb : B -> vec3) (sc : C -> vec3)
    (ka : A -> Prop) (kb : B -> Prop) (kc : C -> Prop) : Prop :=
  forall a b c, ka a -> kb b -> kc c ->
  f a b c = Some (ori_of (o2 axis (sa a) (sb b) (sc c))).

Record sound_kernels2 (axis : nat) (k : kernels2 E L T) : Prop := {
  s2_eee : sound3 axis (o2_eee k) semE semE semE okE okE okE;
  s2_lee : sound3 axis (o2_lee k) semL semE semE okL okE okE;
  s2_tee : sound3 axis (o2_tee k) semT semE semE okT okE okE;
  s2_lle : sound3 axis (o2_lle k) semL semL semE okL okL okE;
  s2_lte : sound3 axis (o2_lte k) semL semT semE okL okT okE;
  s2_tte : sound3 axis (o2_tte k) semT semT semE okT okT okE;
  s2_lll : sound3 axis (o2_lll k) semL semL semL okL okL okL;
  s2_llt : sound3 axis (o2_llt k) semL semL semT okL okL okT;
  s2_ltt : sound3 axis (o2_ltt k) semL semT semT okL okT okT;
  s2_ttt : sound3 axis (o2_ttt k) semT semT semT okT okT okT }.

Lemma o2_rot axis a b c : o2 axis b c a = o2 axis a b c.
Proof. unfold o2, orient2. ring. Qed.
Lemma o2_rot' axis a b c : o2 axis c a b = o2 axis a b c.
Proof. unfold o2, orient2. ring. Qed.
Lemma o2_swap12 axis a b c : sign_reverse (ori_of (o2 axis b a c)) = ori_of (o2 axis a b c).
Proof. rewrite <- ori_opp. f_equal. unfold o2, orient2. ring. Qed.
Lemma o2_swap23 axis a b c : sign_reverse (ori_of (o2 axis a c b)) = ori_of (o2 axis a b c).
Proof. rewrite <- ori_opp. f_equal. unfold o2, orient2. ring. Qed.
Lemma o2_swap13 axis a b c : sign_reverse (ori_of (o2 axis c b a)) = ori_of (o2 axis a b c).
Proof. rewrite <- ori_opp. f_equal. unfold o2, orient2. ring. Qed.

Ltac dispatch2 k :=
  match goal with
  | H : sound3 _ ?f _ _ _ _ _ _ |- context [?f ?a ?b ?c] =>
      rewrite (H a b c) by assumption
  end; simpl option_map;
  first [ reflexivity | rewrite o2_rot; reflexivity | rewrite o2_rot'; reflexivity
        | rewrite o2_swap12; reflexivity | rewrite o2_swap23; reflexivity
        | rewrite o2_swap13; reflexivity ].

Theorem orient2d_dispatch k axis :
  (forall a, (a <= 2)%nat -> sound_kernels2 a (k a)) ->
  forall pa pb pc, ok pa -> ok pb -> ok pc ->
  orient2d_by_axis k pa pb pc axis = Some (ori_of (o2 axis (sem pa) (sem pb) (sem pc))).
Proof.
  intros HS pa pb pc Ha Hb Hc.
  assert (E2 : forall a b c, o2 axis a b c = o2 (Nat.min axis 2) a b c).
  { intros. destruct axis as [|[|[|]]]; reflexivity. }
  rewrite E2. clear E2.
  destruct axis as [|[|axis]]; simpl orient2d_by_axis; simpl Nat.min;
  [ destruct (HS 0%nat ltac:(auto)) | destruct (HS 1%nat ltac:(auto)) |
    replace (S (S (Nat.min axis 0))) with 2%nat by (destruct axis; reflexivity);
    destruct (HS 2%nat ltac:(auto)) ];
  destruct pa, pb, pc; simpl in *;
  cbv delta [orient2d_lee_xy orient2d_tee_xy orient2d_lle_xy orient2d_lte_xy orient2d_tte_xy
    orient2d_lll_xy orient2d_llt_xy orient2d_ltt_xy orient2d_ttt_xy
    orient2d_lee_zx orient2d_tee_zx orient2d_lle_zx orient2d_lte_zx orient2d_tte_zx
    orient2d_lll_zx orient2d_llt_zx orient2d_ltt_zx orient2d_ttt_zx
    orient2d_lee_yz orient2d_tee_yz orient2d_lle_yz orient2d_lte_yz orient2d_tte_yz
    orient2d_lll_yz orient2d_llt_yz orient2d_ltt_yz orient2d_ttt_yz] beta;
  dispatch2 k.
Qed.


(** ** Coordinate comparison (C33) *)
Definition coord (axis : nat) (v : vec3) : R :=
  match axis with 0 => vx v | 1 => vy v | _ => vz v end.

Definition sound2 {A B} (axis : nat) (f : A -> B -> res) (sa : A -> vec3) (sb : B -> vec3)
    (ka : A -> Prop) (kb : B -> Prop) : Prop :=
  forall a b, ka a -> kb b ->
  f a b = Some (ori_of (coord axis (sa a) - coord axis (sb b))).

Record sound_kernels1 (axis : nat) (k : kernels1 E L T) : Prop := {
  s1_ee : sound2 axis (lt_ee k) semE semE okE okE;
  s1_le : sound2 axis (lt_le k) semL semE okL okE;
  s1_te : sound2 axis (lt_te k) semT semE okT okE;
  s1_ll : sound2 axis (lt_ll k) semL semL okL okL;
  s1_lt : sound2 axis (lt_lt k) semL semT okL okT;
  s1_tt : sound2 axis (lt_tt k) semT semT okT okT }.

(** The public comparison on the axis 0, 1 or 2. *)
Definition less_than_axis (axis : nat) (k : nat -> kernels1 E L T) pa pb : res :=
  match axis with
  | 0 => less_than_on_x k pa pb
  | 1 => less_than_on_y k pa pb
  | _ => less_than_on_z k pa pb
  end.

(** Argument kinds for which the code exchanges the arguments. *)
Definition exchanged (pa pb : point3d E L T) : bool :=
  match pa, pb with
  | Explicit _, LPI _ | Explicit _, TPI _ | TPI _, LPI _ => true
  | _, _ => false
  end.

Theorem less_than_dispatch k axis :
  (axis <= 2)%nat ->
  (forall a, sound_kernels1 a (k a)) ->
  forall pa pb, ok pa -> ok pb ->
  less_than_axis axis k pa pb =
  Some (let o := ori_of (coord axis (sem pa) - coord axis (sem pb)) in
        if exchanged pa pb then sign_reverse o else o).
Proof.
  intros Hax HS pa pb Ha Hb. cbv zeta.
  assert (R1 : forall x y, ori_of (x - y) = sign_reverse (ori_of (y - x))).
  { intros. rewrite <- ori_opp. f_equal. ring. }
  destruct axis as [|[|[|axis]]]; [ destruct (HS 0%nat) | destruct (HS 1%nat) | destruct (HS 2%nat)|exfalso; clear -Hax; inversion Hax as [|? H]; inversion H as [|? H1]; inversion H1];
  destruct pa, pb; simpl in *; rewrite <- ?R1;
  match goal with
  | H : sound2 _ ?f _ _ _ _ |- ?g ?a ?b = _ => apply (H a b); assumption
  end.
Qed.

(** What the name promises, on the argument kinds that are not exchanged. *)
Theorem less_than_partial k axis :
  (axis <= 2)%nat ->
  (forall a, sound_kernels1 a (k a)) ->
  forall pa pb, ok pa -> ok pb -> exchanged pa pb = false ->
  less_than_axis axis k pa pb = Some (ori_of (coord axis (sem pa) - coord axis (sem pb))).
Proof. intros. rewrite less_than_dispatch by assumption. rewrite H3. reflexivity. Qed.

(** ... and the exchanged kinds get the opposite answer, for every pair of
    points with different coordinates. *)
Theorem less_than_refuted k axis :
  (axis <= 2)%nat ->
  (forall a, sound_kernels1 a (k a)) ->
  forall pa pb, ok pa -> ok pb -> exchanged pa pb = true ->
  coord axis (sem pa) <> coord axis (sem pb) ->
  less_than_axis axis k pa pb <> Some (ori_of (coord axis (sem pa) - coord axis (sem pb))).
Proof.
  intros. rewrite less_than_dispatch by assumption. rewrite H3. cbv zeta.
  unfold ori_of. destruct total_order_T as [[|]|]; simpl; try congruence.
  exfalso. lra.
Qed.

End Dispatch.

(** Non-vacuity of the soundness hypotheses: [exact_kernels3_sound],
    [exact_kernels2_sound] and [exact_kernels1_sound] in Prop_ExactStage.v
    prove them of the code's own exact stages, with concrete points there. *)
Print Assumptions orient3d_dispatch.
Print Assumptions orient2d_dispatch.
Print Assumptions less_than_dispatch.
Print Assumptions less_than_partial.
Print Assumptions less_than_refuted.
