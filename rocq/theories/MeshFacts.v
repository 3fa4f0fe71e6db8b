(** Facts about cycles in vectors of ids and about the vector operations. *)
From Coq Require Import List Arith Bool Lia Permutation.
From Verif Require Import Lib Mesh MeshSpec.
Import ListNotations.
Local Open Scope opt_scope.

(** ** Vectors *)
Lemma rd_lt a i x : rd a i = Some x -> i < length a.
Proof.
  unfold rd; intros H. apply nth_error_Some. destruct (nth_error a i); congruence.
Qed.

Lemma rd_ge a i : length a <= i -> rd a i = None.
Proof. intros H. unfold rd. rewrite (proj2 (nth_error_None _ _) H). reflexivity. Qed.

Lemma rd_upd a i j x : rd (upd a i x) j = if (j =? i) && (i <? length a) then x else rd a j.
Proof.
  unfold rd. rewrite nth_error_upd. rewrite (Nat.eqb_sym j i).
  destruct ((i =? j) && (i <? length a)); auto. destruct x; reflexivity.
Qed.

Lemma set_spec (a : ids) i x : i < length a ->
  exists a', set a i x = Some a' /\ length a' = length a /\
             forall j, rd a' j = if j =? i then x else rd a j.
Proof.
  intros H. exists (upd a i x). unfold set. rewrite (proj2 (Nat.ltb_lt _ _) H).
  split; [reflexivity|]. split; [apply upd_length|]. intros j.
  rewrite rd_upd, (proj2 (Nat.ltb_lt _ _) H), andb_true_r. reflexivity.
Qed.

Lemma wr_spec (a : ids) i v : i < length a ->
  exists a', wr a i v = Some a' /\ length a' = length a /\
             forall j, rd a' j = if j =? i then Some v else rd a j.
Proof. apply set_spec. Qed.

Lemma resize_len a n : length a <= n -> length (resize a n) = n.
Proof. intros H. unfold resize. rewrite app_length, firstn_length, repeat_length. lia. Qed.

Lemma rd_resize a n j : length a <= n -> rd (resize a n) j = rd a j.
Proof.
  intros H. unfold resize. rewrite firstn_all2 by lia. unfold rd.
  destruct (Nat.lt_ge_cases j (length a)).
  - rewrite nth_error_app1 by lia. reflexivity.
  - rewrite nth_error_app2 by lia. rewrite (proj2 (nth_error_None a j)) by lia.
    destruct (nth_error (repeat None (n - length a)) (j - length a)) eqn:E; auto.
    apply nth_error_In in E. apply repeat_spec in E. subst. reflexivity.
Qed.

Definition inb (x : nat) (l : list nat) : bool := existsb (Nat.eqb x) l.
Lemma inb_In x l : inb x l = true <-> In x l.
Proof.
  unfold inb. rewrite existsb_exists. split.
  - intros (y & H & E). apply Nat.eqb_eq in E. now subst.
  - intros H. exists x. now rewrite Nat.eqb_refl.
Qed.
Lemma inb_nIn x l : inb x l = false <-> ~ In x l.
Proof. rewrite <- inb_In. destruct (inb x l); split; congruence. Qed.

Lemma writes_const (a : ids) l c : (forall i, In i l -> i < length a) ->
  exists a', writes a (map (fun h => (h, c)) l) = Some a' /\ length a' = length a /\
             forall j, rd a' j = if inb j l then Some c else rd a j.
Proof.
  revert a. induction l as [|i l IH]; intros a H; simpl.
  - exists a. repeat split; auto.
  - destruct (wr_spec a i c) as (a1 & E1 & L1 & R1). { apply H; now left. }
    rewrite E1. destruct (IH a1) as (a2 & E2 & L2 & R2).
    { intros j Hj. rewrite L1. apply H. now right. }
    exists a2. rewrite E2. split; [reflexivity|]. split; [congruence|].
    intros j. rewrite R2, R1. destruct (j =? i); simpl; [|reflexivity]. now destruct (inb j l).
Qed.

Lemma insert_spec (a : ids) s n : s < length a -> n < length a -> s <> n ->
  exists a', insert_halfedge a s n = Some a' /\ length a' = length a /\
             forall j, rd a' j = if j =? n then rd a s else if j =? s then Some n else rd a j.
Proof.
  intros Hs Hn D. unfold insert_halfedge.
  destruct (nth_error_ex a s Hs) as [x Ex]. rewrite Ex.
  destruct (wr_spec a s n Hs) as (a1 & E1 & L1 & R1). rewrite E1.
  destruct (set_spec a1 n x) as (a2 & E2 & L2 & R2); [lia|].
  exists a2. rewrite E2. split; [reflexivity|]. split; [lia|].
  intros j. rewrite R2, R1. destruct (j =? n); auto.
  unfold rd. rewrite Ex. destruct x; reflexivity.
Qed.

(** ** Paths and cycles *)
Lemma path_app f a t b t' z : path f a (t ++ b :: t') z <-> path f a t b /\ path f b t' z.
Proof.
  revert a. induction t as [|c t IH]; intros a; simpl; [tauto|]. rewrite IH. tauto.
Qed.

Lemma path_ext f g a t z : (forall x, x = a \/ In x t -> f x = g x) -> path f a t z -> path g a t z.
Proof.
  revert a. induction t as [|b t IH]; intros a H; simpl.
  - intros <-. symmetry. auto.
  - intros [E P]. rewrite <- E. split; [symmetry; auto|]. apply IH; auto.
    intros x [->|Hx]; apply H; simpl; auto.
Qed.

Lemma linked_ext f g l : (forall x, In x l -> f x = g x) -> linked f l -> linked g l.
Proof.
  destruct l as [|a t]; simpl; auto. intros H. apply path_ext. intros x [->|Hx]; auto.
Qed.

Lemma linked_rot f l1 l2 : linked f (l1 ++ l2) -> linked f (l2 ++ l1).
Proof.
  destruct l1 as [|a l1]; [now rewrite app_nil_r|].
  destruct l2 as [|b l2]; [now rewrite app_nil_r|].
  simpl. rewrite path_app. intros [H1 H2]. rewrite path_app. auto.
Qed.

Lemma linked_insert f g l1 s l2 n :
  linked f (l1 ++ s :: l2) -> NoDup (l1 ++ s :: l2) -> ~ In n (l1 ++ s :: l2) ->
  g s = Some n -> g n = f s -> (forall x, In x (l1 ++ s :: l2) -> x <> s -> g x = f x) ->
  linked g (l1 ++ s :: n :: l2).
Proof.
  intros H ND NI Gs Gn Ge. apply linked_rot in H. simpl in H.
  apply (linked_rot g (s :: n :: l2) l1). simpl.
  apply NoDup_remove_2 in ND.
  split; [assumption|]. 
  destruct (l2 ++ l1) as [|c t] eqn:E.
  - simpl in *. congruence.
  - simpl in *. split; [rewrite Gn; tauto|]. destruct H as [_ H]. revert H. apply path_ext.
    intros x Hx. symmetry. 
    assert (Hx' : In x (l2 ++ l1)) by (rewrite E; simpl; destruct Hx; auto).
    apply in_app_or in Hx'. apply Ge.
    + apply in_or_app. simpl. tauto.
    + intros ->. apply ND. apply in_or_app. tauto.
Qed.

Lemma cycle_ext f g (S T : nat -> Prop) l :
  (forall h, S h <-> T h) -> (forall h, S h -> f h = g h) -> cycle f S l -> cycle g T l.
Proof.
  intros H E (N & D & L & I). split; [assumption|]. split; [assumption|]. split.
  - revert L. apply linked_ext. intros x Hx. apply E, I, Hx.
  - intros h. rewrite I. apply H.
Qed.

Lemma NoDup_rot {A} (l1 l2 : list A) : NoDup (l1 ++ l2) -> NoDup (l2 ++ l1).
Proof. apply Permutation_NoDup, Permutation_app_comm. Qed.

(** A cycle may be read from any of its elements. *)
Lemma cycle_from f S l h : cycle f S l -> S h -> exists t, cycle f S (h :: t).
Proof.
  intros (N & D & L & I) Hh. apply I in Hh. destruct (in_split _ _ Hh) as (l1 & l2 & ->).
  exists (l2 ++ l1). split; [discriminate|]. split.
  - apply (NoDup_rot l1 (h :: l2)) in D. exact D.
  - split. + apply (linked_rot f l1 (h :: l2)) in L. exact L.
    + intros x. rewrite <- I. rewrite in_app_iff. simpl. rewrite in_app_iff. tauto.
Qed.

(** [circ] walks along a path. *)
Lemma circ_path a first t cur fuel :
  path (rd a) cur t first -> (forall x, In x t -> x <> first) -> length t < fuel ->
  circ a first cur fuel = Some (cur :: t).
Proof.
  revert cur fuel. induction t as [|b t IH]; intros cur fuel P NI Hf; destruct fuel; simpl in *; try lia.
  - rewrite P, Nat.eqb_refl. reflexivity.
  - destruct P as [-> P]. assert (b <> first) by auto.
    rewrite (proj2 (Nat.eqb_neq _ _) H). rewrite IH; auto; lia.
Qed.

Lemma NoDup_bound (l : list nat) n : NoDup l -> (forall x, In x l -> x < n) -> length l <= n.
Proof.
  intros D H. rewrite <- (seq_length n 0). apply NoDup_incl_length; auto.
  intros x Hx. apply in_seq. specialize (H x Hx). lia.
Qed.

Lemma path_lt a cur t z : path (rd a) cur t z -> forall x, x = cur \/ In x t -> x < length a.
Proof.
  revert cur. induction t as [|b t IH]; simpl; intros cur P x Hx.
  - destruct Hx as [->|[]]. eapply rd_lt; eauto.
  - destruct P as [E P]. destruct Hx as [->|[->|Hx]]; [eapply rd_lt; eauto| |]; eapply IH; eauto.
Qed.

Lemma linked_lt a l : linked (rd a) l -> forall x, In x l -> x < length a.
Proof.
  destruct l as [|b t]; simpl; [tauto|]. intros P x Hx. eapply path_lt; eauto. firstorder.
Qed.

Lemma circulate_linked a h t : NoDup (h :: t) -> linked (rd a) (h :: t) ->
  circulate a h = Some (h :: t).
Proof.
  intros D L. unfold circulate. pose proof (linked_lt _ _ L) as B. simpl in L.
  apply circ_path; auto.
  - inversion_clear D as [|? ? N _]. intros x Hx ->. contradiction.
  - pose proof (NoDup_bound _ _ D B) as K. simpl in K. lia.
Qed.

Lemma prev_path a hid t cur z fuel :
  path (rd a) cur (t ++ [z]) hid -> (forall x, In x (t ++ [z]) -> x <> hid) ->
  S (length t) < fuel -> prev_loop a hid cur fuel = Some z.
Proof.
  revert cur fuel. induction t as [|b t IH]; intros cur fuel P NI Hf; destruct fuel; simpl in *; try lia.
  - destruct P as [-> P]. rewrite (proj2 (Nat.eqb_neq z hid)) by auto.
    destruct fuel; [lia|]. simpl. rewrite P, Nat.eqb_refl. reflexivity.
  - destruct P as [-> P]. rewrite (proj2 (Nat.eqb_neq b hid)) by auto. apply IH; auto. lia.
Qed.

Lemma last_ex {A} (l : list A) : l <> [] -> exists l' z, l = l' ++ [z].
Proof. intros H. destruct (exists_last H) as (l' & z & ->). eauto. Qed.

Lemma prev_linked a h t : NoDup (h :: t) -> linked (rd a) (h :: t) ->
  exists p, prev_loop a h h (length a) = Some p /\ rd a p = Some h /\ In p (h :: t).
Proof.
  intros D L. pose proof (linked_lt _ _ L) as B. pose proof (NoDup_bound _ _ D B) as K. simpl in K.
  destruct t as [|b t].
  - exists h. simpl in L. destruct (length a) eqn:E; [lia|]. simpl. rewrite L, Nat.eqb_refl. auto.
  - destruct (last_ex (b :: t)) as (t' & z & E); [discriminate|]. rewrite E in *.
    exists z. simpl in L. split; [|split].
    + apply prev_path with (t := t'); auto.
      * inversion_clear D as [|? ? N _]. intros x Hx ->. contradiction.
      * rewrite app_length in K. simpl in K. lia.
    + rewrite path_app in L. apply L.
    + right. apply in_or_app. right. now left.
Qed.

(** Two elements with the same successor on a cycle are equal. *)
Lemma path_unique f a t z t' : path f a t z -> path f a t' z ->
  ~ In z t -> ~ In z t' -> t = t'.
Proof.
  revert a t'. induction t as [|b t IH]; intros a t' P P' N N'; destruct t' as [|b' t']; simpl in *; auto.
  - destruct P' as [E _]. exfalso. apply N'. left. congruence.
  - destruct P as [E _]. exfalso. apply N. left. congruence.
  - destruct P as [E P], P' as [E' P']. assert (b = b') by congruence. subst b'.
    f_equal. eapply IH; eauto.
Qed.

(** ** [windows] *)
Lemma windows_writes_aux (t : list nat) : forall (a : ids) x z,
  (forall i, In i (x :: t) -> i < length a) -> NoDup (x :: t) ->
  exists a', writes a (combine (x :: t) (t ++ [z])) = Some a' /\ length a' = length a /\
    path (rd a') x t z /\ forall j, ~ In j (x :: t) -> rd a' j = rd a j.
Proof.
  induction t as [|y t IH]; intros a x z B D.
  - simpl. destruct (wr_spec a x z) as (a1 & E1 & L1 & R1); [apply B; now left|].
    rewrite E1. exists a1. repeat split; auto.
    + rewrite R1, Nat.eqb_refl. reflexivity.
    + intros j Hj. rewrite R1. rewrite (proj2 (Nat.eqb_neq j x)); auto.
  - change (combine (x :: y :: t) ((y :: t) ++ [z])) with ((x, y) :: combine (y :: t) (t ++ [z])).
    cbn [writes]. destruct (wr_spec a x y) as (a1 & E1 & L1 & R1); [apply B; now left|].
    rewrite E1. inversion_clear D as [|? ? N D'].
    destruct (IH a1 y z) as (a2 & E2 & L2 & P2 & R2); auto.
    { intros i Hi. rewrite L1. apply B. now right. }
    exists a2. split; [assumption|]. split; [lia|]. split.
    + simpl. split; auto. rewrite R2 by exact N. rewrite R1, Nat.eqb_refl. reflexivity.
    + intros j Hj. rewrite R2 by (intros C; apply Hj; now right).
      rewrite R1. rewrite (proj2 (Nat.eqb_neq j x)); auto. intros ->. apply Hj. now left.
Qed.

Lemma windows_writes (a : ids) l : (forall i, In i l -> i < length a) -> NoDup l ->
  exists a', writes a (windows l) = Some a' /\ length a' = length a /\ linked (rd a') l /\
    forall j, ~ In j l -> rd a' j = rd a j.
Proof.
  destruct l as [|x t]; intros B D.
  - exists a. simpl. auto.
  - apply (windows_writes_aux t a x x B D).
Qed.

Lemma omap_total {A B} (f : A -> option B) l :
  (forall x, In x l -> exists y, f x = Some y) -> exists r, omap f l = Some r.
Proof.
  induction l as [|a l IH]; simpl; intros H; eauto.
  destruct (H a) as [b ->]; auto. destruct IH as [r ->]; eauto.
Qed.

Lemma omap_app {A B} (f : A -> option B) l1 l2 :
  omap f (l1 ++ l2) = (a <- omap f l1 ;; b <- omap f l2 ;; Some (a ++ b)).
Proof.
  induction l1 as [|x l1 IH]; simpl.
  - destruct (omap f l2); reflexivity.
  - destruct (f x); auto. rewrite IH. destruct (omap f l1); auto. destruct (omap f l2); auto.
Qed.

Lemma omap_ext {A B} (f g : A -> option B) l :
  (forall x, In x l -> f x = g x) -> omap f l = omap g l.
Proof.
  induction l as [|a l IH]; simpl; intros H; auto. rewrite H by auto. rewrite IH; auto.
Qed.

Lemma omap_map {A B} (f : A -> option B) (g : A -> B) l :
  (forall x, In x l -> f x = Some (g x)) -> omap f l = Some (map g l).
Proof.
  induction l as [|a l IH]; simpl; intros H; auto. rewrite H by auto. rewrite IH; auto.
Qed.

(** ** Partition into cycles: every class of [c] is one cycle of [f]. *)
Definition parts (f c : nat -> option nat) : Prop :=
  forall h v, c h = Some v -> exists l, cycle f (fun x => c x = Some v) l.

Lemma parts_ext f g c d : (forall x, c x = d x) -> (forall x, c x <> None -> f x = g x) ->
  parts f c -> parts g d.
Proof.
  intros E F P h v H. destruct (P h v) as [l L]; [now rewrite E|]. exists l.
  revert L. apply cycle_ext; intros x; [now rewrite E|]. intros Hx. apply F. congruence.
Qed.

Lemma cycle_insert f g S l s n :
  cycle f S l -> S s -> ~ S n -> g s = Some n -> g n = f s ->
  (forall x, S x -> x <> s -> g x = f x) ->
  exists l', cycle g (fun x => S x \/ x = n) l'.
Proof.
  intros (N & D & L & I) Hs Hn Gs Gn Ge. apply I in Hs. destruct (in_split _ _ Hs) as (l1 & l2 & ->).
  exists (l1 ++ s :: n :: l2). assert (NI : ~ In n (l1 ++ s :: l2)) by (rewrite I; assumption).
  split; [destruct l1; discriminate|]. split; [|split].
  - replace (l1 ++ s :: n :: l2) with ((l1 ++ [s]) ++ n :: l2) by (rewrite <- app_assoc; reflexivity).
    apply NoDup_Add with (a := n) (l := l1 ++ s :: l2).
    + replace (l1 ++ s :: l2) with ((l1 ++ [s]) ++ l2) by (rewrite <- app_assoc; reflexivity).
      apply Add_app.
    + auto.
  - eapply linked_insert; eauto. intros x Hx. apply Ge, I, Hx.
  - intros x. rewrite <- I. rewrite !in_app_iff. simpl. intuition.
Qed.

Lemma parts_insert f g c s n :
  parts f c -> c s <> None -> c n = None -> g s = Some n -> g n = f s ->
  (forall x, x <> s -> x <> n -> g x = f x) ->
  parts g (fun x => if x =? n then c s else c x).
Proof.
  intros P Hs Hn Gs Gn Ge h v H.
  assert (Hsn : s <> n) by congruence.
  destruct (c s) as [w|] eqn:Es; [|congruence].
  destruct (Nat.eq_dec v w) as [->|Hv].
  - destruct (P s w Es) as [l L].
    destruct (cycle_insert f g _ l s n L Es) as [l' L']; auto; [congruence|intros; apply Ge; congruence|].
    exists l'. revert L'. apply cycle_ext; [|reflexivity]. intros x. simpl.
    destruct (Nat.eqb_spec x n) as [->|]; intuition congruence.
  - destruct (Nat.eqb_spec h n) as [->|Hh]; [congruence|].
    destruct (P h v H) as [l L]. exists l. revert L. apply cycle_ext.
    + intros x. destruct (Nat.eqb_spec x n) as [->|]; [|tauto]. split; congruence.
    + intros x Hx. symmetry. apply Ge; congruence.
Qed.

(** ** Iterations of [insert_halfedge] *)
Lemma insert_all_parts os : forall (a : ids) ns c,
  length ns = length os -> parts (rd a) c ->
  (forall o, In o os -> c o <> None) -> (forall n, In n ns -> n < length a /\ c n = None) ->
  NoDup ns ->
  exists a', insert_all a (combine os ns) = Some a' /\ length a' = length a /\
    parts (rd a') (fun x => match find (fun p => snd p =? x) (combine os ns) with
                            | Some p => c (fst p) | None => c x end) /\
    (forall x, ~ In x os -> ~ In x ns -> rd a' x = rd a x).
Proof.
  induction os as [|o os IH]; intros a ns c Hl P Ho Hn D; destruct ns as [|n ns]; try discriminate.
  - exists a. simpl. repeat split; auto.
  - simpl. inversion_clear D as [|? ? N D'].
    assert (Co : c o <> None) by (apply Ho; now left).
    destruct (Hn n) as [Ln Cn]; [now left|].
    assert (Lo : o < length a).
    { destruct (c o) as [v|] eqn:E; [|congruence]. destruct (P o v E) as (l & _ & _ & L & I).
      eapply linked_lt; eauto. apply I. assumption. }
    destruct (insert_spec a o n) as (a1 & E1 & L1 & R1); auto; [congruence|]. rewrite E1.
    destruct (IH a1 ns (fun x => if x =? n then c o else c x)) as (a2 & E2 & L2 & P2 & R2).
    + simpl in Hl. lia.
    + eapply parts_insert with (f := rd a); eauto.
      * rewrite R1. rewrite Nat.eqb_refl. destruct (Nat.eqb_spec o n); [congruence|reflexivity].
      * rewrite R1, Nat.eqb_refl. reflexivity.
      * intros x H1 H2. rewrite R1. rewrite (proj2 (Nat.eqb_neq _ _) H1), (proj2 (Nat.eqb_neq _ _) H2).
        reflexivity.
    + intros o' Ho'. destruct (o' =? n); auto. apply Ho. now right.
    + intros n' Hn'. rewrite L1. destruct (Hn n') as [? ?]; [now right|]. split; auto.
      destruct (Nat.eqb_spec n' n); [subst; contradiction|]. assumption.
    + exact D'.
    + exists a2. split; [assumption|]. split; [lia|]. split.
      * revert P2. apply parts_ext; [|reflexivity]. intros x.
        rewrite (Nat.eqb_sym n x).
        destruct (find (fun p => snd p =? x) (combine os ns)) as [p|] eqn:F.
        -- apply find_some in F. destruct F as [F1 F2]. apply Nat.eqb_eq in F2.
           destruct p as [po pn]. simpl in *. subst pn.
           pose proof (in_combine_r _ _ _ _ F1).
           destruct (Nat.eqb_spec x n); [subst; contradiction|].
           destruct (Nat.eqb_spec po n); auto. subst po.
           (* an old index cannot be the new one *)
           exfalso. apply in_combine_l in F1. apply (Ho n); [now right|assumption].
        -- destruct (x =? n); reflexivity.
      * intros x H1 H2. rewrite R2 by tauto. rewrite R1.
        rewrite (proj2 (Nat.eqb_neq x n)), (proj2 (Nat.eqb_neq x o)); auto.
Qed.
