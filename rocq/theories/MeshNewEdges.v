(** SurfaceMesh::new, second pass: edges and sibling cycles. *)
From Coq Require Import List Arith Bool Lia Permutation.
From Verif Require Import Lib Mesh MeshSpec MeshFacts MeshProofs MeshAddFace MeshSplitFace MeshNewFaces.
Import ListNotations.
Local Open Scope opt_scope.

Lemma key_eqb_spec a b : reflect (a = b) (key_eqb a b).
Proof.
  destruct a as [a1 a2], b as [b1 b2]. unfold key_eqb. simpl.
  destruct (Nat.eqb_spec a1 b1), (Nat.eqb_spec a2 b2); constructor; congruence.
Qed.
Lemma key_eqb_refl a : key_eqb a a = true.
Proof. destruct (key_eqb_spec a a); congruence. Qed.

Definition kk (w : nat * nat) : nat * nat := key_of (fst w) (snd w).

Lemma h_get_in hist k h : NoDup (map fst hist) -> (h_get hist k = Some h <-> In (k, h) hist).
Proof.
  unfold h_get. induction hist as [|[k' h'] t IH]; simpl; intros D.
  - split; [discriminate|intros []].
  - inversion D; subst. destruct (key_eqb_spec k' k) as [->|Hn].
    + split; [intros [= ->]; auto|]. intros [[= ->]|I]; auto. exfalso. apply H1. apply (in_map fst) in I. exact I.
    + rewrite (IH H2). split; auto. intros [[= ? ?]|I]; [congruence|auto].
Qed.

Lemma h_put_keys hist k v : map fst (h_put hist k v) = map fst hist.
Proof.
  unfold h_put. rewrite map_map. apply map_ext. intros [k' h']. simpl. destruct (key_eqb k' k); reflexivity.
Qed.

Lemma h_put_get hist k v k' : h_get hist k <> None ->
  h_get (h_put hist k v) k' = if key_eqb k k' then Some v else h_get hist k'.
Proof.
  unfold h_get, h_put. induction hist as [|[k1 h1] t IH]; simpl; [congruence|].
  destruct (key_eqb_spec k1 k) as [->|Hn].
  - intros _. simpl. destruct (key_eqb_spec k k') as [->|H'].
    + reflexivity.
    + assert (Q : forall t : history, find (fun p => key_eqb (fst p) k') (map (fun p => if key_eqb (fst p) k then (fst p, v) else p) t)
         = find (fun p => key_eqb (fst p) k') t).
      { clear t IH. induction t as [|[k2 h2] t IH]; simpl; auto.
        destruct (key_eqb_spec k2 k) as [->|]; simpl.
        - destruct (key_eqb_spec k k'); [congruence|]. exact IH.
        - destruct (key_eqb_spec k2 k'); auto. }
      rewrite Q. reflexivity.
  - intros H. simpl. destruct (key_eqb_spec k1 k') as [->|H'].
    + destruct (key_eqb_spec k k'); [congruence|]. reflexivity.
    + apply IH. exact H.
Qed.

Section Keys.
Variable K : nat -> nat * nat.

(** The halfedges below [j] with key [k], the latest first. *)
Fixpoint grp (k : nat * nat) (j : nat) : list nat :=
  match j with 0 => [] | S i => if key_eqb (K i) k then i :: grp k i else grp k i end.

Lemma grp_in k j h : In h (grp k j) <-> h < j /\ K h = k.
Proof.
  induction j as [|j IH]; simpl; [split; [intros []|lia]|].
  destruct (key_eqb_spec (K j) k) as [E|E]; simpl; rewrite IH.
  - split; [intros [<-|[? ?]]; auto with arith|]. intros [H1 H2]. destruct (Nat.eq_dec j h); auto. right. split; auto. lia.
  - split; [intros [? ?]; auto|]. intros [H1 H2]. split; auto. destruct (Nat.eq_dec j h); [congruence|lia].
Qed.

Lemma grp_NoDup k j : NoDup (grp k j).
Proof.
  induction j as [|j IH]; simpl; [constructor|]. destruct (key_eqb (K j) k); auto. constructor; auto.
  rewrite grp_in. lia.
Qed.

Fixpoint chain (f : nat -> option nat) (l : list nat) : Prop :=
  match l with
  | [] => True
  | a :: t => f a = hd_error t /\ chain f t
  end.

Lemma chain_ext f g l : (forall x, In x l -> f x = g x) -> chain f l -> chain g l.
Proof.
  induction l as [|a t IH]; simpl; auto. intros H [E C]. split; [rewrite <- H; auto|]. apply IH; auto.
Qed.

Record einv (N j : nat) (s he eh : ids) (ne : nat) (hist : history) : Prop := EI {
  ei_len : length s = N /\ length he = N /\ length eh = ne;
  ei_keys : NoDup (map fst hist);
  ei_hist : forall k, h_get hist k = hd_error (grp k j);
  ei_edge : forall h, h < j -> exists e, e < ne /\ rd he h = Some e;
  ei_same : forall h1 h2, h1 < j -> h2 < j -> (rd he h1 = rd he h2 <-> K h1 = K h2);
  ei_rep : forall e, e < ne -> exists h, h < j /\ rd eh e = Some h /\ rd he h = Some e;
  ei_chain : forall k, chain (rd s) (grp k j);
  ei_none : forall h, j <= h -> rd s h = None }.

Lemma build_edges_ok ws : forall m hist j N,
  einv N j (sib m) (he_edge m) (e_he m) (n_e m) hist -> j + length ws <= N ->
  (forall i w, nth_error ws i = Some w -> K (j + i) = kk w) ->
  exists s he eh ne hist', build_edges m hist j ws =
      Some (Mesh (v_he m) (he_next m) (he_vert m) (f_he m) (n_v m) (n_h m) (n_f m) ne he (he_face m) (in_next m) (out_next m) s eh, hist') /\
    einv N (j + length ws) s he eh ne hist'.
Proof.
  induction ws as [|[tl tp] ws IH]; intros m hist j N I B HK.
  - exists (sib m), (he_edge m), (e_he m), (n_e m), hist. simpl. rewrite Nat.add_0_r. split; [|exact I].
    destruct m; reflexivity.
  - destruct I as [(L1 & L2 & L3) I2 I3 I4 I5 I6 I7 I8]. simpl length in B.
    assert (Kj : K j = key_of tl tp) by (specialize (HK 0 _ eq_refl); rewrite Nat.add_0_r in HK; exact HK).
    cbn [build_edges]. rewrite (I3 (key_of tl tp)).
    assert (HK' : forall i w, nth_error ws i = Some w -> K (S j + i) = kk w).
    { intros i w H. specialize (HK (S i) w H). rewrite <- HK. f_equal. lia. }
    replace (j + length ((tl, tp) :: ws)) with (S j + length ws) by (simpl; lia).
    destruct (hd_error (grp (key_of tl tp) j)) as [prev|] eqn:G.
    + assert (IP : In prev (grp (key_of tl tp) j)) by (destruct (grp (key_of tl tp) j); [discriminate|]; inversion G; now left).
      apply grp_in in IP. destruct IP as [Bp Kp].
      destruct (wr_spec (sib m) j prev) as (s & E1 & Ls & Rs); [lia|]. rewrite E1. app_simpl.
      destruct (I4 prev Bp) as (e & Be & Ee). rewrite Ee.
      destruct (wr_spec (he_edge m) j e) as (he & E2 & Lh & Rh); [lia|]. rewrite E2.
      set (m1 := set_he_edge (set_sib m s) he).
      assert (I' : einv N (S j) (sib m1) (he_edge m1) (e_he m1) (n_e m1) (h_put hist (key_of tl tp) j)).
      { unfold m1. set_simpl. constructor; auto.
        - lia.
        - rewrite h_put_keys. auto.
        - intros k. rewrite h_put_get by (rewrite I3, G; discriminate). simpl. rewrite Kj.
          destruct (key_eqb_spec (key_of tl tp) k); auto.
        - intros h Hh. rewrite Rh. destruct (Nat.eqb_spec h j); [eauto|]. apply I4. lia.
        - intros h1 h2 H1 H2. rewrite !Rh. destruct (Nat.eqb_spec h1 j) as [->|N1], (Nat.eqb_spec h2 j) as [->|N2].
          + tauto.
          + rewrite Kj, <- Kp, <- Ee. apply I5; lia.
          + rewrite Kj, <- Kp, <- Ee. apply I5; lia.
          + apply I5; lia.
        - intros e' He'. destruct (I6 e' He') as (h & H1 & H2 & H3). exists h. split; [lia|]. split; auto.
          rewrite Rh. rewrite (proj2 (Nat.eqb_neq h j)) by lia. auto.
        - intros k. simpl. rewrite Kj. assert (C : chain (rd s) (grp k j)).
          { generalize (I7 k). apply chain_ext. intros x Hx. apply grp_in in Hx. rewrite Rs.
            rewrite (proj2 (Nat.eqb_neq x j)) by lia. reflexivity. }
          destruct (key_eqb_spec (key_of tl tp) k) as [<-|]; auto. simpl. split; auto. rewrite Rs, Nat.eqb_refl. auto.
        - intros h Hh. rewrite Rs. rewrite (proj2 (Nat.eqb_neq h j)) by lia. apply I8. lia. }
      destruct (IH m1 _ (S j) N I' ltac:(lia) HK') as (s' & he' & eh' & ne' & hist' & E' & J). exists s', he', eh', ne', hist'. split; [|exact J]. 
      rewrite E'. reflexivity.
    + assert (NG : forall h, h < j -> K h <> key_of tl tp).
      { intros h Hh Q. assert (In h (grp (key_of tl tp) j)) by (apply grp_in; auto).
        destruct (grp (key_of tl tp) j); [contradiction|discriminate]. }
      unfold new_edges. app_simpl. rewrite L3.
      destruct (wr_spec (he_edge m) j (n_e m)) as (he & E1 & Lh & Rh); [lia|]. rewrite E1. app_simpl.
      destruct (set_spec (sib m) j None) as (s & E2 & Ls & Rs); [lia|]. rewrite E2. app_simpl.
      destruct (wr_spec (resize (e_he m) (n_e m + 1)) (n_e m) j) as (eh & E3 & Le & Re); [rewrite resize_len; lia|].
      rewrite E3. rewrite resize_len in Le by lia.
      match goal with |- context [build_edges ?M _ _ _] => set (m1 := M) end.
      assert (I' : einv N (S j) (sib m1) (he_edge m1) (e_he m1) (n_e m1) ((key_of tl tp, j) :: hist)).
      { unfold m1. set_simpl. constructor; auto.
        - lia.
        - simpl. constructor; auto. intros C. apply in_map_iff in C. destruct C as ([k h] & C1 & C2). simpl in C1. subst k.
          apply h_get_in in C2; auto. rewrite I3 in C2. congruence.
        - intros k. unfold h_get. simpl. rewrite Kj. destruct (key_eqb_spec (key_of tl tp) k); auto. apply I3.
        - intros h Hh. rewrite Rh. destruct (Nat.eqb_spec h j); [exists (n_e m); split; [lia|auto]|].
          destruct (I4 h) as (e & ? & ?); [lia|]. exists e. split; [lia|auto].
        - intros h1 h2 H1 H2. rewrite !Rh.
          assert (Q : forall h, h < j -> rd (he_edge m) h <> Some (n_e m)).
          { intros h Hh C. destruct (I4 h Hh) as (e & ? & ?). assert (e = n_e m) by congruence. lia. }
          destruct (Nat.eqb_spec h1 j) as [->|N1], (Nat.eqb_spec h2 j) as [->|N2].
          + tauto.
          + rewrite Kj. split; intros C; [destruct (Q h2); auto; lia|destruct (NG h2); auto; lia].
          + rewrite Kj. split; intros C; [destruct (Q h1); auto; lia|destruct (NG h1); auto; lia].
          + apply I5; lia.
        - intros e' He'. rewrite Re. destruct (Nat.eqb_spec e' (n_e m)) as [->|Hn].
          + exists j. split; [lia|]. split; auto. rewrite Rh, Nat.eqb_refl. reflexivity.
          + destruct (I6 e') as (h & H1 & H2 & H3); [lia|]. exists h. split; [lia|]. rewrite rd_resize by lia. split; auto.
            rewrite Rh. rewrite (proj2 (Nat.eqb_neq h j)) by lia. auto.
        - intros k. simpl. rewrite Kj. assert (C : chain (rd s) (grp k j)).
          { generalize (I7 k). apply chain_ext. intros x Hx. apply grp_in in Hx. rewrite Rs.
            rewrite (proj2 (Nat.eqb_neq x j)) by lia. reflexivity. }
          destruct (key_eqb_spec (key_of tl tp) k) as [<-|]; auto. simpl. split; auto. rewrite Rs, Nat.eqb_refl. auto.
        - intros h Hh. rewrite Rs. destruct (Nat.eqb_spec h j); auto. apply I8. lia. }
      destruct (IH m1 _ (S j) N I' ltac:(lia) HK') as (s' & he' & eh' & ne' & hist' & E' & J). exists s', he', eh', ne', hist'. split; [|exact J].
      rewrite E'. reflexivity.
Qed.

(** * Closing the cycles *)
Lemma back_ok s : forall t a fuel, chain (rd s) (a :: t) -> (forall x, In x (a :: t) -> x < length s) ->
  length t < fuel -> exists z, back_to_first s a fuel = Some z /\ rd s z = None /\
  exists t', a :: t = t' ++ [z] .
Proof.
  induction t as [|b t IH]; intros a fuel [E C] B F; destruct fuel; simpl in F; try lia; cbn [back_to_first].
  - simpl in E. unfold rd in E. assert (Ba := B a (or_introl eq_refl)). apply nth_error_Some in Ba.
    destruct (nth_error s a) as [[x|]|] eqn:Q; try congruence. exists a. unfold rd. rewrite Q. split; auto. split; auto. exists []. reflexivity.
  - simpl in E. unfold rd in E at 1. destruct (nth_error s a) as [[x|]|]; try discriminate. inversion E; subst x.
    destruct (IH b fuel C) as (z & H1 & H2 & t' & H3); [intros x Hx; apply B; now right|lia|].
    exists z. split; auto. split; auto. exists (a :: t'). rewrite H3. reflexivity.
Qed.

Lemma chain_path f a t' z : chain f (a :: t' ++ [z]) -> path f a t' z.
Proof. revert a. induction t' as [|b t IH]; intros a [E C]; simpl in *; auto. Qed.

Lemma close_ok n ks : forall s,
  NoDup (map fst ks) -> (forall k h, In (k, h) ks -> hd_error (grp k n) = Some h) ->
  (forall k h, In (k, h) ks -> chain (rd s) (grp k n)) -> n <= length s ->
  exists s', close_siblings s (map snd ks) = Some s' /\ length s' = length s /\
    (forall k h, In (k, h) ks -> linked (rd s') (grp k n)) /\
    (forall x, ~ In (K x) (map fst ks) -> rd s' x = rd s x).
Proof.
  induction ks as [|[k h] ks IH]; intros s D H C L.
  - exists s. simpl. split; [auto|]. split; [auto|]. split; [intros ? ? []|auto].
  - simpl in D. inversion D as [|? ? Nk D']; subst. cbn [map snd close_siblings].
    assert (Hk := H k h (or_introl eq_refl)). assert (Ck := C k h (or_introl eq_refl)).
    remember (grp k n) as g eqn:G. destruct g as [|a t]; [discriminate|]. simpl in Hk. inversion Hk; subst a.
    assert (Bg : forall x, In x (h :: t) -> x < n /\ K x = k) by (intros x; rewrite G; apply grp_in).
    assert (Dg : NoDup (h :: t)) by (rewrite G; apply grp_NoDup).
    assert (Bl : forall x, In x (h :: t) -> x < length s) by (intros x Hx; apply Bg in Hx; lia).
    assert (Q : exists s1, (x <- nth_error s h ;; match x with None => wr s h h | Some _ => c <- back_to_first s h (length s) ;; wr s c h end) = Some s1 /\
       length s1 = length s /\ linked (rd s1) (h :: t) /\ forall x, ~ In x (h :: t) -> rd s1 x = rd s x).
    { pose proof (Bl h (or_introl eq_refl)) as Bh. destruct Ck as [E Ck]. 
      destruct (nth_error s h) as [[x|]|] eqn:Qh; [| |apply nth_error_None in Qh; lia].
      - assert (Lt : length t < length s).
        { pose proof (NoDup_bound _ _ Dg Bl). simpl in *. lia. }
        destruct (back_ok s t h (length s)) as (z & E1 & E2 & t' & E3); auto. { split; auto. }
        rewrite E1. destruct t' as [|a t']; simpl in E3; inversion E3; subst.
        { unfold rd in E2. rewrite Qh in E2. discriminate. }
        assert (Iz : In z (a :: t' ++ [z])) by (right; apply in_app_iff; right; now left).
        destruct (wr_spec s z a) as (s1 & W1 & W2 & W3); [apply Bl; auto|]. exists s1. split; auto. split; auto. split.
        + simpl. apply path_app. inversion Dg as [|? ? Na Dt]; subst.
          assert (Nz : ~ In z t') by (apply NoDup_remove_2 in Dt; rewrite app_nil_r in Dt; exact Dt).
          split; [|simpl; rewrite W3, Nat.eqb_refl; reflexivity].
          apply (path_ext (rd s)); [|apply chain_path; split; auto].
          intros y [->|Hx]; rewrite W3; rewrite (proj2 (Nat.eqb_neq _ _)); auto; intros ->; auto.
          apply Na. apply in_app_iff. right. now left.
        + intros y Hy. rewrite W3. rewrite (proj2 (Nat.eqb_neq y z)); auto. intros ->. contradiction.
      - destruct (wr_spec s h h) as (s1 & W1 & W2 & W3); auto. exists s1. split; auto. split; auto.
        unfold rd in E. rewrite Qh in E. destruct t as [|b t]; [|discriminate]. split.
        + simpl. rewrite W3, Nat.eqb_refl. reflexivity.
        + intros x Hx. rewrite W3. rewrite (proj2 (Nat.eqb_neq x h)); auto. intros ->. apply Hx. now left. }
    destruct Q as (s1 & E1 & L1 & K1 & R1).
    assert (NK : forall x, K x <> k -> rd s1 x = rd s x).
    { intros x Hx. apply R1. intros I. apply Bg in I. tauto. }
    destruct (IH s1) as (s2 & E2 & L2 & K2 & R2); auto.
    { intros k' h' I. apply H. now right. }
    { intros k' h' I. assert (k' <> k) by (intros ->; apply Nk; apply (in_map fst) in I; exact I).
      generalize (C k' h' (or_intror I)). apply chain_ext. intros x Hx. apply grp_in in Hx. symmetry. apply NK. destruct Hx. congruence. }
    { lia. }
    exists s2. split; [|split; [|split]].
    + destruct (nth_error s h) as [x|]; [|discriminate]. rewrite E1. exact E2.
    + lia.
    + intros k' h' [[= <- <-]|I]; [|apply (K2 k' h' I)]. rewrite <- G. revert K1. apply linked_ext.
      intros x Hx. symmetry. apply R2. apply Bg in Hx. destruct Hx as [_ ->]. exact Nk.
    + intros x Hx. simpl in Hx. rewrite R2 by tauto. apply NK. intros Q. apply Hx. now left.
Qed.

(** The sibling cycles after the second pass. *)
Lemma siblings_ok N s he eh ne hist order :
  einv N N s he eh ne hist -> Permutation (map snd hist) (order (map snd hist)) ->
  exists s', close_siblings s (order (map snd hist)) = Some s' /\ length s' = N /\
    forall h, h < N -> linked (rd s') (grp (K h) N).
Proof.
  intros [(L1 & L2 & L3) I2 I3 I4 I5 I6 I7 I8] P.
  destruct (Permutation_map_inv _ _ (Permutation_sym P)) as (hist' & E & P').
  assert (HI : forall k h, In (k, h) hist' <-> hd_error (grp k N) = Some h).
  { intros k h. rewrite <- I3, h_get_in by auto. split; apply Permutation_in; [|exact P']. now apply Permutation_sym. }
  destruct (close_ok N hist' s) as (s' & E' & L' & K' & _).
  - eapply Permutation_NoDup; [|exact I2]. apply Permutation_map. exact P'.
  - intros k h. apply HI.
  - auto.
  - lia.
  - exists s'. rewrite E. split; auto. split; [lia|]. intros h Hh.
    destruct (hd_error (grp (K h) N)) as [h'|] eqn:Q.
    + apply (K' (K h) h'). apply HI. exact Q.
    + destruct (grp (K h) N); [exact I|discriminate].
Qed.
End Keys.
