(** Facts about triangle_at_tet. *)
From Coq Require Import List Arith Bool ZArith NArith Lia.
From Verif Require Import Lib Geo Tet TetSpec TetProofs TetFace.
Import ListNotations.

Section Face.
  Variable m : tetmesh.
  Hypothesis L : linked m.
  Hypothesis C : consistent m.

  Definition valid (f : triface) : Prop := exists t, tet f = Some t /\ t < length (tets m) /\ ver f < 12.

  Lemma corners_exist f : valid f -> exists a b c d, corners m f a b c d.
  Proof.
    intros (t & E & Lt & V). destruct f as [ft v]. cbn in *. subst.
    destruct (nth_error (tets m) t) as [x|] eqn:Ex; [|apply nth_error_None in Ex; lia].
    destruct (L _ _ Ex) as (Ld & _). destruct (data x) as [|p0 [|p1 [|p2 [|p3 [|? ?]]]]] eqn:D; cbn in Ld; try lia.
    assert (G : forall i, i < 4 -> exists y, nth_error (data x) i = Some y)
      by (intros i Hi; rewrite D; do 4 (destruct i as [|i]; [eexists; reflexivity|]); lia).
    assert (B : nth v ORG_PIVOT 0 < 4 /\ nth v DEST_PIVOT 0 < 4 /\ nth v APEX_PIVOT 0 < 4 /\ nth v OPPO_PIVOT 0 < 4)
      by (clear -V; versions v; cbn; lia).
    destruct B as (B1 & B2 & B3 & B4).
    destruct (G _ B1) as (a & A1), (G _ B2) as (b & A2), (G _ B3) as (c & A3), (G _ B4) as (d & A4).
    exists a, b, c, d. rewrite (corners_data m t v x) by exact Ex. auto.
  Qed.
  Lemma corners_fun f a b c d a' b' c' d' : corners m f a b c d -> corners m f a' b' c' d' -> a = a' /\ b = b' /\ c = c' /\ d = d'.
  Proof. intros (A & B & D & E) (A' & B' & D' & E'). repeat split; congruence. Qed.
  Lemma corners_valid f a b c d : corners m f a b c d -> valid f.
  Proof.
    intros H. pose proof (corners_ver _ _ _ _ _ _ H). destruct (corners_tet _ _ _ _ _ _ H) as (t & x & E & Ex).
    exists t. repeat split; auto. apply nth_error_Some. congruence.
  Qed.

  (** Same tetrahedron, origin and destination: same version. *)
  Lemma corners_inj t v w a b c d c' d' :
    corners m (TF (Some t) v) a b c d -> corners m (TF (Some t) w) a b c' d' -> v = w.
  Proof.
    intros H1 H2. destruct (corners_tet _ _ _ _ _ _ H1) as (t' & x & E & Ex). cbn in E. inversion E; subst t'.
    rewrite (corners_data m t _ x) in H1 by exact Ex. rewrite (corners_data m t _ x) in H2 by exact Ex. destruct H1 as (V & A & B & _), H2 as (W & A' & B' & _).
    destruct (L _ _ Ex) as (_ & _ & ND & _).
    pose proof (nth_error_NoDup (data x) _ _ _ ND A A') as E1. pose proof (nth_error_NoDup (data x) _ _ _ ND B B') as E2.
    clear -V W E1 E2.
    assert (G : forallb (fun v => forallb (fun w => implb ((nth v ORG_PIVOT 0 =? nth w ORG_PIVOT 0) && (nth v DEST_PIVOT 0 =? nth w DEST_PIVOT 0)) (v =? w))
       (seq 0 12)) (seq 0 12) = true) by (vm_compute; reflexivity).
    rewrite forallb_forall in G. specialize (G v (proj2 (in_seq 12 0 v) (conj (Nat.le_0_l v) V))).
    rewrite forallb_forall in G. specialize (G w (proj2 (in_seq 12 0 w) (conj (Nat.le_0_l w) W))).
    rewrite E1, E2, !Nat.eqb_refl in G. now apply Nat.eqb_eq.
  Qed.

  (** What fnext does in a consistent mesh. *)
  Lemma esym_esym f g : esym f = Some g -> esym g = Some f.
  Proof.
    unfold esym, by_table. intros H. destruct (look ESYM_TBL (ver f)) eqn:E; [|discriminate]. inversion H; subst. cbn [tet ver].
    pose proof (look_lt _ _ _ E) as V. cbn in V. destruct f as [t v]. cbn [tet ver] in *. clear H.
    versions v; cbn in E; inversion E; subst; reflexivity.
  Qed.
  Lemma fsym_ver f g : valid f -> fsym m f = Some g -> valid g /\ fsym m g = Some f.
  Proof.
    intros V H. destruct (corners_exist f V) as (a & b & c & d & K). destruct V as (t & E & Lt & V).
    destruct f as [ft v]. cbn in *. subst. destruct (C t v a b c d Lt V K) as (u & w & e & F & Lu & W & F' & K').
    rewrite F in H. inversion H; subst. split; auto. eapply corners_valid; eauto.
  Qed.
  Lemma nei_ver f k g : valid f -> nei_at m (tet f) k = Some g -> ver g < 12.
  Proof.
    intros (t & E & Lt & V) H. destruct (nth_error (tets m) t) as [x|] eqn:Ex; [|apply nth_error_None in Ex; lia].
    destruct (L _ _ Ex) as (_ & Ln & _). rewrite E in H.
    assert (K : k < 4) by (rewrite (nei_at_some m t k x Ex) in H; rewrite <- Ln; apply nth_error_Some; congruence).
    (* the face k has version k *)
    assert (Vk : valid (TF (Some t) k)) by (exists t; repeat split; auto; cbn; lia).
    destruct (corners_exist _ Vk) as (a & b & c & d & Kk).
    destruct (C t k a b c d Lt ltac:(lia) Kk) as (u & w & e & F & _ & W & _).
    unfold fsym in F. cbn [tet ver] in F. assert (Ek : Nat.land k 3 = k) by (clear -K; do 4 (destruct k as [|k]; [reflexivity|]); lia).
    rewrite Ek, H in F. destruct (look2 FSYM_TBL k (ver g)) eqn:E2; [|discriminate].
    unfold look2 in E2. destruct (nth_error FSYM_TBL k) eqn:E3; [|discriminate].
    assert (Fl : forall l, In l FSYM_TBL -> length l = 12) by (apply Forall_forall; vm_compute; repeat constructor).
    rewrite <- (Fl l) by (eapply nth_error_In; eauto). apply nth_error_Some. congruence.
  Qed.
  Lemma fnext_spec f a b c d : corners m f a b c d ->
    exists g e, fnext m f = Some g /\ corners m g a b d e.
  Proof.
    intros H. rewrite fnext_is_fsym_esym by (intros k g; apply nei_ver; eapply corners_valid; eauto).
    destruct (corners_moves m f a b c d H) as (_ & _ & (g & Eg & Tg & Kg) & _). rewrite Eg.
    destruct (corners_valid _ _ _ _ _ Kg) as (t & E & Lt & V). destruct g as [gt v]. cbn in E, V. subst gt.
    destruct (C t v _ _ _ _ Lt V Kg) as (u & w & e & F & _ & _ & _ & K'). eauto.
  Qed.
  Lemma fnext_valid f : valid f -> exists g, fnext m f = Some g /\ valid g.
  Proof.
    intros V. destruct (corners_exist f V) as (a & b & c & d & K). destruct (fnext_spec f a b c d K) as (g & e & F & Kg).
    exists g. split; auto. eapply corners_valid; eauto.
  Qed.
  Lemma fnext_inj f g h : valid f -> valid g -> fnext m f = Some h -> fnext m g = Some h -> f = g.
  Proof.
    intros Vf Vg Hf Hg.
    rewrite fnext_is_fsym_esym in Hf by (intros k y; apply nei_ver; auto).
    rewrite fnext_is_fsym_esym in Hg by (intros k y; apply nei_ver; auto).
    destruct (corners_exist f Vf) as (a & b & c & d & K). destruct (corners_moves m f a b c d K) as (_ & _ & (f' & Ef & _ & Kf) & _).
    destruct (corners_exist g Vg) as (a1 & b1 & c1 & d1 & K1). destruct (corners_moves m g a1 b1 c1 d1 K1) as (_ & _ & (g' & Eg & _ & Kg) & _).
    rewrite Ef in Hf. rewrite Eg in Hg. apply corners_valid in Kf, Kg.
    destruct (fsym_ver _ _ Kf Hf) as (_ & B1). destruct (fsym_ver _ _ Kg Hg) as (_ & B2). rewrite B1 in B2. inversion B2; subst.
    apply esym_esym in Ef, Eg. congruence.
  Qed.

  (** Iterating fnext. *)
  Fixpoint spin_n (n : nat) (f : triface) : option triface :=
    match n with 0 => Some f | S k => match spin_n k f with Some g => fnext m g | None => None end end.
  Lemma spin_n_corners n f a b c d : corners m f a b c d -> exists g c' d', spin_n n f = Some g /\ corners m g a b c' d'.
  Proof.
    intros H. induction n as [|n (g & c' & d' & E & K)]; [exists f, c, d; auto|].
    cbn. rewrite E. destruct (fnext_spec g a b c' d' K) as (h & e & F & K'). exists h, d', e. auto.
  Qed.
  Lemma spin_n_around n f g : spin_n n f = Some g -> around m f g.
  Proof.
    revert g. induction n as [|n IH]; cbn; intros g H; [inversion H; constructor|].
    destruct (spin_n n f) eqn:E; [|discriminate]. eapply around_next; eauto.
  Qed.
  Lemma around_spin_n f g : around m f g -> exists n, spin_n n f = Some g.
  Proof. induction 1 as [|g h _ (n & E) F]; [exists 0; auto|]. exists (S n). cbn. rewrite E. exact F. Qed.

  Definition code (f : triface) : nat := match tet f with Some t => 12 * t + ver f | None => 0 end.
  Lemma code_lt f : valid f -> code f < 12 * length (tets m).
  Proof. intros (t & E & Lt & V). unfold code. rewrite E. lia. Qed.
  Lemma code_inj f g : valid f -> valid g -> code f = code g -> f = g.
  Proof.
    intros (t & E & Lt & V) (u & F & Lu & W) H. unfold code in H. rewrite E, F in H. destruct f as [ft fv], g as [gt gv]. cbn in *. subst.
    assert (t = u) by lia. assert (fv = gv) by lia. now subst.
  Qed.

  Lemma pigeon : forall (l : list nat) n, (forall x, In x l -> x < n) -> n < length l -> ~ NoDup l.
  Proof.
    intros l n H Hl ND. assert (length l <= length (seq 0 n)); [|rewrite seq_length in *; lia].
    apply NoDup_incl_length; auto. intros x Hx. apply in_seq. specialize (H x Hx). lia.
  Qed.
  Lemma dup_index (l : list nat) : ~ NoDup l -> exists i j x, i < j /\ nth_error l i = Some x /\ nth_error l j = Some x.
  Proof.
    induction l as [|a l IH]; intros H; [exfalso; apply H; constructor|].
    destruct (in_dec Nat.eq_dec a l) as [Hi|Hi].
    - apply In_nth_error in Hi. destruct Hi as (j & E). exists 0, (S j), a. repeat split; auto. lia.
    - destruct IH as (i & j & x & A & B & D); [intros ND; apply H; constructor; auto|]. exists (S i), (S j), x. repeat split; auto. lia.
  Qed.

  Lemma spin_n_back i j f g : valid f -> spin_n (i + j) f = Some g -> spin_n i f = Some g -> spin_n j f = Some f.
  Proof.
    intros V. revert g. destruct (corners_exist f V) as (a & b & c & d & K).
    induction i as [|i IH]; intros g H1 H2; cbn in *; [inversion H2; subst; auto|].
    destruct (spin_n (i + j) f) as [x|] eqn:E1; [|discriminate]. destruct (spin_n i f) as [y|] eqn:E2; [|discriminate].
    destruct (spin_n_corners (i + j) f a b c d K) as (x' & ? & ? & Ex & Kx).
    destruct (spin_n_corners i f a b c d K) as (y' & ? & ? & Ey & Ky).
    rewrite E1 in Ex. rewrite E2 in Ey. inversion Ex; inversion Ey; subst.
    assert (x' = y') by (eapply fnext_inj; eauto; eapply corners_valid; eauto). subst. eapply IH; eauto.
  Qed.

  Lemma spin_period f : valid f -> exists n, 0 < n <= 12 * length (tets m) /\ spin_n n f = Some f.
  Proof.
    intros V. destruct (corners_exist f V) as (a & b & c & d & K).
    set (N := 12 * length (tets m)).
    set (l := map (fun i => match spin_n i f with Some g => code g | None => 0 end) (seq 0 (S N))).
    assert (ND : ~ NoDup l).
    { apply (pigeon l N).
      - intros x Hx. unfold l in Hx. apply in_map_iff in Hx. destruct Hx as (i & <- & _).
        destruct (spin_n_corners i f a b c d K) as (g & ? & ? & -> & Kg). apply code_lt. eapply corners_valid; eauto.
      - unfold l. rewrite map_length, seq_length. lia. }
    destruct (dup_index l ND) as (i & j & x & Hij & Ei & Ej).
    assert (Hj : j < S N) by (rewrite <- (seq_length (S N) 0), <- (map_length (fun i => match spin_n i f with Some g => code g | None => 0 end)); apply nth_error_Some; fold l; congruence).
    unfold l in Ei, Ej. rewrite nth_error_map in Ei, Ej.
    assert (S1 : forall k, k < S N -> nth_error (seq 0 (S N)) k = Some k).
    { intros k Hk. rewrite (nth_error_nth' _ 0) by (rewrite seq_length; auto). now rewrite seq_nth. }
    rewrite S1 in Ei, Ej by lia. cbn [option_map] in Ei, Ej.
    destruct (spin_n_corners i f a b c d K) as (g & ? & ? & Eg & Kg). destruct (spin_n_corners j f a b c d K) as (h & ? & ? & Eh & Kh).
    rewrite Eg in Ei. rewrite Eh in Ej. inversion Ei; inversion Ej; subst.
    assert (g = h) by (apply code_inj; [eapply corners_valid; eauto|eapply corners_valid; eauto|congruence]). subst h.
    exists (j - i). split; [lia|]. eapply (spin_n_back i (j - i)); eauto. replace (i + (j - i)) with j by lia. exact Eh.
  Qed.

  (** The search around the edge. *)
  Lemma find_apex_ok edge a b c d r : corners m edge a b c d ->
    exists f, find_apex m edge r edge (S (12 * length (tets m))) = Some f /\
      ((exists d', corners m f a b r d' /\ around m edge f) \/
       (f = tf0 /\ forall g c' d', around m edge g -> corners m g a b c' d' -> c' <> r)).
  Proof.
    intros K. destruct (spin_period edge) as (n0 & Hn0 & P0); [eapply corners_valid; eauto|].
    (* the least period *)
    assert (exists n, 0 < n <= 12 * length (tets m) /\ spin_n n edge = Some edge /\
        forall k, 0 < k < n -> spin_n k edge <> Some edge) as (n & Hn & P & Min).
    { clear -Hn0 P0.
      assert (G : forall k, (exists n, 0 < n <= k /\ spin_n n edge = Some edge /\ forall j, 0 < j < n -> spin_n j edge <> Some edge) \/
                 (forall j, 0 < j <= k -> spin_n j edge <> Some edge)).
      { induction k as [|k [(n & A & B & D)|H]].
        - right; intros; lia.
        - left. exists n. split; [lia|split; [exact B|exact D]].
        - assert (D : {spin_n (S k) edge = Some edge} + {spin_n (S k) edge <> Some edge}) by (repeat decide equality).
          destruct D as [D|D].
          + left. exists (S k). split; [lia|]. split; auto. intros j Hj. apply H. lia.
          + right. intros j Hj. destruct (Nat.eq_dec j (S k)) as [->|]; auto. apply H. lia. }
      destruct (G n0) as [(n & A & B & D)|H]; [exists n; split; [lia|split; [exact B|exact D]]|exfalso; exact (H n0 (conj (proj1 Hn0) (le_n _)) P0)]. }
    assert (Mod : forall k, exists j, j < n /\ spin_n k edge = spin_n j edge).
    { induction k as [|k (j & Hj & E)]; [exists 0; split; auto; lia|].
      destruct (Nat.eq_dec (S j) n) as [<-|N].
      - exists 0. split; [lia|]. cbn [spin_n] in *. rewrite E. exact P.
      - exists (S j). split; [lia|]. cbn [spin_n]. now rewrite E. }
    assert (Go : forall k fuel s, k < n -> n <= k + fuel -> spin_n k edge = Some s ->
       (forall j g c' d', j < k -> spin_n j edge = Some g -> corners m g a b c' d' -> c' <> r) ->
       exists f, find_apex m edge r s fuel = Some f /\
      ((exists d', corners m f a b r d' /\ around m edge f) \/
       (f = tf0 /\ forall g c' d', around m edge g -> corners m g a b c' d' -> c' <> r))).
    { intros k fuel. revert k. induction fuel as [|fuel IH]; intros k s Hk Hf Es Bef; [lia|].
      cbn [find_apex]. destruct (spin_n_corners k edge a b c d K) as (s' & c1 & d1 & Es' & Ks).
      rewrite Es in Es'. inversion Es'; subst s'. pose proof Ks as (_ & _ & Ap & _). rewrite Ap.
      destruct (Nat.eqb_spec c1 r) as [->|Nr].
      - exists s. split; auto. left. exists d1. split; auto. eapply spin_n_around; eauto.
      - destruct (fnext_spec s a b c1 d1 Ks) as (h & e & F & Kh). rewrite F.
        assert (Eh : spin_n (S k) edge = Some h) by (cbn; rewrite Es; exact F).
        destruct (corners_tet _ _ _ _ _ _ Kh) as (th & xh & Th & _). rewrite Th.
        destruct (corners_tet _ _ _ _ _ _ K) as (te & xe & Te & _). rewrite Te.
        assert (Bef' : forall j g c' d', j < S k -> spin_n j edge = Some g -> corners m g a b c' d' -> c' <> r).
        { intros j g c' d' Hj Ej Kj. destruct (Nat.eq_dec j k) as [->|]; [|eapply (Bef j); eauto; lia].
          rewrite Es in Ej. inversion Ej; subst. destruct (corners_fun _ _ _ _ _ _ _ _ _ Ks Kj) as (_ & _ & -> & _). auto. }
        destruct (Nat.eqb_spec th te) as [->|Nt].
        + exists tf0. split; auto. right. split; auto. intros g c' d' Ar Kg.
          assert (h = edge).
          { destruct h as [h1 hv], edge as [e1 ev]. cbn in Th, Te. subst. f_equal. eapply corners_inj; eauto. }
          subst h. assert (S k = n).
          { destruct (Nat.eq_dec (S k) n); auto. exfalso. apply (Min (S k)); auto. lia. }
          apply around_spin_n in Ar. destruct Ar as (q & Eq). destruct (Mod q) as (j & Hj & Ej).
          rewrite Eq in Ej. apply (Bef' j g c' d'); auto. lia.
        + assert (S k <> n) by (intros E; rewrite E, P in Eh; inversion Eh; subst; congruence).
          apply (IH (S k)); auto; lia. }
    apply (Go 0); auto; [lia|lia|intros; lia].
  Qed.
End Face.

(** * The search for the edge *)
Section Edge.
  Variables (m : tetmesh) (a b c : nat).
  Hypothesis L : linked m.

  Lemma marked_same m' r : marked m m' r -> forall f p q s t, corners m f p q s t <-> corners m' f p q s t.
  Proof.
    intros (_ & _ & Ln & D) f p q s t. unfold corners, org, dest, apex, oppo, pivot, tet_at.
    destruct (tet f) as [i|]; [|tauto]. destruct (nth_error (tets m) i) as [x|] eqn:E.
    - rewrite (D _ _ E). cbn [data]. tauto.
    - rewrite (proj2 (nth_error_None _ _)); [tauto|]. rewrite Ln. now apply nth_error_None.
  Qed.

  Lemma vpivot_org t x pos : nth_error (tets m) t = Some x -> nth_error (data x) pos = Some a ->
    exists v q s d, nth_error VPIVOT pos = Some v /\ corners m (TF (Some t) v) a q s d.
  Proof.
    intros Hx Hp. destruct (L _ _ Hx) as (Ld & _). assert (pos < 4) by (rewrite <- Ld; apply nth_error_Some; congruence).
    destruct (data x) as [|p0 [|p1 [|p2 [|p3 [|? ?]]]]] eqn:D; cbn in Ld; try lia.
    assert (G : forall v, v < 12 -> nth v ORG_PIVOT 0 = pos -> exists q s d, corners m (TF (Some t) v) a q s d).
    { intros v V E. assert (Vf : valid m (TF (Some t) v)) by (exists t; repeat split; auto; apply nth_error_Some; congruence).
      destruct (corners_exist m L _ Vf) as (a' & q & s & d & K). pose proof K as K'.
      rewrite (corners_data m t v x) in K' by exact Hx. destruct K' as (_ & A & _). rewrite E, D, Hp in A. inversion A; subst. eauto. }
    do 4 (destruct pos as [|pos]; [cbn [VPIVOT nth_error]; match goal with |- exists v q s d, Some ?w = Some v /\ _ =>
       destruct (G w) as (q & s & d & K); [lia|reflexivity|exists w, q, s, d; auto] end|]). lia.
  Qed.

  Lemma find_edge_ok m' r k : marked m m' r -> forall f q s d, corners m f a q s d ->
    exists e, find_edge m' b c f k = Some e /\
      match e with
      | Some (g, 2) => exists s d, corners m g a b s d
      | Some (g, 1) => exists s d, corners m g a c s d
      | Some _ => False
      | None => (1 <= k -> q <> b /\ q <> c) /\ (2 <= k -> s <> b /\ s <> c) /\ (3 <= k -> d <> b /\ d <> c)
      end.
  Proof.
    intros M. induction k as [|k IH]; intros f q s d K.
    - exists None. split; auto. repeat split; lia.
    - cbn [find_edge]. pose proof (proj1 (marked_same m' r M f a q s d) K) as (_ & Dd & _). rewrite Dd.
      destruct (Nat.eqb_spec q b) as [->|Nb]; cbn [orb].
      + eexists; split; [reflexivity|]. exists s, d. exact K.
      + destruct (Nat.eqb_spec q c) as [->|Nc].
        * eexists; split; [reflexivity|]. exists s, d. exact K.
        * destruct (corners_moves m f a q s d K) as (_ & _ & _ & _ & (g & Eg & _ & Kg)). rewrite Eg.
          destruct (IH g s d q Kg) as (e & Ee & He). exists e. split; auto.
          destruct e as [[g' p]|]; auto. destruct He as (H1 & H2 & H3). repeat split; intros; auto; try apply H1; try apply H2; lia.
  Qed.

  Lemma push_nei_ok t x pos : nth_error (tets m) t = Some x -> nth_error (data x) pos = Some a ->
    forall is m' r, (forall i, In i is -> i < 4) -> marked m m' r -> NoDup r ->
    (forall u, In u r -> exists y, nth_error (tets m) u = Some y /\ In a (data y)) ->
    exists m'' e, push_nei m' t pos is r = Some (m'', r ++ e) /\ marked m m'' (r ++ e) /\ NoDup (r ++ e) /\
      (forall u, In u (r ++ e) -> exists y, nth_error (tets m) u = Some y /\ In a (data y)).
  Proof.
    intros Hx Hp. induction is as [|i is IH]; intros m' r Hi M ND G.
    - exists m', []. rewrite app_nil_r. cbn. repeat (split; auto).
    - cbn [push_nei]. destruct (Nat.eqb_spec i pos) as [->|Np].
      + exists m', []. rewrite app_nil_r. repeat (split; auto).
      + assert (Hi' : forall j, In j is -> j < 4) by (intros; apply Hi; now right).
        destruct (linked_nei m L t x i Hx) as (u & k & y & d & En & Ey & Ed & Sh); [apply Hi; now left|].
        assert (Nf : nei_at m' (Some t) i = Some (TF (Some u) k)).
        { unfold nei_at, tet_at. destruct M as (_ & _ & _ & D). rewrite (D _ _ Hx). exact En. }
        rewrite Nf. cbn [tet]. rewrite (marked_hull m m' r u y d M Ey Ed).
        destruct (Nat.eqb_spec d (n_points m)) as [Eh|Nh]; [apply IH; auto|].
        rewrite (marked_tested m L m' r u y M Ey).
        destruct (mem u r) eqn:Em; [apply IH; auto|].
        assert (Nu : ~ In u r) by (intros Hu; apply mem_true in Hu; congruence).
        destruct (marked_mark m m' r u y M Ey Nu) as (m1 & E1 & M1). rewrite E1.
        destruct (IH m1 (r ++ [u])) as (m'' & e & E & M' & N' & S); auto.
        { apply NoDup_app_iff_snoc; auto. }
        { intros w Hw. apply in_app_or in Hw. destruct Hw as [Hw|[<-|[]]]; auto. exists y. split; auto.
          eapply Sh; eauto. }
        exists m'', (u :: e). rewrite <- app_assoc in *. cbn [app] in *. repeat (split; auto).
  Qed.

  Definition good_edge (e : option (triface * nat)) : Prop :=
    match e with
    | Some (g, 2) => exists s d, corners m g a b s d
    | Some (g, 1) => exists s d, corners m g a c s d
    | Some _ => False
    | None => True
    end.
  Definition good_list (r : list nat) : Prop := NoDup r /\ forall u, In u r -> exists y, nth_error (tets m) u = Some y /\ In a (data y).

  Lemma edge_loop_ok fuel : forall m' idx r, marked m m' r -> good_list r -> idx <= length r ->
    S (length (tets m)) <= fuel + idx ->
    exists m'' r' e, edge_loop m' a b c idx r fuel = Some (m'', r', e) /\ marked m m'' r' /\ good_list r' /\ good_edge e /\
      (forall t x, nth_error r idx = Some t -> nth_error (tets m) t = Some x -> a <> b -> a <> c ->
         In b (data x) \/ In c (data x) -> e <> None).
  Proof.
    induction fuel as [|fuel IH]; intros m' idx r M (ND & G) Li F.
    - assert (length r <= length (tets m)); [|lia].
      rewrite <- (seq_length (length (tets m)) 0). apply NoDup_incl_length; auto. intros t Ht. destruct (G _ Ht) as (x & Hx & _).
      apply in_seq. split; [lia|]. cbn. apply nth_error_Some. congruence.
    - cbn [edge_loop]. destruct (nth_error r idx) as [t|] eqn:Et.
      + pose proof (nth_error_In _ _ Et) as Ht. destruct (G _ Ht) as (x & Hx & Vx).
        assert (Hx' : exists k, tet_at m' (Some t) = Some (Tetra (data x) (nei x) k))
          by (destruct M as (_ & _ & _ & D); unfold tet_at; rewrite (D _ _ Hx); eauto).
        destruct Hx' as (k0 & Hx'). rewrite Hx'. cbn [data].
        destruct (index_of_some a _ Vx) as (pos & Ep & Np). rewrite Ep.
        destruct (vpivot_org t x pos Hx Np) as (v & q & s & d & Ev & K). rewrite Ev.
        destruct (find_edge_ok m' r 3 M _ q s d K) as (e & Ee & He). rewrite Ee.
        destruct e as [e|].
        * exists m', r, (Some e). split; auto. split; auto. split; [split; auto|]. split; [exact He|discriminate].
        * destruct (push_nei_ok t x pos Hx Np (seq 0 4) m' r) as (m1 & e & E1 & M1 & N1 & S1); auto.
          { intros i Hi. apply in_seq in Hi. lia. }
          rewrite E1. destruct (IH m1 (S idx) (r ++ e)) as (m'' & r' & e' & E2 & M2 & G2 & H2 & _); auto.
          { split; auto. }
          { rewrite app_length. assert (idx < length r) by (apply nth_error_Some; congruence). lia. }
          { lia. }
          exists m'', r', e'. repeat (split; auto).
          intros t' x' E' Hx2 Nab Nac Hin. exfalso. inversion E'; subst t'. rewrite Hx in Hx2. inversion Hx2; subst x'.
          destruct He as (H3 & H4 & H5). specialize (H3 ltac:(lia)). specialize (H4 ltac:(lia)). specialize (H5 ltac:(lia)).
          rewrite (corners_data m t v x) in K by exact Hx. destruct K as (V & A1 & A2 & A3 & A4).
          assert (All : forall y, In y (data x) -> y = a \/ y = q \/ y = s \/ y = d).
          { intros y Hy. apply In_nth_error in Hy. destruct Hy as (i & Ei). destruct (L _ _ Hx) as (Ld & _).
            assert (i < 4) by (rewrite <- Ld; apply nth_error_Some; congruence).
            assert (i = nth v ORG_PIVOT 0 \/ i = nth v DEST_PIVOT 0 \/ i = nth v APEX_PIVOT 0 \/ i = nth v OPPO_PIVOT 0)
              by (clear -V H; versions v; cbn; lia).
            destruct H0 as [->|[->|[->| ->]]]; rewrite Ei in *; intuition congruence. }
          destruct Hin as [Hin|Hin]; apply All in Hin; intuition congruence.
      + exists m', r, None. repeat (split; auto). intros t x E. discriminate.
  Qed.
End Edge.

Lemma triangle_at_tet_ok m a b c t0 x : linked m -> consistent m ->
  nth_error (p2t m) a = Some (Some t0) -> nth_error (tets m) t0 = Some x -> In a (data x) ->
  exists f, triangle_at_tet m a b c = Some (m, f) /\
    (f = tf0 \/ has_face m f a b c) /\
    (a <> b -> a <> c -> In b (data x) \/ In c (data x) ->
     (exists g, has_face m g a b c) ->
     (forall f g v s d s' d', corners m f a v s d -> corners m g a v s' d' -> around m f g) ->
     has_face m f a b c).
Proof.
  intros L C Hp Hx Ha. unfold triangle_at_tet. rewrite Hp.
  destruct (marked_mark m m [] t0 x (marked_nil m) Hx (fun h => h)) as (m1 & E1 & M1). rewrite E1. cbn [app] in M1.
  destruct (edge_loop_ok m a b c L (S (length (tets m))) m1 0 [t0]) as (m2 & ts & e & E2 & M2 & (ND & G) & He & Hn); auto.
  - split; [repeat constructor; intros []|]. intros u [<-|[]]. eauto.
  - cbn; lia.
  - lia.
  - rewrite E2. rewrite (unmark_all_ok m L ts m2 M2 ND).
    2: { intros t Ht. destruct (G _ Ht) as (y & Hy & _). apply nth_error_Some. congruence. }
    specialize (Hn t0 x eq_refl Hx).
    destruct e as [[edge pos3]|].
    + destruct pos3 as [|[|[|pos3]]]; cbn [good_edge] in He; try contradiction; destruct He as (s & d & K); cbn [nth_error].
      * destruct (find_apex_ok m L C edge a c s d b K) as (f & Ef & Hf). rewrite Ef. exists f. split; auto.
        destruct Hf as [(d' & Kf & _)|(-> & Hno)].
        -- split; [right; exists d'; auto|]. intros _ _ _ _ _. exists d'; auto.
        -- split; auto. intros _ _ _ (g & dg & [Kg|Kg]) Ring; exfalso.
           ++ (* corners g a b c: the face read from the other side *)
              destruct (corners_valid m _ _ _ _ _ Kg) as (t & Et & Lt & V). destruct g as [gt v]. cbn in Et, V. subst gt.
              destruct (C t v a b c dg Lt V Kg) as (u & w & e & _ & _ & _ & _ & Ku).
              destruct (corners_moves m _ _ _ _ _ Ku) as ((g' & _ & _ & Kg') & _).
              eapply (Hno g'); eauto.
           ++ eapply (Hno g); eauto.
      * destruct (find_apex_ok m L C edge a b s d c K) as (f & Ef & Hf). rewrite Ef. exists f. split; auto.
        destruct Hf as [(d' & Kf & _)|(-> & Hno)].
        -- split; [right; exists d'; auto|]. intros _ _ _ _ _. exists d'; auto.
        -- split; auto. intros _ _ _ (g & dg & [Kg|Kg]) Ring; exfalso.
           ++ eapply (Hno g); eauto.
           ++ destruct (corners_valid m _ _ _ _ _ Kg) as (t & Et & Lt & V). destruct g as [gt v]. cbn in Et, V. subst gt.
              destruct (C t v a c b dg Lt V Kg) as (u & w & e & _ & _ & _ & _ & Ku).
              destruct (corners_moves m _ _ _ _ _ Ku) as ((g' & _ & _ & Kg') & _).
              eapply (Hno g'); eauto.
    + exists tf0. split; auto. split; auto. intros N1 N2 Hin. exfalso. now apply Hn.
Qed.
