(** Facts about the spreading of the marks and about one constraint after the other. *)
From Coq Require Import List Arith Bool ZArith Permutation Lia.
From Verif Require Import Lib Geo Tet TetSpec TetProofs TetFace TetFaceProofs Bsp BspSpec Trace TraceSpec TraceWalk TraceMark.
Import ListNotations.
Local Open Scope opt_scope.

(** * Adding one number to some of the lists *)
Definition adds (cid : nat) (P : nat -> nat -> Prop) (mark mark' : list (list (list nat))) : Prop :=
  forall k t l, mark_at mark k t = Some l ->
    (P k t /\ mark_at mark' k t = Some (l ++ [cid])) \/ (~ P k t /\ mark_at mark' k t = Some l).
Lemma adds_none cid (P : nat -> nat -> Prop) mark : (forall k t, ~ P k t) -> adds cid P mark mark.
Proof. intros H k t l E. right. split; auto. Qed.
Lemma adds_ext cid (P Q : nat -> nat -> Prop) mark mark' : (forall k t, P k t <-> Q k t) -> adds cid P mark mark' -> adds cid Q mark mark'.
Proof. intros H A k t l E. destruct (A k t l E) as [(? & ?)|(? & ?)]; [left|right]; rewrite <- H; auto. Qed.
Lemma adds_app cid (P Q : nat -> nat -> Prop) m0 m1 m2 : (forall k t, P k t -> Q k t -> False) ->
  adds cid P m0 m1 -> adds cid Q m1 m2 -> adds cid (fun k t => P k t \/ Q k t) m0 m2.
Proof.
  intros D A B k t l E. destruct (A k t l E) as [(p & E1)|(p & E1)]; destruct (B k t _ E1) as [(q & E2)|(q & E2)].
  - destruct (D k t p q).
  - left; auto.
  - left; auto.
  - right; split; auto. tauto.
Qed.
Lemma adds_push m mark k t cid : shaped m mark -> k < 5 -> t < length (tets m) ->
  exists mark', push_mark mark k t cid = Some mark' /\ shaped m mark' /\ adds cid (fun k' t' => t' = t /\ k' = k) mark mark'.
Proof.
  intros S K T. destruct (push_mark_ok m mark k t cid S K T) as (mark' & E & S' & H). exists mark'. split; auto. split; auto.
  intros k' t' l El. rewrite (H _ _ _ El). destruct (Nat.eqb_spec k' k), (Nat.eqb_spec t' t); cbn [andb]; auto; right; split; auto; intros (? & ?); auto.
Qed.

Section Flood.
  Variables (g : geom) (m : tetmesh) (c0 c1 c2 : nat).
  Let c : tri3 := (c0, c1, c2).
  Hypothesis L : linked m.
  Hypothesis GL : ghost_last m.
  Hypothesis Hc : c0 < n_points m /\ c1 < n_points m /\ c2 < n_points m.
  Hypothesis Few : n_points m <= length (tets m).

  Lemma set_improper_ok cid l : forall mark, NoDup l -> (forall t, In t l -> real m t) -> shaped m mark ->
    exists mark', set_improper g m c cid mark l = Some mark' /\ shaped m mark' /\
      adds cid (fun k t => In t l /\ improper g m c t = Some (Some k)) mark mark'.
  Proof using L GL Hc Few.
    induction l as [|t l IH]; intros mark ND R S; cbn [set_improper].
    - exists mark. split; auto. split; auto. apply adds_none. intros k t ([] & _).
    - destruct (improper_total g m c0 c1 c2 L GL Hc Few t) as (r & Er & Hr); [apply R; now left|]. fold c in Er. rewrite Er.
      apply NoDup_cons_iff in ND. destruct ND as (Nt & ND).
      assert (M1 : exists mark1, (match r with Some k => push_mark mark k t cid | None => Some mark end) = Some mark1 /\ shaped m mark1 /\
        adds cid (fun k' t' => t' = t /\ r = Some k') mark mark1).
      { destruct r as [k|].
        - assert (K : k < 5) by (destruct Hr as (x & _ & [(K & _)|(K & _)]); lia).
          destruct (adds_push m mark k t cid S K) as (mark1 & E & S1 & A); [apply (real_lt m), R; now left|].
          exists mark1. split; auto. split; auto. eapply adds_ext; [|exact A]. intros k' t'; cbn. split; intros (-> & E'); split; congruence.
        - exists mark. split; auto. split; auto. apply adds_none. intros k' t' (_ & E). discriminate. }
      destruct M1 as (mark1 & E1 & S1 & A1). rewrite E1.
      destruct (IH mark1 ND) as (mark2 & E2 & S2 & A2); auto; [intros; apply R; now right|]. exists mark2. split; auto. split; auto.
      eapply adds_ext; [|eapply adds_app; [|exact A1|exact A2]].
      + intros k' t'; cbn. split.
        * intros [(-> & ->)|(H & E)]; auto.
        * intros ([<-|H] & E); [left|right]; auto. split; auto. congruence.
      + cbn. intros k' t' (-> & _) (H & _). contradiction.
  Qed.

  (** ** The spreading *)
  Definition seen (i : info) (t : nat) : Prop := nth_error (visited i) t = Some true.
  Definition flood_inv (i : info) : Prop :=
    NoDup (intersected i) /\ length (visited i) = length (tets m) /\
    (forall t, In t (intersected i) -> real m t /\ seen i t) /\
    (forall t, seen i t -> In t (intersected i) \/ tet_type g m c t = Some 5).
  Definition taken (new : list nat) (k t : nat) : Prop := In t new /\ tet_type g m c t = Some k.

  Lemma flood_nei_ok cid l : forall mark i, (forall f, In f l -> exists u, tet f = Some u /\ u < length (tets m)) -> shaped m mark -> flood_inv i ->
    exists mark' i' new, flood_nei g m c cid mark i l = Some (mark', i') /\ shaped m mark' /\ flood_inv i' /\
      intersected i' = intersected i ++ new /\ adds cid (taken new) mark mark' /\
      (forall u, In u new -> (exists f, In f l /\ tet f = Some u) /\ exists k, k < 5 /\ tet_type g m c u = Some k) /\
      (forall t, seen i t -> seen i' t) /\ (forall f u, In f l -> tet f = Some u -> seen i' u).
  Proof using L GL Hc.
    clear Few. induction l as [|f l IH]; intros mark i Hl S I; cbn [flood_nei].
    - exists mark, i, []. repeat (split; auto); try apply I; try (intros; contradiction).
      + now rewrite app_nil_r.
      + apply adds_none. intros k t ([] & _).
    - destruct (Hl f) as (u & Eu & Lu); [now left|]. rewrite Eu. pose proof I as (ND & Lv & IR & SR).
      assert (Hl' : forall f, In f l -> exists u, tet f = Some u /\ u < length (tets m)) by (intros; apply Hl; now right).
      destruct (nth_error (visited i) u) as [b|] eqn:Eb; [|apply nth_error_None in Eb; lia].
      destruct b.
      + destruct (IH mark i Hl' S I) as (mark' & i' & new & E & S' & I' & Ei & A & N & Mo & Co). exists mark', i', new.
        repeat (split; auto); try apply I'.
        * destruct (N _ H) as ((f' & Hf & Ef) & _). exists f'. split; auto. now right.
        * apply N; auto.
        * intros f' u' [<-|Hf] Ef; [|eapply Co; eauto]. rewrite Eu in Ef. inversion Ef; subst. apply Mo. exact Eb.
      + rewrite set_ok by lia. destruct (tet_type_total g m c0 c1 c2 L GL Hc u Lu) as (k & Ek & Kle & Hk & _). fold c in Ek. rewrite Ek.
        assert (Up : forall t, nth_error (upd (visited i) u true) t = Some true <-> seen i t \/ t = u).
        { intros t. unfold seen. destruct (Nat.eq_dec u t) as [<-|D].
          - rewrite nth_error_upd_eq by lia. tauto.
          - rewrite nth_error_upd_neq by auto. split; auto. intros [|]; auto. congruence. }
        destruct (Nat.ltb_spec k 5) as [K|K].
        * destruct (adds_push m mark k u cid S K Lu) as (mark1 & E1 & S1 & A1). rewrite E1.
          assert (Nu : ~ In u (intersected i)) by (intros H; destruct (IR _ H) as (_ & B); unfold seen in B; congruence).
          destruct (IH mark1 (Info (intersected i ++ [u]) (upd (visited i) u true)) Hl' S1) as (mark' & i' & new & E & S' & I' & Ei & A & N & Mo & Co).
          { split; [apply NoDup_app_iff_snoc; auto|]. cbn [intersected visited]. split; [now rewrite upd_length|]. unfold seen; cbn [visited]. split.
            - intros t Ht. rewrite Up. apply in_app_or in Ht. destruct Ht as [Ht|[<-|[]]]; [destruct (IR _ Ht); auto|]. split; auto. apply Hk; auto.
            - intros t Ht. apply Up in Ht. rewrite in_app_iff. cbn [In]. destruct Ht as [Ht| ->]; [destruct (SR _ Ht); auto|auto]. }
          exists mark', i', (u :: new). cbn [intersected] in Ei. split; auto. split; auto. split; auto. split; [rewrite Ei, <- app_assoc; reflexivity|].
          assert (Nn : ~ In u new).
          { pose proof I' as (ND' & _). rewrite Ei in ND'. intros H. rewrite <- app_assoc in ND'. cbn [app] in ND'. apply NoDup_remove_2 in ND'. apply ND'. apply in_or_app. auto. }
          split; [|split; [|split]].
          -- eapply adds_ext; [|eapply adds_app; [|exact A1|exact A]]; unfold taken; cbn [In].
             ++ intros k' t'. split.
                ** intros [(-> & ->)|(H & E')]; auto.
                ** intros ([<-|H] & E'); [left|right]; auto. split; auto. congruence.
             ++ intros k' t' (-> & _) (H & _). contradiction.
          -- intros v [<-|Hv]; [split; [exists f; split; auto; now left|eauto]|]. destruct (N _ Hv) as ((f' & Hf & Ef) & T). split; auto. exists f'. split; auto. now right.
          -- intros t Ht. apply Mo. unfold seen; cbn [visited]. apply Up. auto.
          -- intros f' u' [<-|Hf] Ef; [|eapply Co; eauto]. rewrite Eu in Ef. inversion Ef; subst. apply Mo. unfold seen; cbn [visited]. apply Up. auto.
        * assert (k = 5) by lia. subst k.
          destruct (IH mark (Info (intersected i) (upd (visited i) u true)) Hl' S) as (mark' & i' & new & E & S' & I' & Ei & A & N & Mo & Co).
          { split; auto. cbn [intersected visited]. split; [now rewrite upd_length|]. unfold seen; cbn [visited]. split.
            - intros t Ht. rewrite Up. destruct (IR _ Ht); auto.
            - intros t Ht. apply Up in Ht. destruct Ht as [Ht| ->]; auto. }
          exists mark', i', new. cbn [intersected] in Ei. split; auto. split; auto. split; auto. split; auto. split; auto. split; [|split].
          -- intros v Hv. destruct (N _ Hv) as ((f' & Hf & Ef) & T). split; auto. exists f'. split; auto. now right.
          -- intros t Ht. apply Mo. unfold seen; cbn [visited]. apply Up. auto.
          -- intros f' u' [<-|Hf] Ef; [|eapply Co; eauto]. rewrite Eu in Ef. inversion Ef; subst. apply Mo. unfold seen; cbn [visited]. apply Up. auto.
  Qed.

  Definition accepts (t : nat) : Prop := exists k, k < 5 /\ tet_type g m c t = Some k.
  Lemma flood_ok cid start fuel : forall mark i idx, shaped m mark -> flood_inv i -> idx <= length (intersected i) -> length (tets m) < idx + fuel ->
    (forall t, In t (intersected i) -> flooded m accepts start t) ->
    (forall j t u, j < idx -> nth_error (intersected i) j = Some t -> neighbour m t u -> seen i u) ->
    exists mark' i' new, flood g m c cid mark i idx fuel = Some (mark', i') /\ shaped m mark' /\ flood_inv i' /\
      intersected i' = intersected i ++ new /\ adds cid (taken new) mark mark' /\
      (forall t, In t new -> accepts t) /\
      (forall t, In t (intersected i') -> flooded m accepts start t) /\
      (forall t u, In t (intersected i') -> neighbour m t u -> seen i' u).
  Proof using L GL Hc.
    clear Few. induction fuel as [|fuel IH]; intros mark i idx S I Hi Hf Fl Nb.
    { exfalso. destruct I as (ND & _ & R & _). assert (B : length (intersected i) <= length (seq 0 (length (tets m)))).
      { apply NoDup_incl_length; auto. intros t Ht. apply in_seq. destruct (R _ Ht) as (Rt & _). apply real_lt in Rt. lia. }
      rewrite seq_length in B. lia. }
    cbn [flood]. destruct (nth_error (intersected i) idx) as [t|] eqn:Et.
    - pose proof I as (ND & Lv & IR & SR). destruct (IR t (nth_error_In _ _ Et)) as (Rt & _). pose proof Rt as (x & Ex & _).
      unfold tet_at. rewrite Ex.
      destruct (flood_nei_ok cid (nei x) mark i) as (mark1 & i1 & new1 & E1 & S1 & I1 & Ei1 & A1 & N1 & Mo1 & Co1); auto.
      { intros f Hfn. apply In_nth_error in Hfn. destruct Hfn as (j & Ej). destruct (L _ _ Ex) as (_ & _ & _ & _ & _ & H).
        destruct (H j f Ej) as (u & y & Eu & Ey & _). exists u. split; auto. apply nth_error_Some. congruence. }
      rewrite E1.
      assert (Acc : forall u, In u new1 -> accepts u) by (intros u Hu; destruct (N1 u Hu) as (_ & Hk); exact Hk).
      assert (Lt : idx < length (intersected i)) by (apply nth_error_Some; congruence).
      destruct (IH mark1 i1 (Datatypes.S idx)) as (mark2 & i2 & new2 & E2 & S2 & I2 & Ei2 & A2 & N2 & F2 & C2); auto.
      { rewrite Ei1, app_length. lia. }
      { lia. }
      { intros u Hu. rewrite Ei1 in Hu. apply in_app_or in Hu. destruct Hu as [Hu|Hu]; auto. destruct (N1 u Hu) as ((f & Hf1 & Ef) & Hk).
        apply (flood_next m accepts start t u); auto; [apply Fl; eapply nth_error_In; eauto|exists x, f; auto]. }
      { intros j t' u Hj Ht' Hn. rewrite Ei1 in Ht'. rewrite nth_error_app1 in Ht' by lia. destruct (Nat.eq_dec j idx) as [->|D].
        - rewrite Et in Ht'. inversion Ht'; subst t'. destruct Hn as (x' & f & Ex' & Hf' & Ef). rewrite Ex in Ex'. inversion Ex'; subst x'. eapply Co1; eauto.
        - apply Mo1. eapply Nb; [|exact Ht'|exact Hn]. lia. }
      exists mark2, i2, (new1 ++ new2). split; auto. split; auto. split; auto. split; [now rewrite Ei2, Ei1, app_assoc|]. split; [|split; [|split]]; auto.
      + eapply adds_ext; [|eapply adds_app; [|exact A1|exact A2]]; unfold taken.
        * intros k' t'. cbn beta. rewrite in_app_iff. tauto.
        * intros k' t' (H1 & _) (H2 & _). destruct I2 as (ND2 & _). rewrite Ei2, Ei1 in ND2. apply In_nth_error in H2. destruct H2 as (j2 & H2).
          apply In_nth_error in H1. destruct H1 as (j1 & H1).
          assert (B1 : j1 < length new1) by (apply nth_error_Some; congruence).
          assert (Q : length (intersected i) + j1 = length (intersected i ++ new1) + j2).
          { eapply nth_error_NoDup; [exact ND2| |].
            - rewrite <- app_assoc, nth_error_app2 by lia. replace (_ + j1 - _) with j1 by lia. rewrite nth_error_app1 by auto. exact H1.
            - rewrite nth_error_app2 by lia. replace (_ + j2 - _) with j2 by lia. exact H2. }
          rewrite app_length in Q. lia.
      + intros u Hu. apply in_app_or in Hu. destruct Hu; auto.
    - exists mark, i, []. apply nth_error_None in Et. split; auto. split; auto. split; auto. split; [now rewrite app_nil_r|].
      split; [apply adds_none; intros k t ([] & _)|]. split; [intros t []|]. split; auto.
      intros t u Ht Hn. apply In_nth_error in Ht. destruct Ht as (j & Ej). assert (j < length (intersected i)) by (apply nth_error_Some; congruence).
      eapply Nb; [|exact Ej|exact Hn]. lia.
  Qed.
End Flood.
