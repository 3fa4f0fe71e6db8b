(** Lemmas for Prop_Partition.v. *)
From Coq Require Import List Arith ZArith Bool Lia.
From Verif Require Import Lib PushRelabel PushRelabelProofs Prop_PushRelabel Partition PartitionSpec.
Import ListNotations.
Local Open Scope opt_scope.

Lemma terminal_src : forall src snk c v x lab k, nth_error src c = Some v -> length src = length snk ->
  terminal_energy (upd src c (v + x)%Z) snk lab k = (terminal_energy src snk lab k + (if lab (k + c)%nat then 0 else x))%Z.
Proof.
  induction src as [|a src IH]; intros [|b snk] [|c] v x lab k E L; simpl in *; try discriminate.
  - injection E as <-. rewrite Nat.add_0_r. destruct (lab k); ring.
  - rewrite (IH snk c v x lab (S k) E) by lia. replace (S k + c) with (k + S c) by lia. destruct (lab (k + S c)); ring.
Qed.

Lemma terminal_snk : forall src snk c v x lab k, nth_error snk c = Some v -> length src = length snk ->
  terminal_energy src (upd snk c (v + x)%Z) lab k = (terminal_energy src snk lab k + (if lab (k + c)%nat then x else 0))%Z.
Proof.
  induction src as [|a src IH]; intros [|b snk] [|c] v x lab k E L; simpl in *; try discriminate.
  - injection E as <-. rewrite Nat.add_0_r. destruct (lab k); ring.
  - rewrite (IH snk c v x lab (S k) E) by lia. replace (S k + c) with (k + S c) by lia. destruct (lab (k + S c)); ring.
Qed.

Lemma terminal_zero : forall n lab k, terminal_energy (repeat 0%Z n) (repeat 0%Z n) lab k = 0%Z.
Proof. induction n; intros; simpl; auto. rewrite IHn. destruct (lab k); reflexivity. Qed.

Lemma Forall_upd {A} (P : A -> Prop) : forall l i x, Forall P l -> P x -> Forall P (upd l i x).
Proof. induction l; intros [|i] x F H; simpl; auto; inversion F; subst; constructor; auto. Qed.

Lemma nth_error_repeat_lt {A} (x : A) : forall n i, i < n -> nth_error (repeat x n) i = Some x.
Proof. induction n; intros [|i] H; simpl; auto; try lia. apply IHn. lia. Qed.

(** The costs and marks of one shell. *)
Record shell_ok (nc nf : nat) (e i : list Z) (b : list bool) : Prop := {
  so_e : length e = S nc; so_i : length i = S nc; so_b : length b = nf;
  so_ep : Forall (fun c => (0 <= c)%Z) e; so_ip : Forall (fun c => (0 <= c)%Z) i;
  so_out : nth_error i nc = Some 0%Z }.
Definition at_shell (m : marks) (s : nat) (e i : list Z) (b : list bool) : Prop :=
  nth_error (m_ext m) s = Some e /\ nth_error (m_int m) s = Some i /\ nth_error (m_black m) s = Some b.

Section P.
Context (shell : list nat) (hit pos : nat -> nat -> bool) (nc nf ns : nat).
Context (Sh : forall t s, nth_error shell t = Some s -> s < ns).

Definition marks_ok (m : marks) : Prop :=
  length (m_ext m) = ns /\ length (m_int m) = ns /\ length (m_black m) = ns /\
  forall s, s < ns -> exists e i b, at_shell m s e i b /\ shell_ok nc nf e i b.

(** What a decided face costs. *)
Definition pay (front : bool) (f : cface) (lab : nat -> bool) : Z :=
  ((if Bool.eqb (lab (fc0 f)) front then farea f else 0) +
   match fc1 f with Some c => if Bool.eqb (lab c) front then 0 else farea f | None => 0 end)%Z.

Definition meets (s fid t : nat) : bool :=
  match nth_error shell t with Some s' => Nat.eqb s' s && hit fid t | None => false end.

(** Shell [s] of [m'] is that of [m], with face [fid] decided as [d] says. *)
Definition step (fid : nat) (f : cface) (s : nat) (d : option bool) (m m' : marks) : Prop :=
  forall e i b, at_shell m s e i b -> shell_ok nc nf e i b ->
  exists e' i' b', at_shell m' s e' i' b' /\ shell_ok nc nf e' i' b' /\
    match d with
    | None => e' = e /\ i' = i /\ b' = b
    | Some front => b' = upd b fid true /\
        forall lab, terminal_energy e' i' lab 0 = (terminal_energy e i lab 0 + pay front f lab)%Z
    end.

Lemma step_none fid f s m : step fid f s None m m.
Proof. intros e i b A O. exists e, i, b. auto. Qed.

Lemma step_ok fid f m m' d : marks_ok m -> length (m_ext m') = ns -> length (m_int m') = ns -> length (m_black m') = ns ->
  (forall s, s < ns -> step fid f s (d s) m m') -> marks_ok m'.
Proof.
  intros (_ & _ & _ & M) L1 L2 L3 H. split; [exact L1|]. split; [exact L2|]. split; [exact L3|].
  intros s Hs. destruct (M s Hs) as (e & i & b & A & O). destruct (H s Hs e i b A O) as (e' & i' & b' & A' & O' & _). eauto.
Qed.

Lemma mark_tri_ok fid f m t s0 b0 : marks_ok m -> face_ok shell nc f -> fid < nf -> nth_error shell t = Some s0 ->
  nth_error (m_black m) s0 = Some b0 ->
  exists m', mark_tri shell hit pos fid f m t = Some m' /\ marks_ok m' /\
    forall s, s < ns -> step fid f s
      (if (s0 =? s) && hit fid t && negb (nth fid b0 false) then Some (pos fid t) else None) m m'.
Proof using Sh.
  intros M (C0 & C1 & _ & Ar) Hf Et Eb. pose proof M as (L1 & L2 & L3 & M').
  pose proof (Sh _ _ Et) as Hs0. destruct (M' s0 Hs0) as (e & i & b & (A1 & A2 & A3) & O).
  rewrite Eb in A3. injection A3 as <-.
  pose proof (so_e _ _ _ _ _ O) as Le. pose proof (so_i _ _ _ _ _ O) as Li. pose proof (so_b _ _ _ _ _ O) as Lb.
  assert (Bn : nth_error b0 fid = Some (nth fid b0 false)) by (apply nth_error_nth'; lia).
  unfold mark_tri. rewrite Et, Eb, Bn.
  destruct (nth fid b0 false).
  { exists m. split; [reflexivity|]. split; [exact M|]. intros s _. rewrite andb_false_r. apply step_none. }
  destruct (hit fid t).
  2:{ exists m. split; [reflexivity|]. split; [exact M|]. intros s _. rewrite andb_false_r. apply step_none. }
  simpl negb.
  destruct (nth_error_ex e (fc0 f) ltac:(lia)) as (ev & Ev). destruct (nth_error_ex i (fc0 f) ltac:(lia)) as (iv & Iv).
  pose proof (so_ep _ _ _ _ _ O) as Ep. pose proof (so_ip _ _ _ _ _ O) as Ip. pose proof (so_out _ _ _ _ _ O) as Oo.
  assert (Ev0 : (0 <= ev)%Z) by (rewrite Forall_forall in Ep; apply Ep; eapply nth_error_In; eauto).
  assert (Iv0 : (0 <= iv)%Z) by (rewrite Forall_forall in Ip; apply Ip; eapply nth_error_In; eauto).
  set (out e' i' := Marks (upd (m_ext m) s0 e') (upd (m_int m) s0 i') (upd (m_black m) s0 (upd b0 fid true))).
  assert (Key : forall e' i', shell_ok nc nf e' i' (upd b0 fid true) ->
    (forall lab, terminal_energy e' i' lab 0 = (terminal_energy e i lab 0 + pay (pos fid t) f lab)%Z) ->
    marks_ok (out e' i') /\ forall s, s < ns -> step fid f s (if (s0 =? s) && true && true then Some (pos fid t) else None) m (out e' i')).
  { intros e' i' O' T.
    assert (St : forall s, s < ns -> step fid f s (if (s0 =? s) && true && true then Some (pos fid t) else None) m (out e' i')).
    { intros s Hs e1 i1 b1 (B1 & B2 & B3) O1. destruct (Nat.eqb_spec s0 s) as [<-|Ne]; simpl.
      - rewrite A1 in B1. rewrite A2 in B2. rewrite Eb in B3. injection B1 as <-. injection B2 as <-. injection B3 as <-.
        exists e', i', (upd b0 fid true). split; [|split; [exact O'|split; [reflexivity|exact T]]].
        unfold at_shell, out. simpl. rewrite !nth_error_upd_eq by lia. auto.
      - exists e1, i1, b1. split; [|split; [exact O1|auto]].
        unfold at_shell, out. simpl. rewrite !nth_error_upd_neq by auto. auto. }
    split; [|exact St].
    refine (step_ok fid f m (out e' i') (fun s => if (s0 =? s) && true && true then Some (pos fid t) else None) M _ _ _ St); unfold out; simpl; rewrite ?upd_length; auto. }
  assert (Lub : length (upd b0 fid true) = nf) by (rewrite upd_length; exact Lb).
  destruct (pos fid t) eqn:Po.
  - unfold add_to at 1. rewrite A2, Iv.
    destruct (fc1 f) as [c|] eqn:F1.
    + destruct (C1 c eq_refl) as [Hc Hne]. simpl. unfold add_to. rewrite A1.
      destruct (nth_error_ex e c ltac:(lia)) as (cv & Cv). rewrite Cv.
      assert (Cv0 : (0 <= cv)%Z) by (rewrite Forall_forall in Ep; apply Ep; eapply nth_error_In; eauto).
      eexists. split; [reflexivity|]. apply Key.
      * constructor; rewrite ?upd_length; auto.
        -- apply Forall_upd; auto. lia.
        -- apply Forall_upd; auto. lia.
        -- rewrite nth_error_upd_neq by lia. exact Oo.
      * intros lab. rewrite (terminal_snk _ _ _ _ _ _ _ Iv) by (rewrite upd_length; lia).
        rewrite (terminal_src _ _ _ _ _ _ _ Cv) by lia. unfold pay. rewrite F1. simpl.
        destruct (lab (fc0 f)), (lab c); simpl; ring.
    + simpl. replace (m_ext m) with (upd (m_ext m) s0 e).
      2:{ clear - A1. revert s0 A1. induction (m_ext m) as [|x l IH]; intros [|s] A; simpl in *; try discriminate.
          - congruence. - rewrite IH; auto. }
      eexists. split; [reflexivity|]. apply Key.
      * constructor; rewrite ?upd_length; auto.
        -- apply Forall_upd; auto. lia.
        -- rewrite nth_error_upd_neq by lia. exact Oo.
      * intros lab. rewrite (terminal_snk _ _ _ _ _ _ _ Iv) by lia. unfold pay. rewrite F1. simpl.
        destruct (lab (fc0 f)); simpl; ring.
  - unfold add_to at 1. rewrite A1, Ev.
    destruct (fc1 f) as [c|] eqn:F1.
    + destruct (C1 c eq_refl) as [Hc Hne]. simpl. unfold add_to. rewrite A2.
      destruct (nth_error_ex i c ltac:(lia)) as (cv & Cv). rewrite Cv.
      assert (Cv0 : (0 <= cv)%Z) by (rewrite Forall_forall in Ip; apply Ip; eapply nth_error_In; eauto).
      eexists. split; [reflexivity|]. apply Key.
      * constructor; rewrite ?upd_length; auto.
        -- apply Forall_upd; auto. lia.
        -- apply Forall_upd; auto. lia.
        -- rewrite nth_error_upd_neq by lia. exact Oo.
      * intros lab. rewrite (terminal_snk _ _ _ _ _ _ _ Cv) by (rewrite upd_length; lia).
        rewrite (terminal_src _ _ _ _ _ _ _ Ev) by lia. unfold pay. rewrite F1. simpl.
        destruct (lab (fc0 f)), (lab c); simpl; ring.
    + simpl. replace (m_int m) with (upd (m_int m) s0 i).
      2:{ clear - A2. revert s0 A2. induction (m_int m) as [|x l IH]; intros [|s] A; simpl in *; try discriminate.
          - congruence. - rewrite IH; auto. }
      eexists. split; [reflexivity|]. apply Key.
      * constructor; rewrite ?upd_length; auto. apply Forall_upd; auto. lia.
      * intros lab. rewrite (terminal_src _ _ _ _ _ _ _ Ev) by lia. unfold pay. rewrite F1. simpl.
        destruct (lab (fc0 f)); simpl; ring.
Qed.

Definition decide (s fid : nat) (b : list bool) (ts : list nat) : option bool :=
  if nth fid b false then None else option_map (pos fid) (find (meets s fid) ts).

Lemma mark_tris_ok fid f : face_ok shell nc f -> fid < nf -> forall ts m, marks_ok m -> (forall t, In t ts -> t < length shell) ->
  exists m', mark_tris shell hit pos fid f m ts = Some m' /\ marks_ok m' /\
    forall s, s < ns -> forall b, nth_error (m_black m) s = Some b -> step fid f s (decide s fid b ts) m m'.
Proof using Sh.
  intros Fo Hf. induction ts as [|t ts IH]; intros m M Ht; simpl.
  { exists m. split; [reflexivity|]. split; [exact M|]. intros s Hs b Eb. unfold decide. simpl.
    destruct (nth fid b false); apply step_none. }
  destruct (nth_error_ex shell t (Ht t (or_introl eq_refl))) as (s0 & Et).
  pose proof M as (_ & _ & L3 & Mr).
  destruct (nth_error_ex (m_black m) s0) as (b0 & Eb0); [rewrite L3; exact (Sh _ _ Et)|].
  destruct (mark_tri_ok fid f m t s0 b0 M Fo Hf Et Eb0) as (m1 & E1 & M1 & S1). rewrite E1.
  destruct (IH m1 M1) as (m2 & E2 & M2 & S2). { intros t' Hin. apply Ht. now right. }
  exists m2. split; [exact E2|]. split; [exact M2|].
  intros s Hs b Eb e i b1 A O. pose proof A as (_ & _ & A3). rewrite Eb in A3. injection A3 as <-.
  destruct (S1 s Hs e i b A O) as (e1 & i1 & b1 & A1 & O1 & D1).
  pose proof A1 as (_ & _ & B1). destruct (S2 s Hs b1 B1 e1 i1 b1 A1 O1) as (e2 & i2 & b2 & A2 & O2 & D2).
  exists e2, i2, b2. split; [exact A2|]. split; [exact O2|].
  pose proof (so_b _ _ _ _ _ O) as Lb.
  unfold decide in *. simpl find. unfold meets at 1. rewrite Et.
  destruct (Nat.eqb_spec s0 s) as [<-|Ne]; simpl in D1 |- *.
  - rewrite Eb in Eb0. injection Eb0 as <-.
    destruct (hit fid t); simpl in D1 |- *.
    + destruct (nth fid b false) eqn:Q; simpl in D1.
      * destruct D1 as (-> & -> & ->). rewrite Q in D2. exact D2.
      * destruct D1 as (-> & T1). rewrite nth_upd_eq in D2 by lia. destruct D2 as (-> & -> & ->). split; auto.
    + destruct D1 as (-> & -> & ->). exact D2.
  - destruct D1 as (-> & -> & ->). exact D2.
Qed.

(** The calls of [add_arc] for a shell, and the cost of the decided faces. *)
Definition undecided (s fid : nat) (f : cface) : bool := match deciding shell hit s fid f with None => true | _ => false end.
Fixpoint calls (s fid : nat) (fs : list cface) : list call :=
  match fs with
  | [] => []
  | f :: fs' => (if undecided s fid f then [(fc0 f, other_cell nc f, (2 * farea f)%Z, true)] else []) ++ calls s (S fid) fs'
  end.
Fixpoint paid (s fid : nat) (fs : list cface) (lab : nat -> bool) : Z :=
  match fs with
  | [] => 0%Z
  | f :: fs' => (match deciding shell hit s fid f with Some t => pay (pos fid t) f lab | None => 0 end + paid s (S fid) fs' lab)%Z
  end.

Lemma cost_split s lab : forall fs fid,
  faces_cost shell hit pos nc s lab fid fs = (paid s fid fs lab + pair_energy lab (calls s fid fs))%Z.
Proof.
  induction fs as [|f fs IH]; intros fid; simpl; auto. rewrite IH, pair_energy_app.
  unfold face_cost, undecided, other_cell. destruct (deciding shell hit s fid f) as [t|].
  - unfold pay. simpl. ring.
  - simpl. destruct (lab (fc0 f)), (lab match fc1 f with Some c => c | None => nc end); simpl; ring.
Qed.

Lemma mark_faces_ok : forall fs fid m, marks_ok m -> Forall (face_ok shell nc) fs -> fid + length fs <= nf ->
  (forall s b k, s < ns -> nth_error (m_black m) s = Some b -> fid <= k -> nth k b false = false) ->
  exists m', mark_faces shell hit pos fid m fs = Some m' /\ marks_ok m' /\
    forall s, s < ns -> forall e i b, at_shell m s e i b -> exists e' i' b', at_shell m' s e' i' b' /\
      (forall lab, terminal_energy e' i' lab 0 = (terminal_energy e i lab 0 + paid s fid fs lab)%Z) /\
      (forall k, k < fid -> nth k b' false = nth k b false) /\
      (forall k f, nth_error fs k = Some f -> nth (fid + k) b' false = negb (undecided s (fid + k) f)).
Proof using Sh.
  induction fs as [|f fs IH]; intros fid m M F Hl Z0; simpl.
  { exists m. split; [reflexivity|]. split; [exact M|]. intros s Hs e i b A. exists e, i, b. split; [exact A|].
    split; [intros; ring|]. split; auto. intros [|k] f E; discriminate. }
  inversion F as [|? ? Fo F']; subst. simpl in Hl.
  destruct (mark_tris_ok fid f Fo ltac:(lia) (ftris f) m M (proj1 (proj2 (proj2 Fo)))) as (m1 & E1 & M1 & S1). rewrite E1.
  pose proof M as (_ & _ & _ & Mr).
  destruct (IH (S fid) m1 M1 F' ltac:(lia)) as (m2 & E2 & M2 & S2).
  { intros s b1 k Hs B1 Hk. destruct (Mr s Hs) as (e & i & b & A & O). pose proof A as (_ & _ & A3).
    destruct (S1 s Hs b A3 e i b A O) as (e' & i' & b' & (_ & _ & A3') & O' & D). rewrite B1 in A3'. injection A3' as <-.
    specialize (Z0 s b k Hs A3 ltac:(lia)). destruct (decide s fid b (ftris f)).
    - destruct D as (-> & _). rewrite nth_upd_neq by lia. exact Z0.
    - destruct D as (_ & _ & ->). exact Z0. }
  exists m2. split; [exact E2|]. split; [exact M2|].
  intros s Hs e i b A. destruct (Mr s Hs) as (e0 & i0 & b0 & A0 & O).
  assert (e0 = e /\ i0 = i /\ b0 = b) as (-> & -> & ->).
  { destruct A as (a1 & a2 & a3), A0 as (c1 & c2 & c3). rewrite a1 in c1. rewrite a2 in c2. rewrite a3 in c3.
    injection c1 as <-. injection c2 as <-. injection c3 as <-. auto. }
  pose proof A as (_ & _ & A3). pose proof (so_b _ _ _ _ _ O) as Lb.
  destruct (S1 s Hs b A3 e i b A O) as (e1 & i1 & b1 & A1 & O1 & D1).
  destruct (S2 s Hs e1 i1 b1 A1) as (e2 & i2 & b2 & A2 & T2 & Lo2 & Hi2).
  exists e2, i2, b2. split; [exact A2|].
  unfold decide in D1. rewrite (Z0 s b fid Hs A3 (le_n _)) in D1.
  change (find (meets s fid) (ftris f)) with (deciding shell hit s fid f) in D1.
  split; [|split].
  - intros lab. rewrite T2. destruct (deciding shell hit s fid f); simpl in D1.
    + destruct D1 as (_ & T1). rewrite T1. ring.
    + destruct D1 as (-> & -> & _). ring.
  - intros k Hk. rewrite Lo2 by lia. destruct (deciding shell hit s fid f); simpl in D1.
    + destruct D1 as (-> & _). apply nth_upd_neq. lia.
    + destruct D1 as (_ & _ & ->). reflexivity.
  - intros [|k] g E; simpl in E.
    + injection E as <-. rewrite Nat.add_0_r, Lo2 by lia. unfold undecided.
      destruct (deciding shell hit s fid f); simpl in D1.
      * destruct D1 as (-> & _). rewrite nth_upd_eq by lia. reflexivity.
      * destruct D1 as (_ & _ & ->). apply (Z0 s b fid Hs A3 (le_n _)).
    + replace (fid + S k) with (S fid + k) by lia. apply Hi2. exact E.
Qed.

Lemma start_all_ok total : forall le li, length le = length li -> (forall s i, nth_error li s = Some i -> nc < length i) ->
  exists bs, start_all nc total (combine le li) = Some bs /\ length bs = length le /\
    forall s e i, nth_error le s = Some e -> nth_error li s = Some i -> nth_error bs s = Some (arc_builder_new e (upd i nc total)).
Proof.
  induction le as [|e le IH]; intros [|i li] L H; simpl in *; try discriminate.
  - exists []. split; [reflexivity|]. split; [reflexivity|]. intros [|s]; discriminate.
  - destruct (IH li ltac:(lia) (fun s => H (S s))) as (bs & E & Lb & N).
    unfold start_arcs at 1. simpl. unfold set. rewrite (proj2 (Nat.ltb_lt _ _) (H 0 i eq_refl)), E.
    eexists. split; [reflexivity|]. split; [simpl; lia|]. intros [|s] e' i' E1 E2; simpl in *.
    + injection E1 as <-. injection E2 as <-. reflexivity.
    + apply N; auto.
Qed.

Lemma face_arcs_ok black fid f : length black = ns ->
  (forall s b, nth_error black s = Some b -> fid < length b) ->
  forall ss bs, length bs = ns -> (forall s, In s ss -> s < ns) -> NoDup ss ->
  exists bs', face_arcs nc black fid f bs ss = Some bs' /\ length bs' = ns /\
    (forall s, ~ In s ss -> nth_error bs' s = nth_error bs s) /\
    forall s a b, In s ss -> nth_error bs s = Some a -> nth_error black s = Some b ->
      nth_error bs' s = Some (if nth fid b false then a else add_arc a (fc0 f) (other_cell nc f) (2 * farea f)%Z true).
Proof.
  intros Lb Rows. induction ss as [|s ss IH]; intros bs L In1 Nd; simpl.
  { exists bs. split; [reflexivity|]. split; [exact L|]. split; [auto|intros ? ? ? []]. }
  apply NoDup_cons_iff in Nd. destruct Nd as [Nn Nd].
  destruct (nth_error_ex black s) as (row & Er); [rewrite Lb; apply In1; now left|]. rewrite Er.
  pose proof (Rows s row Er) as Hfid.
  rewrite (nth_error_nth' row false Hfid).
  destruct (nth_error_ex bs s) as (a & Ea); [rewrite L; apply In1; now left|].
  destruct (nth fid row false) eqn:Q.
  - destruct (IH bs L) as (bs' & E & L' & Old & New); auto. { intros; apply In1; now right. }
    exists bs'. split; [exact E|]. split; [exact L'|]. split.
    + intros s' Hn. apply Old. intros Hin. apply Hn. now right.
    + intros s' a' b [<-|Hin] E1 E2.
      * rewrite Er in E2. injection E2 as <-. rewrite Q, Old; auto.
      * apply New; auto.
  - rewrite Ea.
    destruct (IH (upd bs s (add_arc a (fc0 f) (other_cell nc f) (2 * farea f)%Z true))) as (bs' & E & L' & Old & New); auto.
    { now rewrite upd_length. } { intros; apply In1; now right. }
    exists bs'. split; [exact E|]. split; [exact L'|]. split.
    + intros s' Hn. rewrite Old by (intros Hin; apply Hn; now right). apply nth_error_upd_neq. intros <-. apply Hn. now left.
    + intros s' a' b [<-|Hin] E1 E2.
      * rewrite Er in E2. injection E2 as <-. rewrite Q, Old by auto. rewrite Ea in E1. injection E1 as <-.
        apply nth_error_upd_eq. rewrite L. apply In1. now left.
      * apply New; auto. rewrite nth_error_upd_neq; auto. intros <-. contradiction.
Qed.

Lemma all_arcs_ok black : length black = ns -> forall fs fid bs, length bs = ns ->
  (forall s b, nth_error black s = Some b -> fid + length fs <= length b) ->
  (forall s b k f, nth_error black s = Some b -> nth_error fs k = Some f -> nth (fid + k) b false = negb (undecided s (fid + k) f)) ->
  exists bs', all_arcs nc ns black fid bs fs = Some bs' /\ length bs' = ns /\
    forall s src snk ks, s < ns -> nth_error bs s = Some (built src snk ks) ->
      nth_error bs' s = Some (built src snk (ks ++ calls s fid fs)).
Proof.
  intros Lb. induction fs as [|f fs IH]; intros fid bs L Rows Bl; simpl.
  { exists bs. split; [reflexivity|]. split; [exact L|]. intros. now rewrite app_nil_r. }
  destruct (face_arcs_ok black fid f Lb) with (ss := seq 0 ns) (bs := bs) as (bs1 & E1 & L1 & _ & N1); auto.
  { intros s b Eb. specialize (Rows s b Eb). simpl in Rows. lia. }
  { intros s Hin. apply in_seq in Hin. lia. }
  { apply seq_NoDup. }
  rewrite E1. destruct (IH (S fid) bs1 L1) as (bs2 & E2 & L2 & N2).
  { intros s b Eb. specialize (Rows s b Eb). simpl in Rows. lia. }
  { intros s b k g Eb Eg. replace (S fid + k) with (fid + S k) by lia. apply Bl; auto. }
  exists bs2. split; [exact E2|]. split; [exact L2|]. intros s src snk ks Hs Eb.
  destruct (nth_error_ex black s) as (b & Ebl); [lia|].
  pose proof (N1 s _ b ltac:(apply in_seq; lia) Eb Ebl) as Q.
  pose proof (Bl s b 0 f Ebl eq_refl) as Q0. rewrite Nat.add_0_r in Q0. rewrite Q0 in Q.
  rewrite app_assoc. apply N2; auto. rewrite Q.
  destruct (undecided s fid f); simpl.
  - f_equal. symmetry. apply built_snoc.
  - now rewrite app_nil_r.
Qed.

Lemma calls_ok s : forall fs fid, Forall (face_ok shell nc) fs -> Forall (call_ok (S nc)) (calls s fid fs).
Proof.
  induction fs as [|f fs IH]; intros fid F; simpl; [constructor|]. inversion F as [|? ? (C0 & C1 & _ & Ar) F']; subst.
  apply Forall_app. split; [|apply IH; auto]. destruct (undecided s fid f); constructor; [|constructor].
  assert (A2 : (0 <= 2 * farea f)%Z) by lia. unfold other_cell, call_ok.
  destruct (fc1 f) as [c|]; [destruct (C1 c eq_refl)|]; (split; [lia|split; [lia|split; [lia|exact A2]]]).
Qed.
End P.

Lemma no_marks_ok ns nc nf : marks_ok nc nf ns (no_marks ns nc nf).
Proof.
  unfold marks_ok, no_marks. cbn [m_ext m_int m_black]. rewrite !repeat_length. repeat (split; [reflexivity|]).
  intros s Hs. exists (repeat 0%Z (S nc)), (repeat 0%Z (S nc)), (repeat false nf).
  split; [unfold at_shell; cbn [m_ext m_int m_black]; rewrite !nth_error_repeat_lt by auto; auto|].
  constructor; rewrite ?repeat_length; auto.
  - apply Forall_forall. intros x Hx. apply repeat_spec in Hx. lia.
  - apply Forall_forall. intros x Hx. apply repeat_spec in Hx. lia.
  - apply nth_error_repeat_lt. lia.
Qed.

Lemma sum_total fs : sum_area fs = total_area fs.
Proof. induction fs; simpl; congruence. Qed.
Lemma total_nonneg shell nc fs : Forall (face_ok shell nc) fs -> (0 <= total_area fs)%Z.
Proof. induction 1 as [|f fs (_ & _ & _ & A) _ IH]; simpl; lia. Qed.

(** The graphs, with their arcs as built by [ArcBuilder]. *)
Lemma shell_graphs_built shell hit pos nc fs : shell <> [] -> Forall (face_ok shell nc) fs ->
  exists gs, shell_graphs shell hit pos nc fs = Some gs /\ length gs = S (list_max shell) /\
    forall s, s < S (list_max shell) -> exists src snk ks, nth_error gs s = Some (built src snk ks) /\
      length src = S nc /\ costs_ok src snk ks /\
      forall lab, energy src snk ks lab = labelling_cost shell hit pos nc s fs lab.
Proof.
  intros Ne F. unfold shell_graphs, n_shells. destruct shell as [|s0 shell'] eqn:Esh; [congruence|]. rewrite <- Esh in *. clear Ne.
  set (ns := S (list_max shell)).
  assert (Sh : forall t s, nth_error shell t = Some s -> s < ns).
  { intros t s E. apply nth_error_In in E. pose proof (proj1 (list_max_le shell (list_max shell)) (le_n _)) as Q.
    rewrite Forall_forall in Q. specialize (Q s E). unfold ns. lia. }
  destruct (mark_faces_ok shell hit pos nc (length fs) ns Sh fs 0 (no_marks ns nc (length fs))) as (m & Em & M & D); auto.
  { apply no_marks_ok. }
  { intros s b k Hs Eb _. cbn [m_black no_marks] in Eb; unfold no_marks in Eb; cbn [m_black] in Eb. rewrite nth_error_repeat_lt in Eb by exact Hs. injection Eb as <-. clear.
    revert k. induction (length fs); intros [|k]; simpl; auto. }
  rewrite Em. pose proof M as (L1 & L2 & L3 & Mr).
  destruct (start_all_ok nc (2 * sum_area fs)%Z (m_ext m) (m_int m)) as (bs & Eb & Lb & Nb).
  { congruence. }
  { intros s i Ei. assert (Hs : s < ns) by (rewrite <- L2; eapply nth_error_lt; eauto).
    destruct (Mr s Hs) as (e & i' & b & (_ & A2 & _) & O). rewrite Ei in A2. injection A2 as <-.
    rewrite (so_i _ _ _ _ _ O). lia. }
  rewrite Eb.
  assert (D0 : forall s, s < ns -> exists e i b, at_shell m s e i b /\ shell_ok nc (length fs) e i b /\
    (forall lab, terminal_energy e i lab 0 = paid shell hit pos s 0 fs lab) /\
    forall k f, nth_error fs k = Some f -> nth k b false = negb (undecided shell hit s k f)).
  { intros s Hs. destruct (D s Hs (repeat 0%Z (S nc)) (repeat 0%Z (S nc)) (repeat false (length fs))) as (e & i & b & A & T & _ & B).
    { unfold at_shell, no_marks. cbn [m_ext m_int m_black]. rewrite !nth_error_repeat_lt by auto. auto. }
    destruct (Mr s Hs) as (e' & i' & b' & A' & O').
    assert (e' = e /\ i' = i /\ b' = b) as (-> & -> & ->).
    { destruct A as (a1 & a2 & a3), A' as (c1 & c2 & c3). rewrite a1 in c1. rewrite a2 in c2. rewrite a3 in c3.
      injection c1 as <-. injection c2 as <-. injection c3 as <-. auto. }
    exists e, i, b. split; [exact A|]. split; [exact O'|]. split; [|exact B].
    intros lab. rewrite T, terminal_zero. ring. }
  destruct (all_arcs_ok shell hit nc ns (m_black m) L3 fs 0 bs) as (gs & Eg & Lg & Ng).
  { congruence. }
  { intros s b Ebl. assert (Hs : s < ns) by (rewrite <- L3; eapply nth_error_lt; eauto).
    destruct (D0 s Hs) as (e & i & b' & (_ & _ & A3) & O & _). rewrite Ebl in A3. injection A3 as <-.
    rewrite (so_b _ _ _ _ _ O). lia. }
  { intros s b k f Ebl Ef. assert (Hs : s < ns) by (rewrite <- L3; eapply nth_error_lt; eauto).
    destruct (D0 s Hs) as (e & i & b' & (_ & _ & A3) & O & _ & B). rewrite Ebl in A3. injection A3 as <-. simpl. auto. }
  exists gs. split; [exact Eg|]. split; [exact Lg|].
  intros s Hs. destruct (D0 s Hs) as (e & i & b & (A1 & A2 & A3) & O & T & _).
  exists e, (upd i nc (2 * sum_area fs)%Z), (calls shell hit nc s 0 fs).
  split; [apply (Ng s e (upd i nc (2 * sum_area fs)%Z) [] Hs); exact (Nb s e i A1 A2)|].
  pose proof (so_e _ _ _ _ _ O) as Le. pose proof (so_i _ _ _ _ _ O) as Li.
  split; [exact Le|]. split.
  - split; [rewrite upd_length; congruence|]. split; [exact (so_ep _ _ _ _ _ O)|]. split.
    + apply Forall_upd; [exact (so_ip _ _ _ _ _ O)|]. rewrite sum_total. pose proof (total_nonneg _ _ _ F). lia.
    + rewrite Le. apply calls_ok. exact F.
  - intros lab. unfold energy, labelling_cost. rewrite cost_split. change (total_area fs) with (sum_area fs).
    pose proof (terminal_snk e i nc 0%Z (2 * sum_area fs)%Z lab 0 (so_out _ _ _ _ _ O) ltac:(congruence)) as Q.
    rewrite Z.add_0_l in Q. rewrite Q, T. simpl (0 + nc). destruct (lab nc); ring.
Qed.
