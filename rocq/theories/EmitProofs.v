(** Proofs about the output of complex_partition. *)
From Coq Require Import List Arith Bool Lia.
From Verif Require Import Lib Emit EmitSpec.
Import ListNotations.

Lemma existsb_in v l : existsb (Nat.eqb v) l = true <-> In v l.
Proof. rewrite existsb_exists. split; [intros (x & H & E); apply Nat.eqb_eq in E; congruence|]. intros H. exists v. split; auto. apply Nat.eqb_refl. Qed.
Lemma firsts_app s l l' : firsts s (l ++ l') = firsts (firsts s l) l'.
Proof. revert s. induction l as [|v l IH]; intros s; cbn; auto. Qed.
Lemma firsts_ext l : forall s, exists e, firsts s l = s ++ e.
Proof.
  induction l as [|v l IH]; intros s; cbn; [exists []; now rewrite app_nil_r|]. destruct (existsb (Nat.eqb v) s); [apply IH|].
  destruct (IH (s ++ [v])) as (e & ->). exists (v :: e). now rewrite <- app_assoc.
Qed.
Lemma firsts_nodup l : forall s, NoDup s -> NoDup (firsts s l).
Proof.
  induction l as [|v l IH]; intros s H; cbn; auto. apply IH. destruct (existsb (Nat.eqb v) s) eqn:E; auto.
  assert (Nv : ~ In v s) by (rewrite <- existsb_in; congruence). clear -H Nv. induction s as [|a s IH]; cbn; [repeat constructor; auto|]. inversion H; subst. constructor.
  - rewrite in_app_iff. cbn in *. intuition.
  - apply IH; auto. cbn in Nv. tauto.
Qed.
Lemma firsts_in l : forall s v, In v (firsts s l) <-> In v s \/ In v l.
Proof.
  induction l as [|a l IH]; intros s v; cbn; [tauto|]. rewrite IH. destruct (existsb (Nat.eqb a) s) eqn:E.
  - apply existsb_in in E. split; [tauto|]. intros [?|[<-|?]]; auto.
  - rewrite in_app_iff. cbn. tauto.
Qed.
Lemma nth_ext {A} (l e : list A) i v : nth_error l i = Some v -> nth_error (l ++ e) i = Some v.
Proof. intros H. rewrite nth_error_app1; auto. now apply nth_error_lt in H. Qed.
Lemma f2_imp {A B} (P Q : A -> B -> Prop) l l' : (forall a b, P a b -> Q a b) -> Forall2 P l l' -> Forall2 Q l l'.
Proof. intros H F. induction F; constructor; auto. Qed.
Lemma f2_len {A B} (P : A -> B -> Prop) l l' : Forall2 P l l' -> length l = length l'.
Proof. induction 1; cbn; auto. Qed.
Lemma f2_nth {A B} (P : A -> B -> Prop) l l' i a : Forall2 P l l' -> nth_error l i = Some a -> exists b, nth_error l' i = Some b /\ P a b.
Proof. intros F. revert i. induction F; intros [|i] E; cbn in *; try discriminate; [injection E as <-; eauto|auto]. Qed.
Lemma f2_combine {A B C D} (P : A -> B -> Prop) (Q : C -> D -> Prop) l1 m1 l2 m2 : Forall2 P l1 m1 -> Forall2 Q l2 m2 ->
  Forall2 (fun x y => P (fst x) (fst y) /\ Q (snd x) (snd y)) (combine l1 l2) (combine m1 m2).
Proof. intros F. revert l2 m2. induction F; intros l2 m2 G; cbn; [constructor|]. destruct G; constructor; auto. Qed.
Lemma turns_length l : length (turns l) = length l.
Proof. destruct l as [|a l]; auto. unfold turns. rewrite combine_length, app_length, Nat.add_1_r. cbn [length]. apply Nat.min_id. Qed.
Lemma windows_turns (P : nat -> nat -> Prop) l l' : Forall2 P l l' -> Forall2 (fun s vw => P (fst s) (fst vw) /\ P (snd s) (snd vw)) (windows l) (turns l').
Proof. intros F. destruct F as [|a b l l' H F]; [constructor|]. unfold windows, turns. apply f2_combine; [now constructor|]. apply Forall2_app; auto. Qed.

Section Proofs.
Context {A : Type} (N : num A) (tri : list (A * A) -> list (nat * nat) -> list nat) (ex : list (A * A * A)).

Record inv (axis : nat) (ids pre seen : list nat) (s : @emitted A) : Prop := Inv {
  i_o : length (o2n s) = length ex;
  i_l : length (lvi s) = length ex;
  i_new : forall v k, nth_error (o2n s) v = Some (Some k) <-> nth_error ids k = Some v;
  i_out : Forall2 (fun v p => nth_error ex v = Some p) ids (outp s);
  i_loc : forall v k, nth_error (lvi s) v = Some (Some k) <-> exists j, k = length pre + j /\ nth_error seen j = Some v;
  i_fnv : Forall2 (fun k v => nth_error ids k = Some v) (fnv s) (pre ++ seen);
  i_flat : Forall2 (flat ex axis) (pre ++ seen) (p2d s) }.

Lemma app1 {B} (l : list B) x k v : nth_error (l ++ [x]) k = Some v <-> nth_error l k = Some v \/ k = length l /\ v = x.
Proof.
  destruct (Nat.lt_ge_cases k (length l)) as [H|H].
  - rewrite nth_error_app1 by auto. split; auto. intros [?|(-> & _)]; auto. lia.
  - rewrite nth_error_app2 by auto. destruct (k - length l) as [|d] eqn:Q; cbn.
    + split; [intros E; injection E as <-; right; split; auto; lia|]. intros [E|(_ & ->)]; auto. apply nth_error_lt in E. lia.
    + split; [destruct d; discriminate|]. intros [E|(-> & _)]; [apply nth_error_lt in E|]; lia.
Qed.
Lemma upd_some (l : list (option nat)) i k v k' : i < length l -> nth_error l i = Some None ->
  (nth_error (upd l i (Some k)) v = Some (Some k') <-> nth_error l v = Some (Some k') \/ v = i /\ k' = k).
Proof.
  intros Hi E. rewrite nth_error_upd. apply Nat.ltb_lt in Hi. rewrite Hi, andb_true_r. destruct (Nat.eqb_spec i v) as [<-|Nv].
  - rewrite E. split; [intros Q; injection Q as <-; auto|]. intros [Q|(_ & ->)]; [discriminate|auto].
  - split; auto. intros [?|(-> & _)]; auto. congruence.
Qed.

Lemma verts_ok axis l : forall ids pre seen s, inv axis ids pre seen s -> (forall v, In v l -> v < length ex) ->
  exists s' loc, emit_verts ex axis s l = Some (s', loc) /\ inv axis (firsts ids l) pre (firsts seen l) s' /\
    Forall2 (fun i v => nth_error (pre ++ firsts seen l) i = Some v) loc l.
Proof.
  induction l as [|v l IH]; intros ids pre seen s I B; cbn [emit_verts firsts]; [exists s, []; auto|].
  assert (Hv := B v (or_introl eq_refl)).
  set (ids1 := if existsb (Nat.eqb v) ids then ids else ids ++ [v]). set (seen1 := if existsb (Nat.eqb v) seen then seen else seen ++ [v]).
  assert (S1 : exists s1 k, number_vertex ex s v = Some (s1, k) /\ inv axis ids1 pre seen s1 /\ nth_error ids1 k = Some v).
  { unfold number_vertex. destruct (nth_error_ex (o2n s) v) as (o & Eo); [rewrite (i_o _ _ _ _ _ I); auto|]. rewrite Eo. destruct o as [k|].
    - exists s, k. split; auto. apply (i_new _ _ _ _ _ I) in Eo. assert (Q : existsb (Nat.eqb v) ids = true) by (apply existsb_in; eapply nth_error_In; eauto).
      unfold ids1. rewrite Q. auto.
    - assert (Q : existsb (Nat.eqb v) ids = false).
      { apply not_true_is_false. intros Q. apply existsb_in, In_nth_error in Q as (k & Q). apply (i_new _ _ _ _ _ I) in Q. congruence. }
      unfold ids1. rewrite Q. unfold set. rewrite (i_o _ _ _ _ _ I). rewrite (proj2 (Nat.ltb_lt _ _) Hv). destruct (nth_error_ex ex v Hv) as (p & Ep). rewrite Ep.
      assert (Ln := f2_len _ _ _ (i_out _ _ _ _ _ I)). eexists; eexists; split; [reflexivity|]. split; [|apply app1; right; auto].
      destruct I as [I1 I2 I3 I4 I5 I6 I7]. split; cbn [o2n outp lvi p2d fnv]; auto; [now rewrite upd_length| | |].
      + intros w k. rewrite upd_some by (auto; lia). rewrite app1, I3, Ln. tauto.
      + apply Forall2_app; auto.
      + eapply f2_imp; [|exact I6]. cbn. intros; now apply nth_ext. }
  destruct S1 as (s1 & k & E1 & I1 & K1). rewrite E1.
  assert (S2 : exists s2 i, local_vertex axis s1 v k = Some (s2, i) /\ inv axis ids1 pre seen1 s2 /\ nth_error (pre ++ seen1) i = Some v).
  { unfold local_vertex. destruct (nth_error_ex (lvi s1) v) as (o & Eo); [rewrite (i_l _ _ _ _ _ I1); auto|]. rewrite Eo. destruct o as [i|].
    - exists s1, i. split; auto. apply (i_loc _ _ _ _ _ I1) in Eo as (j & -> & Ej). assert (Q : existsb (Nat.eqb v) seen = true) by (apply existsb_in; eapply nth_error_In; eauto).
      unfold seen1. rewrite Q. split; auto. rewrite nth_error_app2 by lia. now replace (length pre + j - length pre) with j by lia.
    - assert (Q : existsb (Nat.eqb v) seen = false).
      { apply not_true_is_false. intros Q. apply existsb_in, In_nth_error in Q as (j & Q). assert (Z : nth_error (lvi s1) v = Some (Some (length pre + j))) by (apply (i_loc _ _ _ _ _ I1); eauto). congruence. }
      unfold seen1. rewrite Q. unfold set. rewrite (i_l _ _ _ _ _ I1). rewrite (proj2 (Nat.ltb_lt _ _) Hv).
      destruct (f2_nth _ _ _ _ _ (i_out _ _ _ _ _ I1) K1) as (p & Ep & Ex). rewrite Ep.
      assert (Ln := f2_len _ _ _ (i_flat _ _ _ _ _ I1)). rewrite app_length in Ln.
      eexists; eexists; split; [reflexivity|]. split; [|rewrite app_assoc; apply app1; right; split; auto; rewrite app_length; lia].
      destruct I1 as [J1 J2 J3 J4 J5 J6 J7]. split; cbn [o2n outp lvi p2d fnv]; auto; [now rewrite upd_length| | |].
      + intros w k'. rewrite upd_some by (auto; lia). rewrite J5. split.
        * intros [(j & -> & Ej)|(-> & ->)]; [exists j; split; auto; now apply nth_ext|]. exists (length seen). split; [lia|]. apply app1; auto.
        * intros (j & -> & Ej). apply app1 in Ej as [Ej|(-> & ->)]; [eauto|right; split; auto; lia].
      + rewrite app_assoc. apply Forall2_app; auto.
      + rewrite app_assoc. apply Forall2_app; auto. repeat constructor. exists p. auto. }
  destruct S2 as (s2 & i & E2 & I2 & K2). rewrite E2.
  destruct (IH ids1 pre seen1 s2 I2) as (s3 & loc & E3 & I3 & F3); [intros w Hw; apply B; now right|]. rewrite E3.
  exists s3, (i :: loc). split; auto. split; auto. constructor; auto. destruct (firsts_ext l seen1) as (e & Ee). rewrite Ee, app_assoc. now apply nth_ext.
Qed.

Lemma reset_ok vids : forall l, (forall v, In v vids -> v < length l) -> exists l', reset l vids = Some l' /\ length l' = length l /\
  forall v k, nth_error l' v = Some (Some k) <-> nth_error l v = Some (Some k) /\ ~ In v vids.
Proof.
  induction vids as [|a t IH]; intros l B; cbn [reset]; [exists l; split; auto; split; auto; cbn; tauto|].
  unfold set. assert (Ha := B a (or_introl eq_refl)). rewrite (proj2 (Nat.ltb_lt _ _) Ha).
  destruct (IH (upd l a None)) as (l' & E & L & H); [intros v Hv; rewrite upd_length; apply B; now right|].
  exists l'. split; auto. split; [now rewrite L, upd_length|]. intros v k. rewrite H, nth_error_upd, (proj2 (Nat.ltb_lt _ _) Ha), andb_true_r. cbn [In].
  destruct (Nat.eqb_spec a v) as [->|Nv]; split; intros (P & Q); try discriminate; intuition.
Qed.

Definition joins (loc : list nat) (s vw : nat * nat) : Prop := nth_error loc (fst s) = Some (fst vw) /\ nth_error loc (snd s) = Some (snd vw).
Lemma loops_ok axis ls : forall ids pre s, inv axis ids pre [] s -> (forall l v, In l ls -> In v l -> v < length ex) ->
  exists s' segs, emit_loops ex axis s ls = Some (s', segs) /\ inv axis (firsts ids (concat ls)) (pre ++ locals ls) [] s' /\
    Forall2 (joins (pre ++ locals ls)) segs (concat (map turns ls)).
Proof.
  induction ls as [|l ls IH]; intros ids pre s I B; cbn [emit_loops concat map locals].
  - exists s, []. unfold locals. cbn. rewrite app_nil_r. auto.
  - destruct (verts_ok axis l ids pre [] s I) as (s1 & loc & E1 & I1 & F1); [intros v; apply B; now left|]. rewrite E1.
    destruct (reset_ok l (lvi s1)) as (r & Er & Lr & Hr); [intros v Hv; rewrite (i_l _ _ _ _ _ I1); apply (B l); auto; now left|]. rewrite Er.
    assert (I2 : inv axis (firsts ids l) (pre ++ firsts [] l) [] (Emitted (o2n s1) (outp s1) r (p2d s1) (fnv s1))).
    { destruct I1 as [J1 J2 J3 J4 J5 J6 J7]. split; cbn [o2n outp lvi p2d fnv]; rewrite ?app_nil_r; auto; [congruence|].
      intros v k. rewrite Hr, J5. split; [|intros (j & _ & Ej); destruct j; discriminate].
      intros ((j & _ & Ej) & Nv). exfalso. apply Nv. apply nth_error_In, firsts_in in Ej. destruct Ej as [[]|]; auto. }
    destruct (IH _ _ _ I2) as (s2 & segs & E2 & I3 & F2); [intros; eapply B; eauto; now right|]. rewrite E2.
    unfold locals in *. cbn [map concat] in *. rewrite <- app_assoc in I3, F2. exists s2, (windows loc ++ segs). split; auto. rewrite firsts_app. split; auto.
    apply Forall2_app; auto. apply (f2_imp (fun s vw => nth_error (pre ++ firsts [] l) (fst s) = Some (fst vw) /\ nth_error (pre ++ firsts [] l) (snd s) = Some (snd vw))).
    + intros a b (P & Q). rewrite app_assoc. split; now apply nth_ext.
    + exact (windows_turns (fun i v => nth_error (pre ++ firsts [] l) i = Some v) loc l F1).
Qed.

Lemma terms_ok axis loc pts w vs : Forall2 (flat ex axis) loc pts -> Forall2 (joins loc) w vs ->
  exists ts, poly_terms N pts w = Some ts /\ Forall2 (fun vw t => exists p q, flat ex axis (fst vw) p /\ flat ex axis (snd vw) q /\ t = doubled N p q) vs ts.
Proof.
  intros F G. induction G as [|(a, b) vw w vs (Ha & Hb) G (ts & E & T)]; cbn [poly_terms]; [exists []; auto|]. cbn [fst snd] in *.
  destruct (f2_nth _ _ _ _ _ F Ha) as (p & Ep & Fp). destruct (f2_nth _ _ _ _ _ F Hb) as (q & Eq & Fq). rewrite Ep, Eq, E.
  eexists; split; [reflexivity|]. constructor; auto. exists p, q. auto.
Qed.
Lemma areas_ok axis loc pts ls : Forall2 (flat ex axis) loc pts -> forall done segs, Forall2 (joins loc) segs (concat (map turns ls)) ->
  exists areas, loop_areas N pts (done ++ segs) (length done) ls = Some areas /\ Forall2 (area_of N ex axis) ls areas.
Proof.
  intros F. induction ls as [|l ls IH]; intros done segs G; cbn [loop_areas]; [exists []; auto|]. cbn [map concat] in G.
  apply Forall2_app_inv_r in G as (w & rest & G1 & G2 & ->). assert (Lw := f2_len _ _ _ G1). rewrite turns_length in Lw.
  assert (Q : length (done ++ w ++ rest) <? length done + length l = false) by (apply Nat.ltb_ge; rewrite !app_length; lia). rewrite Q.
  rewrite skipn_app, Nat.sub_diag, skipn_all. cbn [app skipn]. rewrite <- Lw, firstn_app, Nat.sub_diag, firstn_all. cbn [firstn]. rewrite app_nil_r.
  destruct (terms_ok axis loc pts w (turns l) F G1) as (ts & Et & Ft). unfold poly_area. rewrite Et.
  destruct (IH (done ++ w) rest G2) as (areas & Ea & Fa). rewrite app_length, <- app_assoc in Ea. rewrite Ea. eexists; split; [reflexivity|]. constructor; auto. exists ts. auto.
Qed.

Context (O : ordered N).
Lemma max_from_ok l : forall pre best b, nth_error pre best = Some b -> (forall c, In c pre -> n_cmp N b c <> Some Lt) ->
  exists i a, position_max_from N l (length pre) best b = Some i /\ nth_error (pre ++ l) i = Some a /\ forall c, In c (pre ++ l) -> n_cmp N a c <> Some Lt.
Proof using O.
  destruct O as (O1 & O2 & O3 & O4). induction l as [|a l IH]; intros pre best b E H; cbn [position_max_from].
  - exists best, b. rewrite app_nil_r. auto.
  - assert (R : pre ++ a :: l = (pre ++ [a]) ++ l) by now rewrite <- app_assoc. rewrite R.
    assert (Ln : S (length pre) = length (pre ++ [a])) by (rewrite app_length; cbn; lia). rewrite Ln.
    assert (Up : n_cmp N b a <> Some Gt -> forall c, In c (pre ++ [a]) -> n_cmp N a c <> Some Lt).
    { intros G c Hc. apply in_app_or in Hc as [Hc|[<-|[]]]; [|apply O2]. apply (O4 c b a); auto. }
    assert (Em : nth_error (pre ++ [a]) (length pre) = Some a) by (rewrite nth_error_app2, Nat.sub_diag; auto).
    destruct (n_cmp N b a) as [[]|] eqn:Q; [| | |destruct (O1 b a); auto].
    + apply IH; auto. apply Up. discriminate.
    + apply IH; auto. apply Up. discriminate.
    + apply IH; [now apply nth_ext|]. intros c Hc. apply in_app_or in Hc as [Hc|[<-|[]]]; auto. congruence.
Qed.
Lemma max_ok l : l <> [] -> exists i a, position_max N l = Some i /\ nth_error l i = Some a /\ forall c, In c l -> n_cmp N a c <> Some Lt.
Proof using O.
  destruct l as [|a l]; [congruence|]. intros _. apply (max_from_ok l [a] 0 a); auto. intros c [<-|[]]. exact (proj1 (proj2 O) a).
Qed.
Lemma lookup_ok l is : (forall i, In i is -> i < length l) -> exists r, lookup_all l is = Some r /\ Forall2 (fun i v => nth_error l i = Some v) is r.
Proof.
  induction is as [|i is IH]; intros B; cbn [lookup_all]; [exists []; auto|]. destruct (nth_error_ex l i) as (v & E); [apply B; now left|]. rewrite E.
  destruct IH as (r & Er & F); [intros; apply B; now right|]. rewrite Er. eexists; split; [reflexivity|]. constructor; auto.
Qed.

Context (T : forall pts segs i, In i (tri pts segs) -> i < length pts).
Lemma face_ok ids o outs lv ls axis : inv axis ids [] [] (Emitted o outs lv [] []) -> ls <> [] -> (forall l v, In l ls -> In v l -> v < length ex) ->
  exists s t out, emit_face N tri ex o outs lv ls axis = Some (s, t) /\ inv axis (firsts ids (concat ls)) (locals ls) [] s /\
    shape N tri ex ls axis out /\ Forall2 (fun k v => nth_error (firsts ids (concat ls)) k = Some v) t out.
Proof using O T.
  intros I NE B. unfold emit_face. destruct (loops_ok axis ls ids [] _ I B) as (s & segs & E & I1 & F). rewrite E. cbn [app] in *.
  assert (Ff := i_fnv _ _ _ _ _ I1). assert (Fp := i_flat _ _ _ _ _ I1). rewrite app_nil_r in Ff, Fp.
  assert (Dec : {match ls with [l] => length l = 3 | _ => False end} + {~ match ls with [l] => length l = 3 | _ => False end}).
  { destruct ls as [|l [|]]; auto. apply Nat.eq_dec. }
  destruct Dec as [D|D].
  - assert (Q : match ls with [l] => length l =? 3 | _ => false end = true) by (destruct ls as [|l [|]]; try contradiction; now apply Nat.eqb_eq).
    rewrite Q. exists s, (fnv s), (locals ls). split; auto. split; auto. split; [left; auto|auto].
  - assert (Q : match ls with [l] => length l =? 3 | _ => false end = false) by (destruct ls as [|l [|]]; auto; now apply Nat.eqb_neq).
    rewrite Q. destruct (areas_ok axis (locals ls) (p2d s) ls Fp [] segs F) as (areas & Ea & Fa). cbn [app length] in Ea. rewrite Ea.
    destruct (max_ok (map (n_abs N) areas)) as (i & b & Ei & Eb & Hb). { destruct Fa; [congruence|discriminate]. }
    rewrite Ei. rewrite nth_error_map in Eb. destruct (nth_error areas i) as [a|] eqn:Eai; [|discriminate]. cbn in Eb. injection Eb as <-.
    set (pts := match n_cmp N a (n_zero N) with Some Lt => map swap2 (p2d s) | _ => p2d s end).
    assert (Lp : length pts = length (p2d s)) by (unfold pts; destruct (n_cmp N a (n_zero N)) as [[]|]; auto; apply map_length).
    assert (L1 := f2_len _ _ _ Ff). assert (L2 := f2_len _ _ _ Fp).
    destruct (lookup_ok (fnv s) (tri pts segs)) as (t & Et & Ft). { intros j Hj. apply T in Hj. lia. } rewrite Et.
    destruct (lookup_ok (locals ls) (tri pts segs)) as (out & _ & Fo). { intros j Hj. apply T in Hj. lia. }
    exists s, t, out. split; auto. split; auto. split.
    + right. split; auto. assert (El : exists l, nth_error ls i = Some l). { apply nth_error_ex. rewrite (f2_len _ _ _ Fa). now apply nth_error_lt in Eai. } destruct El as (l & El).
      exists (p2d s), segs, l, a, areas. split; auto. split; [exact F|]. split; auto. split; [eauto|]. split; [intros c Hc; apply Hb; now apply in_map|].
      unfold pts in Fo. destruct (n_cmp N a (n_zero N)) as [[]|]; exact Fo.
    + clear -Ft Fo Ff. revert t out Ft Fo. induction (tri pts segs) as [|j is IH]; intros t out Ft Fo; inversion Ft; inversion Fo; subst; constructor; auto.
      destruct (f2_nth _ _ _ _ _ Ff H1) as (v & Ev & Kv). congruence.
Qed.
Lemma inv_axis axis axis' ids pre s : inv axis ids pre [] s -> inv axis' ids [] [] (Emitted (o2n s) (outp s) (lvi s) [] []).
Proof.
  intros [J1 J2 J3 J4 J5 J6 J7]. split; cbn [o2n outp lvi p2d fnv app]; auto. intros v k. rewrite J5. split; intros (j & _ & E); destruct j; discriminate.
Qed.
Lemma faces_ok fs : forall ids o outs lv, inv 0 ids [] [] (Emitted o outs lv [] []) -> (forall ls a, In (ls, a) fs -> ls <> [] /\ forall l v, In l ls -> In v l -> v < length ex) ->
  exists outs' ts outl, emit_faces N tri ex o outs lv fs = Some (outs', ts) /\
    Forall2 (fun v p => nth_error ex v = Some p) (firsts ids (concat (concat (map fst fs)))) outs' /\
    Forall2 (fun f out => shape N tri ex (fst f) (snd f) out) fs outl /\
    Forall2 (fun k v => nth_error (firsts ids (concat (concat (map fst fs)))) k = Some v) ts (concat outl).
Proof using O T.
  induction fs as [|(ls, axis) fs IH]; intros ids o outs lv I B; cbn [emit_faces map concat fst].
  - exists outs, [], []. split; auto. split; [apply I|]. split; constructor.
  - destruct (B ls axis (or_introl eq_refl)) as (NE & Bl).
    destruct (face_ok ids o outs lv ls axis) as (s & t & out & E & I1 & Sh & Ft); auto. { exact (inv_axis 0 axis ids [] _ I). } rewrite E.
    destruct (IH (firsts ids (concat ls)) (o2n s) (outp s) (lvi s)) as (outs' & ts & outl & E' & F1 & F2 & F3).
    { exact (inv_axis axis 0 _ _ _ I1). } { intros ls' a' H. apply (B ls' a'). now right. }
    rewrite E'. exists outs', (t ++ ts), (out :: outl). split; auto. rewrite concat_app, firsts_app. split; auto. split; [now constructor|].
    cbn [concat]. apply Forall2_app; auto. eapply f2_imp; [|exact Ft]. cbn. intros k v Hk.
    destruct (firsts_ext (concat (concat (map fst fs))) (firsts ids (concat ls))) as (e & ->). now apply nth_ext.
Qed.
End Proofs.
