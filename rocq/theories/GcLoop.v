(** GraphCut: building the graph, the main loop. *)
From Coq Require Import ZArith List Bool Arith Lia.
From Verif Require Import Lib GraphCut GcSpec GcBase GcTree GcAug GcAdopt.
Import ListNotations.

(** * Graphs as built *)
Lemma follow_links : forall g o l, links (anext g) o l -> forall fuel, length l <= fuel -> follow fuel g o = l.
Proof.
  intros g o l L. induction L; intros fuel Lf; [destruct fuel; auto|]. simpl in Lf. destruct fuel as [|fuel]; [lia|]. cbn [follow]. f_equal. apply IHL. lia.
Qed.
Record gbuilt (g : graph) : Prop := {
  gb_sis : forall a, a < n_arcs g -> sister g a < n_arcs g /\ sister g (sister g a) = a /\ sister g a <> a;
  gb_head : forall a, a < n_arcs g -> head g a < n_nodes g;
  gb_out : forall v, exists l, links (anext g) (first_arc g v) l /\ NoDup l /\ forall a, In a l <-> a < n_arcs g /\ tail g a = v }.
Lemma gbuilt_gwf : forall g, gbuilt g -> gwf g.
Proof.
  intros g [A B C]. constructor; auto. intros v a Hv. destruct (C v) as (l & L & N & H). unfold out_arcs.
  rewrite (follow_links g _ l L); auto. apply nodup_lt_length; auto. intros b Hb. apply H in Hb. tauto.
Qed.
Definition gadd (g : graph) (i j : nat) : graph :=
  Graph (n_nodes g) (S (S (n_arcs g))) (fupd (fupd (head g) (n_arcs g) j) (S (n_arcs g)) i)
        (fupd (fupd (anext g) (n_arcs g) (first_arc g i)) (S (n_arcs g)) (fupd (first_arc g) i (Some (n_arcs g)) j))
        (fupd (fupd (sister g) (n_arcs g) (S (n_arcs g))) (S (n_arcs g)) (n_arcs g))
        (fupd (fupd (first_arc g) i (Some (n_arcs g))) j (Some (S (n_arcs g)))).
Lemma gadd_old : forall g i j a, gbuilt g -> a < n_arcs g ->
  head (gadd g i j) a = head g a /\ sister (gadd g i j) a = sister g a /\ tail (gadd g i j) a = tail g a.
Proof.
  intros g i j a [A _ _] Ha. destruct (A a Ha) as (S1 & _ & _). unfold gadd. cbn [head sister].
  rewrite !(fupd_neq _ (S (n_arcs g)) _ a), !(fupd_neq _ (n_arcs g) _ a) by lia.
  rewrite !(fupd_neq _ (S (n_arcs g)) _ (sister g a)), !(fupd_neq _ (n_arcs g) _ (sister g a)) by lia. auto.
Qed.
Lemma gadd_new : forall g i j,
  head (gadd g i j) (n_arcs g) = j /\ head (gadd g i j) (S (n_arcs g)) = i /\
  sister (gadd g i j) (n_arcs g) = S (n_arcs g) /\ sister (gadd g i j) (S (n_arcs g)) = n_arcs g /\
  tail (gadd g i j) (n_arcs g) = i /\ tail (gadd g i j) (S (n_arcs g)) = j.
Proof.
  intros g i j. unfold gadd. cbn [head sister].
  repeat first [rewrite fupd_eq | rewrite (fupd_neq _ (S (n_arcs g)) _ (n_arcs g)) by lia]. repeat split.
Qed.
Lemma gadd_ok : forall g i j, gbuilt g -> i < n_nodes g -> j < n_nodes g -> gbuilt (gadd g i j).
Proof.
  intros g i j B Hi Hj. pose proof B as [A1 A2 A3]. pose proof (gadd_new g i j) as (N1 & N2 & N3 & N4 & N5 & N6).
  assert (NA : n_arcs (gadd g i j) = S (S (n_arcs g))) by auto.
  assert (CS : forall a, a < S (S (n_arcs g)) -> a < n_arcs g \/ a = n_arcs g \/ a = S (n_arcs g)) by lia.
  constructor; rewrite NA.
  - intros a Ha. destruct (CS a Ha) as [H|[->| ->]].
    + destruct (gadd_old g i j a B H) as (_ & -> & _). destruct (A1 a H) as (S1 & S2 & S3).
      destruct (gadd_old g i j _ B S1) as (_ & -> & _). split; [lia|auto].
    + rewrite N3, N4. lia.
    + rewrite N4, N3. lia.
  - intros a Ha. change (n_nodes (gadd g i j)) with (n_nodes g). destruct (CS a Ha) as [H|[->| ->]].
    + destruct (gadd_old g i j a B H) as (-> & _). auto.
    + rewrite N1. auto.
    + rewrite N2. auto.
  - intros v.
    assert (OLD : forall u l, links (anext g) (first_arc g u) l -> (forall a, In a l <-> a < n_arcs g /\ tail g a = u) -> links (anext (gadd g i j)) (first_arc g u) l).
    { intros u l L H. apply links_ext with (2 := L). intros a Ha. apply H in Ha. unfold gadd. cbn [anext]. rewrite !fupd_neq by lia. auto. }
    assert (X1 : anext (gadd g i j) (n_arcs g) = first_arc g i).
    { unfold gadd. cbn [anext]. rewrite fupd_neq by lia. apply fupd_eq. }
    assert (X2 : anext (gadd g i j) (S (n_arcs g)) = fupd (first_arc g) i (Some (n_arcs g)) j) by (unfold gadd; cbn [anext]; apply fupd_eq).
    assert (X3 : first_arc (gadd g i j) v = fupd (fupd (first_arc g) i (Some (n_arcs g))) j (Some (S (n_arcs g))) v) by auto.
    destruct (A3 v) as (l & L & N & H).
    (* the arcs out of v after the first of the two *)
    assert (ONE : exists l1, links (anext (gadd g i j)) (fupd (first_arc g) i (Some (n_arcs g)) v) l1 /\ NoDup l1 /\
       forall a, In a l1 <-> a < S (n_arcs g) /\ tail (gadd g i j) a = v).
    { assert (HO : forall a, a < n_arcs g -> (In a l <-> tail (gadd g i j) a = v)).
      { intros a Ha. destruct (gadd_old g i j a B Ha) as (_ & _ & ->). rewrite H. tauto. }
      assert (LT : forall a, In a l -> a < n_arcs g) by (intros a Ia; apply H in Ia; tauto).
      destruct (Nat.eq_dec v i) as [->|Nv].
      - rewrite fupd_eq. exists (n_arcs g :: l). split; [constructor; rewrite X1; apply OLD; auto|].
        split; [constructor; auto; intros I; apply LT in I; lia|]. intros a. simpl. split.
        + intros [<-|I]; [split; [lia|auto]|]. pose proof (LT a I). split; [lia|]. apply HO; auto.
        + intros [Ha Ta]. assert (D : a = n_arcs g \/ a < n_arcs g) by lia. destruct D as [->|D]; auto. right. apply HO; auto.
      - rewrite fupd_neq by auto. exists l. split; [apply OLD; auto|]. split; auto. intros a. split.
        + intros I. pose proof (LT a I). split; [lia|]. apply HO; auto.
        + intros [Ha Ta]. assert (D : a = n_arcs g \/ a < n_arcs g) by lia. destruct D as [->|D]; [congruence|]. apply HO; auto. }
    destruct ONE as (l1 & L1 & ND1 & H1). rewrite X3.
    destruct (Nat.eq_dec v j) as [->|Nv].
    + rewrite fupd_eq. exists (S (n_arcs g) :: l1). split; [constructor; rewrite X2; auto|].
      split; [constructor; auto; intros I; apply H1 in I; lia|]. intros a. simpl. rewrite H1. split.
      * intros [<-|[Ha Ta]]; [split; [lia|auto]|]. split; [lia|auto].
      * intros [Ha Ta]. assert (D : a = S (n_arcs g) \/ a < S (n_arcs g)) by lia. destruct D as [->|D]; auto.
    + rewrite fupd_neq by auto. exists l1. split; auto. split; auto. intros a. rewrite H1. split.
      * intros [Ha Ta]. split; [lia|auto].
      * intros [Ha Ta]. assert (D : a = S (n_arcs g) \/ a < S (n_arcs g)) by lia. destruct D as [->|D]; auto. congruence.
Qed.
Lemma rescap_add : forall g i j r c x cap rev, gbuilt g ->
  rescap (gadd g i j) (fupd (fupd r (n_arcs g) cap) (S (n_arcs g)) rev) c x = (rescap g r c x + edge_cost x (i, j, cap, rev))%Z.
Proof.
  intros g i j r c x cap rev B. pose proof (gadd_new g i j) as (N1 & N2 & N3 & N4 & N5 & N6). unfold rescap.
  change (n_arcs (gadd g i j)) with (S (S (n_arcs g))). change (n_nodes (gadd g i j)) with (n_nodes g). cbn [sumn].
  rewrite (sumn_ext _ (fun a => if crosses g x a then r a else 0%Z) (n_arcs g)).
  2:{ intros a Ha. destruct (gadd_old g i j a B Ha) as (E1 & _ & E3). unfold crosses. rewrite E3, E1. rewrite !fupd_neq by lia. auto. }
  unfold crosses at 2 3. rewrite N5, N1, N6, N2, fupd_eq. rewrite (fupd_neq _ (S (n_arcs g)) _ (n_arcs g)) by lia. rewrite fupd_eq. cbn [edge_cost]. lia.
Qed.

(** * The states of the main loop *)
Record linv (cut : (nat -> bool) -> Z) (s : gc) (cur : option nat) : Prop := {
  li_w : gwf (gr s);
  li_r : forall a, (0 <= r_cap s a)%Z;
  li_c : forall x, cut x = (flow s + rescap (gr s) (r_cap s) (tr_cap s) x)%Z;
  li_o : order (gr s) (tr s) (time s);
  li_s : shape (gr s) (r_cap s) (tr_cap s) (tr s);
  li_u : forall v, v < n_nodes (gr s) -> parent (tr s) v <> POrphan;
  li_f : ofirst (orp s) = None;
  li_p : passive (gr s) (r_cap s) (tr s) (active (act s));
  li_q : qok (act s) cur (n_nodes (gr s)) }.

(** * Building establishes them *)
Lemma activate_all_ok : forall n trc is t q t' q', activate_all is trc t q = (t', q') -> (forall v, In v is -> v < n) -> NoDup is -> qok q None n ->
  ts t' = ts t /\ dist t' = dist t /\ qok q' None n /\
  (forall v, parent t' v = if existsb (Nat.eqb v) is && Z.eqb (trc v) 0 then PNone else parent t v) /\
  (forall v, is_sink t' v = if existsb (Nat.eqb v) is then Z.ltb (trc v) 0 else is_sink t v) /\
  (forall v, In v is -> trc v <> 0%Z -> active q' v = true) /\ (forall v, active q v = true -> active q' v = true).
Proof.
  intros n trc. induction is as [|i is IH]; intros t q t' q' E B ND Q; cbn [activate_all] in E.
  - injection E as <- <-. do 5 (split; [solve [auto]|]). split; [intros v []|auto].
  - apply NoDup_cons_iff in ND. destruct ND as [NI ND].
    assert (NE : existsb (Nat.eqb i) is = false).
    { destruct (existsb (Nat.eqb i) is) eqn:X; auto. apply existsb_exists in X. destruct X as (y & Y1 & Y2). apply Nat.eqb_eq in Y2. congruence. }
    assert (B' : forall v, In v is -> v < n) by (intros; apply B; right; auto).
    destruct (Z.eqb_spec (trc i) 0) as [Z0|NZ].
    + destruct (IH _ _ _ _ E B' ND Q) as (A1 & A2 & A3 & A4 & A5 & A6 & A7).
      split; auto. split; auto. split; auto. cbn [parent is_sink] in A4, A5. split; [|split; [|split; auto]].
      * intros v. rewrite A4. cbn [existsb]. destruct (Nat.eqb_spec v i) as [->|N].
        -- rewrite NE, Z0, fupd_eq. auto.
        -- rewrite fupd_neq by auto. auto.
      * intros v. rewrite A5. cbn [existsb]. destruct (Nat.eqb_spec v i) as [->|N]; [rewrite NE, fupd_eq; auto|rewrite fupd_neq by auto; auto].
      * intros v [<-|I]; [tauto|auto].
    + destruct (set_active_ok q None n i Q ltac:(apply B; left; auto)) as [Q1 Q2].
      destruct (IH _ _ _ _ E B' ND Q1) as (A1 & A2 & A3 & A4 & A5 & A6 & A7).
      split; auto. split; auto. split; auto. cbn [parent is_sink] in A4, A5. split; [|split; [|split]].
      * intros v. rewrite A4. cbn [existsb]. destruct (Nat.eqb_spec v i) as [->|N]; auto.
        rewrite NE. rewrite (proj2 (Z.eqb_neq _ _) NZ). auto.
      * intros v. rewrite A5. cbn [existsb]. destruct (Nat.eqb_spec v i) as [->|N]; [rewrite NE, fupd_eq; auto|rewrite fupd_neq by auto; auto].
      * intros v [<-|I] Hv; auto. apply A7. rewrite Q2, Nat.eqb_refl, orb_true_r. auto.
      * intros v Hv. apply A7. rewrite Q2, Hv. auto.
Qed.

(** While edges are being added every tree node is active. *)
Record binv (cut : (nat -> bool) -> Z) (s : gc) : Prop := {
  bi_g : gbuilt (gr s);
  bi_r : forall a, (0 <= r_cap s a)%Z;
  bi_c : forall x, cut x = (flow s + rescap (gr s) (r_cap s) (tr_cap s) x)%Z;
  bi_t : forall v, v < n_nodes (gr s) -> (parent (tr s) v = PNone /\ tr_cap s v = 0%Z) \/
     (parent (tr s) v = PTerm /\ (if is_sink (tr s) v then (tr_cap s v < 0)%Z else (0 < tr_cap s v)%Z) /\ active (act s) v = true);
  bi_d : ts (tr s) = (fun _ => 0) /\ dist (tr s) = (fun _ => 1) /\ time s = 0 /\ ofirst (orp s) = None;
  bi_q : qok (act s) None (n_nodes (gr s)) }.
Lemma binv_linv : forall cut s, binv cut s -> linv cut s None.
Proof.
  intros cut s [G R C T (D1 & D2 & D3 & D4) Q]. pose proof (gbuilt_gwf _ G) as W. constructor; auto.
  - constructor; rewrite ?D1, ?D2, ?D3; auto. intros v a Hv E. destruct (T v Hv) as [[X _]|(X & _)]; congruence.
  - constructor; [intros v Hv E|intros v Hv E|intros v Hv E|intros v a Hv E]; destruct (T v Hv) as [(X & Y)|(X & Y & _)]; try congruence; auto.
  - intros v Hv E. destruct (T v Hv) as [[X _]|(X & _)]; congruence.
  - intros sd a Ha NZ [I1 _] Ac. assert (Ht : tail (gr s) a < n_nodes (gr s)) by (apply gw_head; auto; apply gw_sis; auto).
    destruct (T _ Ht) as [[X _]|(_ & _ & X)]; congruence.
Qed.

Lemma sumn_zsum : forall f n, sumn f n = zsum (map f (seq 0 n)).
Proof.
  intros f. induction n; auto. rewrite seq_S, map_app. unfold zsum. rewrite fold_right_app. simpl. rewrite IHn. unfold zsum.
  generalize (map f (seq 0 n)). intros l. rewrite Z.add_0_r. induction l; simpl; lia.
Qed.
Lemma fold_left_add : forall (l : list (Z * Z)) z,
  fold_left (fun f p => Z.add f (if Z.ltb (fst p) (snd p) then fst p else snd p)) l z = (z + zsum (map (fun p => Z.min (fst p) (snd p)) l))%Z.
Proof.
  induction l as [|a l IH]; intros z; simpl; [lia|]. rewrite IH. unfold zsum. simpl. destruct (Z.ltb_spec (fst a) (snd a)); lia.
Qed.
Lemma nth_combine : forall (l k : list Z) i, length k = length l -> i < length l -> nth i (map (fun p => Z.sub (fst p) (snd p)) (combine l k)) 0%Z = (nth i l 0 - nth i k 0)%Z.
Proof.
  induction l as [|a l IH]; intros [|b k] i E Hi; simpl in *; try lia. destruct i; auto. apply IH; lia.
Qed.
Lemma min_sum : forall (l k : list Z) (x : nat -> bool), length k = length l -> forall f : nat -> nat,
  zsum (map (fun v => if x (f v) then nth v k 0 else nth v l 0)%Z (seq 0 (length l))) =
  (zsum (map (fun p => Z.min (fst p) (snd p)) (combine l k)) +
   zsum (map (fun v => term_cap x (f v) (nth v l 0 - nth v k 0)%Z) (seq 0 (length l))))%Z.
Proof.
  induction l as [|a l IH]; intros [|b k] x E f; simpl in E; try lia; [reflexivity|].
  cbn [length seq map combine]. rewrite <- !seq_shift, !map_map. unfold zsum in *. cbn [fold_right fst snd nth].
  rewrite (IH k x ltac:(lia) (fun v => f (S v))). unfold term_cap. destruct (x (f 0)); lia.
Qed.
Lemma new_ok : forall src snk, length snk = length src ->
  exists s, new src snk = Some s /\ binv (cut_cost src snk []) s /\ n_nodes (gr s) = length src.
Proof.
  intros src snk E. unfold new. rewrite E, Nat.ltb_irrefl.
  set (trc := fun i => nth i (map (fun p => Z.sub (fst p) (snd p)) (combine src snk)) 0%Z).
  match goal with |- context [activate_all ?a ?b ?c ?d] => destruct (activate_all a b c d) as [t q] eqn:EA end.
  destruct (activate_all_ok (length src) trc _ _ _ _ _ EA) as (A1 & A2 & A3 & A4 & A5 & A6 & A7).
  { intros v Hv. apply in_seq in Hv. lia. }
  { apply seq_NoDup. }
  { exists [], []. split; [constructor|]. split; [exact I|]. split; [exact I|]. simpl. do 3 (split; auto). split; [|split]; [intros v; intuition discriminate|discriminate|tauto]. }
  eexists. split; [reflexivity|]. split; [|reflexivity].
  assert (TR : forall v, v < length src -> trc v = (nth v src 0 - nth v snk 0)%Z) by (intros v Hv; apply nth_combine; auto).
  assert (IN : forall v, v < length src -> existsb (Nat.eqb v) (seq 0 (length src)) = true).
  { intros v Hv. apply existsb_exists. exists v. rewrite Nat.eqb_refl. split; auto. apply in_seq. lia. }
  constructor; cbn [gr r_cap tr_cap flow tr act orp time n_nodes].
  - constructor; simpl; [lia|lia|]. intros v. exists []. split; [constructor|]. split; [constructor|]. intros a. split; [intros []|lia].
  - intros; lia.
  - intros x. unfold cut_cost. rewrite fold_left_add. rewrite (min_sum src snk x E (fun v => v)). unfold rescap. cbn [n_arcs n_nodes sumn map].
    rewrite (sumn_ext _ (fun v => term_cap x v (nth v src 0 - nth v snk 0)%Z)) by (intros; rewrite TR; auto).
    rewrite sumn_zsum. unfold zsum at 3. simpl. lia.
  - intros v Hv. rewrite A4, A5, IN by auto. cbn [andb parent is_sink]. destruct (Z.eqb_spec (trc v) 0) as [Z0|NZ]; auto.
    right. split; auto. split; [|apply A6; auto; apply in_seq; lia]. destruct (Z.ltb_spec (trc v) 0); lia.
  - rewrite A1, A2. auto.
  - auto.
Qed.
Lemma add_edge_ok : forall cut s i j cap rev, binv cut s -> i < n_nodes (gr s) -> j < n_nodes (gr s) -> (0 <= cap)%Z -> (0 <= rev)%Z ->
  binv (fun x => cut x + edge_cost x (i, j, cap, rev))%Z (add_edge s i j cap rev).
Proof.
  intros cut s i j cap rev [G R C T D Q] Hi Hj Hc Hr. unfold add_edge. fold (gadd (gr s) i j).
  constructor; cbn [gr r_cap tr_cap flow tr act orp time]; auto.
  - apply gadd_ok; auto.
  - intros a. fcase a (S (n_arcs (gr s))); auto. fcase a (n_arcs (gr s)); auto.
  - intros x. rewrite rescap_add by auto. rewrite C. lia.
Qed.
Lemma binv_ext : forall c c' s, (forall x, c' x = c x) -> binv c s -> binv c' s.
Proof. intros c c' s E [A B C D F G]. constructor; auto. intros x. rewrite E. auto. Qed.
Lemma build_ok : forall src snk edges, valid_graph src snk edges ->
  exists s, build src snk edges = Some s /\ linv (cut_cost src snk edges) s None /\ n_nodes (gr s) = length src.
Proof.
  intros src snk edges (E & F). unfold build. destruct (new_ok src snk E) as (s & -> & B & N).
  eexists. split; [reflexivity|].
  assert (H : forall es done s, Forall (fun e => let '(i, j, cap, rev_cap) := e in (i < length src)%nat /\ (j < length src)%nat /\ (0 <= cap)%Z /\ (0 <= rev_cap)%Z) es ->
     binv (cut_cost src snk done) s -> n_nodes (gr s) = length src ->
     let s' := fold_left (fun s e => let '(i, j, c, r) := e in add_edge s i j c r) es s in
     binv (cut_cost src snk (done ++ es)) s' /\ n_nodes (gr s') = length src).
  { clear. induction es as [|[[[i j] c] r] es IH]; intros done s F B N; [rewrite app_nil_r; auto|]. inversion F; subst. destruct H1 as (H1 & H1' & H1'' & H1''').
    cbn [fold_left]. replace (done ++ (i, j, c, r) :: es) with ((done ++ [(i, j, c, r)]) ++ es) by (rewrite <- app_assoc; auto).
    apply IH; auto. apply (binv_ext (fun x => cut_cost src snk done x + edge_cost x (i, j, c, r))%Z); [|apply add_edge_ok; auto; lia].
    intros x. unfold cut_cost. rewrite map_app. unfold zsum. rewrite (fold_right_app _ (map (edge_cost x) done)). cbn [map fold_right].
    generalize (map (edge_cost x) done). intros l. rewrite Z.add_0_r. rewrite <- Z.add_assoc. f_equal. induction l; cbn [fold_right]; lia. }
  destruct (H edges [] s F B N) as [H1 H2]. split; auto. apply binv_linv. auto.
Qed.

(** * A round of the main loop *)
Definition same_but_act (s s' : gc) : Prop :=
  gr s' = gr s /\ r_cap s' = r_cap s /\ tr_cap s' = tr_cap s /\ flow s' = flow s /\ tr s' = tr s /\ orp s' = orp s /\ time s' = time s.
Lemma passive_weak : forall g r t (f h : nat -> bool), gwf g -> (forall v, v < n_nodes g -> f v = true -> inT t false v \/ inT t true v -> h v = true) -> passive g r t f -> passive g r t h.
Proof.
  intros g r t f h W H P sd a Ha NZ I1 A. apply (P sd a); auto. destruct (f (tail g a)) eqn:E; auto.
  rewrite H in A; auto; [apply gw_head; auto; apply gw_sis; auto|]. destruct sd; auto.
Qed.
Lemma pick_ok : forall cut s cur, linv cut s cur ->
  exists s' o, pick s cur = Some (s', o) /\ same_but_act s s' /\ qok (act s') None (n_nodes (gr s)) /\
  match o with
  | None => (forall v, active (act s') v = false) /\ passive (gr s) (r_cap s) (tr s) (active (act s'))
  | Some i => i < n_nodes (gr s) /\ parent (tr s) i <> PNone /\ active (act s') i = false /\
      passive (gr s) (r_cap s) (tr s) (fun v => active (act s') v || Nat.eqb v i) /\
      cnt (active (act s')) (n_nodes (gr s)) < cnt (active (act s)) (n_nodes (gr s))
  end.
Proof.
  intros cut s cur [W R C O Sh U F P Q]. unfold pick.
  set (n := n_nodes (gr s)) in *.
  (* a fresh node, from a queue with the tree nodes that are active *)
  assert (FR : forall q, qok q None n -> (forall v, active q v = true -> active (act s) v = true) ->
     (forall v, v < n -> active (act s) v = true -> active q v = true \/ parent (tr s) v = PNone) ->
     exists s' o, ('(q0, i0) <- next_active (S n) (parent (tr s)) q ;;
         Some (GC (gr s) (r_cap s) (tr_cap s) (flow s) (tr s) q0 (orp s) (time s), i0))%opt = Some (s', o) /\ same_but_act s s' /\ qok (act s') None n /\
     match o with
     | None => (forall v, active (act s') v = false) /\ passive (gr s) (r_cap s) (tr s) (active (act s'))
     | Some i => i < n /\ parent (tr s) i <> PNone /\ active (act s') i = false /\
        passive (gr s) (r_cap s) (tr s) (fun v => active (act s') v || Nat.eqb v i) /\ cnt (active (act s')) n < cnt (active (act s)) n
     end).
  { intros q Qq M1 M2. destruct (next_active_ok (parent (tr s)) q n Qq) as (q' & o & E & Q' & A1 & A2 & A3).
    rewrite E. eexists. exists o. split; [reflexivity|]. split; [repeat split; auto|]. split; [exact Q'|]. cbn [act].
    assert (PW : forall (h : nat -> bool), (forall v, active q' v = true \/ o = Some v -> h v = true) -> passive (gr s) (r_cap s) (tr s) h).
    { intros h Hh. apply (passive_weak _ _ _ (active (act s))); auto. intros v Hv Av IT.
      assert (NP : parent (tr s) v <> PNone) by (destruct IT as [[X _]|[X _]]; auto).
      destruct (M2 v Hv Av) as [X|X]; [|tauto]. destruct (A2 v X) as [Y|[Y|Y]]; auto. apply is_none_iff in Y. tauto. }
    destruct o as [i|].
    - destruct A3 as (B1 & B2 & B3 & B4). apply is_none_not in B2. do 3 (split; auto). split.
      + apply PW. intros v [X|X]; [rewrite X; auto|]. injection X as ->. rewrite Nat.eqb_refl. apply orb_true_r.
      + apply cnt_lt with (u := i); auto.
    - split; auto. apply PW. intros v [X|X]; [auto|discriminate]. }
  destruct cur as [i|].
  - set (q := Actives (fupd (next (act s)) i None) _ _ _ _).
    pose proof (drop_cur (act s) n i Q) as Qd. fold q in Qd.
    assert (Hi : i < n /\ active (act s) i = true).
    { destruct Q as (l0 & l1 & _ & _ & _ & _ & _ & _ & A & _ & B). assert (X : next (act s) i <> None) by (apply A; auto).
      split; [apply B; auto|]. unfold active. destruct (next (act s) i); auto. }
    destruct Hi as [Hi Ai].
    assert (Aq : forall v, active q v = active (act s) v && negb (Nat.eqb v i)).
    { intros v. unfold active, q. cbn [next]. fcase v i; [rewrite Nat.eqb_refl, andb_false_r; auto|].
      rewrite (proj2 (Nat.eqb_neq v i)) by auto. rewrite andb_true_r. auto. }
    destruct (is_none (parent (tr s) i)) eqn:PN.
    + apply FR; auto.
      * intros v Hv. rewrite Aq in Hv. apply andb_prop in Hv. tauto.
      * intros v Hv Av. rewrite Aq, Av. destruct (Nat.eqb_spec v i) as [->|]; auto. right. apply is_none_iff. auto.
    + apply is_none_not in PN. eexists. exists (Some i). split; [reflexivity|]. split; [repeat split; auto|]. split; [exact Qd|]. cbn [act].
      split; auto. split; auto. split; [rewrite Aq, Nat.eqb_refl, andb_false_r; auto|]. split.
      * apply (passive_weak _ _ _ (active (act s))); auto. intros v Hv Av _. rewrite Aq, Av. destruct (Nat.eqb v i); auto.
      * apply cnt_lt with (u := i); auto.
        -- intros v Hv X. rewrite Aq in X. apply andb_prop in X. tauto.
        -- rewrite Aq, Nat.eqb_refl, andb_false_r; auto.
  - apply FR; auto.
Qed.

Definition todo (s : gc) : nat := 2 * cnt (free (tr s)) (n_nodes (gr s)) + cnt (active (act s)) (n_nodes (gr s)).
Lemma order_later : forall g t now, order g t now -> order g t (S now).
Proof. intros g t now O. constructor; try apply O. intros v Hv. pose proof (od_ts _ _ _ O v Hv). lia. Qed.
Lemma work_ok : forall cut s s0 cur i, linv cut s0 cur -> same_but_act s0 s -> qok (act s) None (n_nodes (gr s0)) ->
  i < n_nodes (gr s0) -> parent (tr s0) i <> PNone -> active (act s) i = false ->
  passive (gr s0) (r_cap s0) (tr s0) (fun v => active (act s) v || Nat.eqb v i) ->
  exists s' cur', work s i = Some (s', cur') /\ linv cut s' cur' /\ n_nodes (gr s') = n_nodes (gr s0) /\
    ((flow s' = flow s /\ todo s' <= todo s) \/ (flow s < flow s')%Z).
Proof.
  intros cut s s0 cur i [W R C O Sh U F P0 Q0] (E1 & E2 & E3 & E4 & E5 & E6 & E7) Q Hi Pi Ai P.
  rewrite <- E1, <- E2, <- ?E3, <- ?E4, <- ?E5, <- ?E7 in *. rewrite <- E6 in F.
  unfold work. set (g := gr s) in *.
  destruct (grow_ok g (r_cap s) (tr_cap s) (time s) (is_sink (tr s) i) i W R Hi (out_arcs g i) (tr s) (act s))
    as (t' & q' & o & EG & O' & Sh' & U' & Q' & Ai' & Ti' & TD & PO); auto.
  { split; auto. }
  { intros a Ha. apply gw_out in Ha; auto. }
  { intros a Ha Ta. left. apply gw_out; auto. }
  rewrite EG. destruct o as [m|].
  - destruct PO as (PO & M1 & M2 & M3 & M4).
    set (q2 := Actives (fupd (next q') i (Some i)) _ _ _ _). cbn [r_cap tr_cap flow time orp].
    set (s1 := GC g (r_cap s) (tr_cap s) (flow s) t' q2 (orp s) (S (time s))).
    assert (NQ : next q' i = None) by (unfold active in Ai'; destruct (next q' i); auto; discriminate).
    pose proof (add_cur q' (n_nodes g) i Q' NQ Hi) as Q2. fold q2 in Q2.
    destruct (augment_ok s1 m (time s) (active q2)) as (s2 & b & EA & G2 & A2 & T2 & Bp & F2 & R2 & C2 & S2 & O2 & P2 & TS2 & OS2); auto.
    { apply (passive_weak _ _ _ (fun v => active q' v || Nat.eqb v i)); auto. intros v Hv Av _. unfold active, q2. cbn [next].
      fcase v i; auto. rewrite (proj2 (Nat.eqb_neq v i)), orb_false_r in Av by auto. auto. }
    rewrite EA. cbn [s1 gr act time flow r_cap tr_cap] in G2, A2, T2, F2, C2, S2, O2, P2, OS2. fold g in G2.
    assert (AI : ainv s2 (Some i)).
    { constructor; rewrite ?G2, ?A2, ?T2; auto.
      - apply order_later; auto.
      - intros v Hv _. rewrite TS2. cbn [s1 tr]. pose proof (od_ts _ _ _ O' v Hv). lia. }
    destruct (adopt_ok (S (n_nodes g)) s2 (Some i) AI) as (s3 & ED & A3 & (X1 & X2 & X3 & X4 & X5) & F3 & U3).
    { rewrite G2. auto. }
    { rewrite G2. pose proof (cnt_max (pending s2) (n_nodes g)). lia. }
    rewrite ED. exists s3, (Some i). split; auto. destruct A3 as [Y1 Y2 Y3 Y4 Y5 Y6 Y7]. split; [constructor; auto|].
    + intros x. rewrite X1, X2, X3, X4, F2, G2. rewrite C2. rewrite C. unfold g. lia.
    + rewrite X1. auto.
    + split; [rewrite X1, G2; auto|]. right. rewrite X4, F2. lia.
  - eexists. exists None. split; [reflexivity|]. split; [constructor; cbn [gr r_cap tr_cap flow tr act orp time]; auto|].
    + apply order_later; auto.
    + split; auto.
Qed.

Lemma rescap_nonneg : forall g r c x, (forall a, (0 <= r a)%Z) -> (0 <= rescap g r c x)%Z.
Proof.
  intros g r c x R. unfold rescap.
  assert (0 <= sumn (fun a => if crosses g x a then r a else 0%Z) (n_arcs g))%Z by (apply sumn_pos; intros a _; destruct (crosses g x a); auto; lia).
  assert (0 <= sumn (fun v => term_cap x v (c v)) (n_nodes g))%Z by (apply sumn_pos; intros a _; unfold term_cap; destruct (x a); lia).
  lia.
Qed.
Lemma flow_le : forall cut s cur x, linv cut s cur -> (flow s <= cut x)%Z.
Proof. intros cut s cur x [W R C _ _ _ _ _ _]. rewrite C. pose proof (rescap_nonneg (gr s) (r_cap s) (tr_cap s) x R). lia. Qed.

(** The states met at the head of the loop. *)
Inductive rounds (s0 : gc) : gc -> option nat -> Prop :=
| rounds_start : rounds s0 s0 None
| rounds_next : forall s cur s1 i s2 cur2, rounds s0 s cur -> pick s cur = Some (s1, Some i) -> work s1 i = Some (s2, cur2) -> rounds s0 s2 cur2.
Lemma pick_work : forall cut s cur, linv cut s cur ->
  (exists s', pick s cur = Some (s', None) /\ linv cut s' None /\ same_but_act s s' /\ forall v, active (act s') v = false) \/
  (exists s1 i s2 cur2, pick s cur = Some (s1, Some i) /\ work s1 i = Some (s2, cur2) /\ linv cut s2 cur2 /\ n_nodes (gr s2) = n_nodes (gr s) /\
     ((flow s2 = flow s /\ todo s2 < todo s) \/ (flow s < flow s2)%Z)).
Proof.
  intros cut s cur L. destruct (pick_ok cut s cur L) as (s1 & o & E & SA & Q & K). destruct o as [i|].
  - right. destruct K as (K1 & K2 & K3 & K4 & K5). destruct (work_ok cut s1 s cur i L SA Q K1 K2 K3 K4) as (s2 & cur2 & E2 & L2 & N2 & D).
    exists s1, i, s2, cur2. do 4 (split; auto). destruct SA as (E1 & _ & _ & E4 & E5 & _).
    assert (TD : todo s1 < todo s) by (unfold todo; rewrite E1, E5; lia).
    destruct D as [[D1 D2]|D]; [left; split; [congruence|lia]|right; lia].
  - left. destruct K as [K1 K2]. exists s1. split; auto. split; [|auto]. destruct SA as (E1 & E2 & E3 & E4 & E5 & E6 & E7).
    destruct L as [W R C O Sh U F P0 Q0]. constructor; rewrite ?E1, ?E2, ?E3, ?E4, ?E5, ?E6, ?E7; auto.
Qed.
Lemma rounds_linv : forall cut s0, linv cut s0 None -> forall s cur, rounds s0 s cur -> linv cut s cur /\ n_nodes (gr s) = n_nodes (gr s0).
Proof.
  intros cut s0 L0 s cur R. induction R; auto. destruct IHR as [L N].
  destruct (pick_work cut s cur L) as [(s' & E & _)|(s1' & i' & s2' & cur2' & E1 & E2 & L2 & N2 & _)]; [congruence|].
  assert (s1' = s1 /\ i' = i) as [-> ->] by (split; congruence). assert (s2' = s2 /\ cur2' = cur2) as [-> ->] by (split; congruence).
  split; auto. congruence.
Qed.

Lemma loop_ok : forall cut k m s cur, linv cut s cur -> (cut (fun _ => false) - flow s < Z.of_nat k)%Z -> todo s < m ->
  exists fuel s', max_flow_loop fuel s cur = Some s' /\ linv cut s' None /\ (forall v, active (act s') v = false) /\ n_nodes (gr s') = n_nodes (gr s).
Proof.
  intros cut. induction k as [|k IHk]; intros m s cur L Hk; [pose proof (flow_le cut s cur (fun _ => false) L); lia|].
  revert s cur L Hk. induction m as [|m IHm]; intros s cur L Hk Hm; [lia|].
  destruct (pick_work cut s cur L) as [(s' & E & L' & SA & A)|(s1 & i & s2 & cur2 & E1 & E2 & L2 & N2 & D)].
  - exists 1, s'. cbn [max_flow_loop]. rewrite E. split; auto. split; auto. split; auto. destruct SA as [-> _]. auto.
  - assert (R : exists fuel s', max_flow_loop fuel s2 cur2 = Some s' /\ linv cut s' None /\ (forall v, active (act s') v = false) /\ n_nodes (gr s') = n_nodes (gr s2)).
    { destruct D as [[D1 D2]|D]; [apply IHm; auto; [rewrite D1; auto|lia]|]. apply (IHk (S (todo s2)) s2 cur2 L2); lia. }
    destruct R as (fuel & s' & E & L' & A & N). exists (S fuel), s'. cbn [max_flow_loop]. rewrite E1, E2. split; auto. split; auto. split; auto. congruence.
Qed.
(** More fuel does not change the result. *)
Lemma loop_mono : forall fuel s cur s', max_flow_loop fuel s cur = Some s' -> forall k, max_flow_loop (fuel + k) s cur = Some s'.
Proof.
  induction fuel; intros s cur s' E k; [discriminate|]. cbn [plus max_flow_loop] in *.
  destruct (pick s cur) as [[s1 [i|]]|]; try discriminate; auto.
  destruct (work s1 i) as [[s2 cur2]|]; try discriminate; auto.
Qed.
