(** SurfaceMesh::new, last pass: the counting sort of vertex_cycle and the
    cycles of halfedges around the vertices. *)
From Coq Require Import List Arith Bool Lia Permutation.
From Verif Require Import Lib Mesh MeshSpec MeshFacts MeshProofs MeshAddFace MeshSplitFace MeshNewFaces.
Import ListNotations.
Local Open Scope opt_scope.

Lemma set_nat (l : list nat) i x : i < length l ->
  exists l', set l i x = Some l' /\ length l' = length l /\
    forall j, nth_error l' j = if j =? i then Some x else nth_error l j.
Proof.
  intros H. exists (upd l i x). unfold set. rewrite (proj2 (Nat.ltb_lt _ _) H). split; auto. split; [apply upd_length|].
  intros j. rewrite nth_error_upd. rewrite (Nat.eqb_sym j i). rewrite (proj2 (Nat.ltb_lt _ _) H).
  rewrite andb_true_r. reflexivity.
Qed.

Section Sort.
Variable V : nat -> nat.  (* the vertex of a halfedge *)
Variable nv n : nat.
Hypothesis HV : forall h, h < n -> V h < nv.

(** The halfedges below [i] at vertex [v], in increasing order. *)
Fixpoint mem (v i : nat) : list nat :=
  match i with 0 => [] | S k => mem v k ++ (if V k =? v then [k] else []) end.
Definition cnt (v i : nat) : nat := length (mem v i).
Fixpoint before (v i : nat) : nat := match v with 0 => 0 | S u => before u i + cnt u i end.

Lemma mem_in v i h : In h (mem v i) <-> h < i /\ V h = v.
Proof.
  induction i as [|i IH]; simpl; [split; [intros []|lia]|]. rewrite in_app_iff, IH.
  destruct (Nat.eqb_spec (V i) v) as [E|E]; simpl.
  - split; [intros [[? ?]|[<-|[]]]; auto|]. intros [H1 H2]. destruct (Nat.eq_dec i h); auto. left. split; auto. lia.
  - split; [intros [[? ?]|[]]; auto|]. intros [H1 H2]. left. split; auto. destruct (Nat.eq_dec i h); [congruence|lia].
Qed.

Lemma mem_NoDup v i : NoDup (mem v i).
Proof.
  induction i as [|i IH]; simpl; [constructor|]. destruct (V i =? v); [|now rewrite app_nil_r].
  apply NoDup_rot. simpl. constructor; auto. rewrite mem_in. lia.
Qed.

Lemma cnt_S v i : cnt v (S i) = cnt v i + (if V i =? v then 1 else 0).
Proof. unfold cnt. simpl. rewrite app_length. destruct (V i =? v); reflexivity. Qed.

Lemma before_S v i : before v (S i) = before v i + (if V i <? v then 1 else 0).
Proof.
  induction v as [|v IH]; cbn [before]; auto. rewrite IH, cnt_S.
  destruct (Nat.ltb_spec (V i) v), (Nat.eqb_spec (V i) v), (Nat.ltb_spec (V i) (S v)); lia.
Qed.

Lemma before_all i : i <= n -> before nv i = i.
Proof.
  induction i as [|i IH]; intros H.
  - clear. generalize nv. intros u. induction u as [|u IH]; cbn [before]; auto. rewrite IH. reflexivity.
  - rewrite before_S, IH by lia. rewrite (proj2 (Nat.ltb_lt _ _)) by (apply HV; lia). lia.
Qed.

Lemma before_mono u v i : u <= v -> before u i <= before v i.
Proof. induction 1; auto. simpl. lia. Qed.

Lemma cnt_mono v i k : i <= k -> cnt v i <= cnt v k.
Proof. induction 1; auto. rewrite cnt_S. lia. Qed.

Lemma count_ok : forall k i deg, i + k <= n -> length deg = nv ->
  (forall v, v < nv -> nth_error deg v = Some (cnt v i)) ->
  exists deg', count_degrees deg (map V (seq i k)) = Some deg' /\ length deg' = nv /\
    forall v, v < nv -> nth_error deg' v = Some (cnt v (i + k)).
Proof.
  induction k as [|k IH]; intros i deg B L H; cbn [seq map count_degrees].
  - exists deg. rewrite Nat.add_0_r. auto.
  - assert (Vi := HV i ltac:(lia)). rewrite (H _ Vi).
    destruct (set_nat deg (V i) (S (cnt (V i) i))) as (deg1 & E & L1 & R1); [lia|]. rewrite E.
    destruct (IH (S i) deg1) as (deg' & E' & L' & R'); [lia|lia| |].
    + intros v Hv. rewrite R1, cnt_S. rewrite (Nat.eqb_sym v). destruct (Nat.eqb_spec (V i) v) as [->|N].
      * f_equal. lia.
      * rewrite (H v Hv). f_equal. lia.
    + exists deg'. split; auto. split; auto. intros v Hv. rewrite (R' v Hv). do 2 f_equal. lia.
Qed.

Lemma prefix_at l : forall acc v, v < length l ->
  nth_error (prefix_sums acc l) v = Some (acc + list_sum (firstn (S v) l)).
Proof.
  induction l as [|x l IH]; intros acc [|v] H; simpl in H; try lia; cbn [prefix_sums nth_error].
  - simpl. f_equal. lia.
  - rewrite IH by lia. cbn [firstn]. unfold list_sum. simpl. f_equal. fold (list_sum (firstn v l)). lia.
Qed.

Lemma prefix_len l : forall acc, length (prefix_sums acc l) = length l.
Proof. induction l; simpl; auto. Qed.

Lemma sep_at deg i v : length deg = nv -> (forall v, v < nv -> nth_error deg v = Some (cnt v i)) -> v <= nv ->
  nth_error (0 :: prefix_sums 0 deg) v = Some (before v i).
Proof.
  intros L H B.
  assert (Q : forall v, v <= nv -> list_sum (firstn v deg) = before v i).
  { induction v0 as [|u IH]; intros Hu; [reflexivity|]. cbn [before]. rewrite <- IH by lia.
    assert (E : firstn (S u) deg = firstn u deg ++ [cnt u i]).
    { specialize (H u Hu). revert H. generalize (cnt u i). clear. intros c H. revert deg H. induction u as [|u IH]; intros [|d deg] H; simpl in H; try discriminate.
      - inversion H; subst. reflexivity.
      - cbn [firstn]. rewrite (IH deg H) at 1. reflexivity. }
    rewrite E, list_sum_app. simpl. lia. }
  destruct v as [|v]; [reflexivity|]. cbn [nth_error]. rewrite prefix_at by lia. rewrite Q by lia. reflexivity.
Qed.

Lemma place_ok : forall k i vh pos, i + k = n -> length vh = n -> length pos = S nv ->
  (forall v, v < nv -> nth_error pos v = Some (before v n + cnt v i)) ->
  (forall v j, v < nv -> j < cnt v i -> nth_error vh (before v n + j) = nth_error (mem v i) j) ->
  exists vh', place vh pos (combine (seq i k) (map V (seq i k))) = Some vh' /\
    forall v j, v < nv -> j < cnt v n -> nth_error vh' (before v n + j) = nth_error (mem v n) j.
Proof.
  induction k as [|k IH]; intros i vh pos B Lv Lp HP HM; cbn [seq map combine place].
  - rewrite Nat.add_0_r in B. subst i. exists vh. auto.
  - assert (Vi := HV i ltac:(lia)). rewrite (HP _ Vi).
    assert (Ci : cnt (V i) (S i) <= cnt (V i) n) by (apply cnt_mono; lia).
    rewrite cnt_S, Nat.eqb_refl in Ci.
    assert (Bn : before (S (V i)) n <= n).
    { rewrite <- (before_all n) at 2 by lia. apply before_mono. lia. }
    simpl in Bn.
    destruct (set_nat vh (before (V i) n + cnt (V i) i) i) as (vh1 & E1 & L1 & R1); [lia|]. rewrite E1.
    destruct (set_nat pos (V i) (S (before (V i) n + cnt (V i) i))) as (pos1 & E2 & L2 & R2); [lia|]. rewrite E2.
    destruct (IH (S i) vh1 pos1) as (vh' & E' & R'); try lia.
    + intros v Hv. rewrite R2, cnt_S. rewrite (Nat.eqb_sym v). destruct (Nat.eqb_spec (V i) v) as [->|N].
      * f_equal. lia.
      * rewrite (HP v Hv). f_equal. lia.
    + intros v j Hv Hj. rewrite R1. rewrite cnt_S in Hj. cbn [mem].
      destruct (Nat.eqb_spec (V i) v) as [<-|N].
      * destruct (Nat.eqb_spec (before (V i) n + j) (before (V i) n + cnt (V i) i)) as [E|E].
        -- assert (j = cnt (V i) i) by lia. subst j. unfold cnt. rewrite nth_error_app2 by lia.
           rewrite Nat.sub_diag. reflexivity.
        -- rewrite nth_error_app1 by (unfold cnt in *; lia). apply HM; auto. lia.
      * rewrite app_nil_r. rewrite (proj2 (Nat.eqb_neq _ _)); [apply HM; auto; lia|].
        assert (Cv : cnt v i <= cnt v n) by (apply cnt_mono; lia).
        destruct (Nat.lt_ge_cases v (V i)) as [Q|Q].
        -- assert (M := before_mono (S v) (V i) n ltac:(lia)). simpl in M. lia.
        -- assert (M := before_mono (S (V i)) v n ltac:(lia)). simpl in M. lia.
    + exists vh'. split; auto.
Qed.

Lemma sort_ok : exists deg vh,
  count_degrees (repeat 0 nv) (map V (seq 0 n)) = Some deg /\
  place (repeat 0 n) (0 :: prefix_sums 0 deg) (combine (seq 0 n) (map V (seq 0 n))) = Some vh /\
  (forall v, v <= nv -> nth_error (0 :: prefix_sums 0 deg) v = Some (before v n)) /\
  (forall v j, v < nv -> j < cnt v n -> nth_error vh (before v n + j) = nth_error (mem v n) j).
Proof.
  destruct (count_ok n 0 (repeat 0 nv)) as (deg & E & L & R); [lia|apply repeat_length| |].
  { intros v Hv. apply nth_repeat_some. exact Hv. }
  simpl in R. assert (HS : forall v, v <= nv -> nth_error (0 :: prefix_sums 0 deg) v = Some (before v n)).
  { intros v Hv. apply sep_at; auto. }
  destruct (place_ok n 0 (repeat 0 n) (0 :: prefix_sums 0 deg)) as (vh & E' & R').
  - reflexivity.
  - apply repeat_length.
  - simpl. rewrite prefix_len. lia.
  - intros v Hv. rewrite HS by lia. f_equal. unfold cnt. simpl. lia.
  - intros v j _ H. unfold cnt in H. simpl in H. lia.
  - exists deg, vh. auto.
Qed.

Lemma link_range_writes vh L start : (forall j, j < length L -> nth_error vh (start + j) = nth_error L j) ->
  forall js a, (forall j, In j js -> j < length L) ->
  link_range a vh start (length L) js =
  writes a (map (fun j => (nth j L 0, nth ((j + 1) mod length L) L 0)) js).
Proof.
  intros H. induction js as [|j js IH]; intros a B; [reflexivity|]. cbn [link_range map writes].
  assert (Bj := B j (or_introl eq_refl)). assert (Bm : (j + 1) mod length L < length L) by (apply Nat.mod_upper_bound; lia).
  rewrite !H by auto. rewrite (nth_error_nth' _ 0 Bj), (nth_error_nth' _ 0 Bm).
  destruct (wr a (nth j L 0) (nth ((j + 1) mod length L) L 0)); [|reflexivity]. apply IH. intros; apply B; now right.
Qed.

Lemma nth_error_ext {A} (l k : list A) : (forall j, nth_error l j = nth_error k j) -> l = k.
Proof.
  revert k. induction l as [|a l IH]; intros [|b k] H; auto.
  - specialize (H 0). discriminate.
  - specialize (H 0). discriminate.
  - pose proof (H 0) as H0. inversion H0; subst. f_equal. apply IH. intros j. apply (H (S j)).
Qed.

Lemma windows_map L : windows L = map (fun j => (nth j L 0, nth ((j + 1) mod length L) L 0)) (seq 0 (length L)).
Proof.
  apply nth_error_ext. intros j. destruct (Nat.lt_ge_cases j (length L)) as [H|H].
  - rewrite windows_at by auto. rewrite nth_error_map. rewrite (nth_error_nth' _ 0) by (rewrite seq_length; auto).
    rewrite seq_nth by auto. reflexivity.
  - rewrite (proj2 (nth_error_None _ _)) by (rewrite windows_len; auto).
    symmetry. apply nth_error_None. rewrite map_length, seq_length. auto.
Qed.

(** One vertex. *)
Lemma link_vertex_ok a vh sep v : v < nv -> length a = n ->
  (forall v, v <= nv -> nth_error sep v = Some (before v n)) ->
  (forall v j, v < nv -> j < cnt v n -> nth_error vh (before v n + j) = nth_error (mem v n) j) ->
  exists a', link_vertex a vh sep v = Some a' /\ length a' = n /\ linked (rd a') (mem v n) /\
    forall h, ~ In h (mem v n) -> rd a' h = rd a h.
Proof.
  intros Bv La HS HM. unfold link_vertex. rewrite (HS v) by lia. rewrite (HS (v + 1)) by lia.
  replace (v + 1) with (S v) by lia. cbn [before].
  replace (before v n + cnt v n - before v n) with (cnt v n) by lia. unfold cnt at 1 2.
  rewrite link_range_writes.
  - rewrite <- windows_map. destruct (windows_writes a (mem v n)) as (a' & E & L' & K & R).
    + intros h Hh. apply mem_in in Hh. lia.
    + apply mem_NoDup.
    + exists a'. split; auto. split; [lia|]. auto.
  - intros j Hj. apply HM; auto.
  - intros j Hj. apply in_seq in Hj. lia.
Qed.
End Sort.

Lemma link_vertices_ok Vi Vo nv n vhi sepi vho sepo :
  (forall v, v <= nv -> nth_error sepi v = Some (before Vi v n)) ->
  (forall v j, v < nv -> j < cnt Vi v n -> nth_error vhi (before Vi v n + j) = nth_error (mem Vi v n) j) ->
  (forall v, v <= nv -> nth_error sepo v = Some (before Vo v n)) ->
  (forall v j, v < nv -> j < cnt Vo v n -> nth_error vho (before Vo v n + j) = nth_error (mem Vo v n) j) ->
  forall vs m, NoDup vs -> (forall v, In v vs -> v < nv) -> length (v_he m) = nv ->
  length (in_next m) = n -> length (out_next m) = n ->
  exists ai ao, link_vertices m vhi sepi vho sepo vs =
      Some (Mesh (v_he m) (he_next m) (he_vert m) (f_he m) (n_v m) (n_h m) (n_f m) (n_e m) (he_edge m) (he_face m) ai ao (sib m) (e_he m)) /\
    length ai = n /\ length ao = n /\
    (forall v, In v vs -> rd (v_he m) v <> None -> linked (rd ai) (mem Vi v n) /\ linked (rd ao) (mem Vo v n)) /\
    (forall h, ~ In (Vi h) vs -> rd ai h = rd (in_next m) h) /\
    (forall h, ~ In (Vo h) vs -> rd ao h = rd (out_next m) h).
Proof.
  intros SI MI SO MO. induction vs as [|v vs IH]; intros m D B Lv Li Lo; cbn [link_vertices].
  - exists (in_next m), (out_next m). destruct m; simpl in *. split; [reflexivity|]. intuition.
  - inversion D as [|? ? Nv D']; subst. assert (Bv := B v (or_introl eq_refl)).
    destruct (nth_error (v_he m) v) as [x|] eqn:E; [|apply nth_error_None in E; lia].
    destruct x as [h|].
    + destruct (link_vertex_ok Vi (length (v_he m)) (length (in_next m)) (in_next m) vhi sepi v) as (a1 & E1 & L1 & K1 & R1); auto.
      rewrite E1. app_simpl.
      destruct (link_vertex_ok Vo (length (v_he m)) (length (in_next m)) (out_next m) vho sepo v) as (a2 & E2 & L2 & K2 & R2); auto.
      rewrite E2. 
      destruct (IH (set_out_next (set_in_next m a1) a2)) as (ai & ao & E3 & L3 & L3' & K3 & R3 & R3'); auto.
      { intros; apply B; now right. }
      unfold set_out_next, set_in_next in *. cbn [v_he he_next he_vert f_he n_v n_h n_f n_e he_edge he_face in_next out_next sib e_he] in *.
      exists ai, ao. split; [exact E3|]. split; [auto|]. split; [auto|]. split; [|split].
      * intros u [<-|Hu] Hn; [|apply K3; auto]. split.
        -- revert K1. apply linked_ext. intros x Hx. symmetry. apply R3. apply mem_in in Hx. destruct Hx as [_ ->]. auto.
        -- revert K2. apply linked_ext. intros x Hx. symmetry. apply R3'. apply mem_in in Hx. destruct Hx as [_ ->]. auto.
      * intros x Hx. rewrite R3 by (intros C; apply Hx; now right). apply R1. intros C. apply mem_in in C. apply Hx. left. symmetry. tauto.
      * intros x Hx. rewrite R3' by (intros C; apply Hx; now right). apply R2. intros C. apply mem_in in C. apply Hx. left. symmetry. tauto.
    + destruct (IH m) as (ai & ao & E3 & L3 & L3' & K3 & R3 & R3'); auto.
      { intros; apply B; now right. }
      exists ai, ao. split; [exact E3|]. split; [auto|]. split; [auto|]. split; [|split].
      * intros u [<-|Hu] Hn; [|apply K3; auto]. unfold rd in Hn. rewrite E in Hn. congruence.
      * intros x Hx. apply R3. intros C; apply Hx; now right.
      * intros x Hx. apply R3'. intros C; apply Hx; now right.
Qed.
