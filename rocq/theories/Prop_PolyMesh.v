(** C80: what make_polyhedral_mesh makes of the faces it is given. *)
From Coq Require Import List Arith Bool Lia Permutation Sorted ZArith.
From Verif Require Import Lib F64 Soup SoupProofs Prop_Soup PolyMesh DivConq Prop_DivConq.
Import ListNotations.

(** * Specification *)
(** Edge number k of a list of edges, two entries each. *)
Definition edge (arr : list nat) (k a b : nat) : Prop := nth_error arr (2 * k) = Some a /\ nth_error arr (2 * k + 1) = Some b.
(** The ends of edge k after merging. *)
Definition merged (pmap arr : list nat) (k a b : nat) : Prop :=
  exists p q, edge arr k p q /\ nth_error pmap p = Some a /\ nth_error pmap q = Some b.
(** The first and the second ends of all edges. *)
Fixpoint starts (arr : list nat) : list nat := match arr with a :: _ :: r => a :: starts r | _ => [] end.
Fixpoint ends (arr : list nat) : list nat := match arr with _ :: b :: r => b :: ends r | _ => [] end.
(** As many edges leave each vertex as enter it, as along closed polygons. *)
Definition closed (arr : list nat) : Prop := forall v, count_occ Nat.eq_dec (starts arr) v = count_occ Nat.eq_dec (ends arr) v.

(** * The edges *)
Lemma pairs_ind (Q : list nat -> Prop) : Q [] -> (forall a, Q [a]) -> (forall a b r, Q r -> Q (a :: b :: r)) -> forall l, Q l.
Proof.
  intros H0 H1 H2 l. assert (Q l /\ forall a, Q (a :: l)) as (H & _); [|exact H].
  induction l as [|x l (IH & IH')]; [auto|]. split; [apply IH'|]. intros a. apply H2, IH.
Qed.
Lemma edge_S a b r k p q : edge (a :: b :: r) (S k) p q <-> edge r k p q.
Proof. unfold edge. replace (2 * S k) with (S (S (2 * k))) by lia. cbn [Nat.add nth_error]. tauto. Qed.
Lemma merged_S pmap a b r k x y : merged pmap (a :: b :: r) (S k) x y <-> merged pmap r k x y.
Proof. unfold merged. split; intros (p & q & H & H'); exists p, q; rewrite edge_S in *; auto. Qed.

(** The edges handed on are, in order, those whose ends are still different. *)
Theorem C80_edges pmap arr m : length arr = 2 * m -> (forall p, In p arr -> p < length pmap) ->
  exists kept : list (nat * (nat * nat)),
    map_edges pmap arr = Some (flat_map (fun ke => [fst (snd ke); snd (snd ke)]) kept) /\
    StronglySorted lt (map fst kept) /\
    (forall k a b, In (k, (a, b)) kept <-> k < m /\ merged pmap arr k a b /\ a <> b).
Proof.
  revert m. induction arr as [|p|p q r IH] using pairs_ind; intros m L B; cbn [length] in L.
  - exists []. split; [reflexivity|]. split; [constructor|]. intros k a b. cbn. lia.
  - lia.
  - destruct m as [|m]; [lia|]. destruct (IH m) as (kept & E & So & I); [lia|intros; apply B; cbn; auto|].
    cbn [map_edges]. destruct (nth_error pmap p) as [a|] eqn:Ea; [|apply nth_error_None in Ea; specialize (B p); cbn in B; lia].
    destruct (nth_error pmap q) as [b|] eqn:Eb; [|apply nth_error_None in Eb; specialize (B q); cbn in B; lia].
    rewrite E. set (up := map (fun ke : nat * (nat * nat) => (S (fst ke), snd ke)) kept).
    assert (F : flat_map (fun ke : nat * (nat * nat) => [fst (snd ke); snd (snd ke)]) up = flat_map (fun ke => [fst (snd ke); snd (snd ke)]) kept).
    { subst up. clear. induction kept as [|x l IH]; cbn; [reflexivity|]. now rewrite IH. }
    assert (So' : StronglySorted lt (map fst up)).
    { subst up. rewrite map_map. cbn [fst]. clear -So. induction kept as [|x l IH]; cbn [map] in *; [constructor|]. inversion So as [|? ? S1 S2]; subst. constructor; auto.
      rewrite Forall_forall in *. intros k Hk. apply in_map_iff in Hk. destruct Hk as (y & <- & Hy). apply (in_map fst) in Hy. apply S2 in Hy. lia. }
    assert (I' : forall k a' b', In (k, (a', b')) up <-> exists k', k = S k' /\ k' < m /\ merged pmap r k' a' b' /\ a' <> b').
    { intros k a' b'. subst up. rewrite in_map_iff. split.
      - intros ((k' & (x & y)) & H & Hin). cbn in H. injection H as <- <- <-. apply I in Hin. eauto.
      - intros (k' & -> & H). apply I in H. exists (k', (a', b')). auto. }
    assert (M0 : forall a' b', merged pmap (p :: q :: r) 0 a' b' <-> a' = a /\ b' = b).
    { intros a' b'. unfold merged, edge. cbn. split; [intros (? & ? & (H1 & H2) & H3 & H4)|intros (-> & ->); exists p, q; auto].
      injection H1 as <-. injection H2 as <-. rewrite Ea in H3. rewrite Eb in H4. split; congruence. }
    destruct (Nat.eqb_spec a b) as [->|Ne].
    + exists up. rewrite F. split; [reflexivity|]. split; [exact So'|]. intros k a' b'. rewrite I'. split.
      * intros (k' & -> & H1 & H2 & H3). rewrite merged_S. split; [lia|auto].
      * intros (H1 & H2 & H3). destruct k as [|k]; [apply M0 in H2; destruct H2; congruence|]. rewrite merged_S in H2. exists k. split; auto. split; [lia|auto].
    + exists ((0, (a, b)) :: up). cbn [flat_map fst snd app map]. rewrite F. split; [reflexivity|]. split.
      * constructor; auto. rewrite Forall_forall. intros k Hk. apply in_map_iff in Hk. destruct Hk as ((k' & (x & y)) & <- & Hk). apply I' in Hk. destruct Hk as (? & -> & _). cbn. lia.
      * intros k a' b'. cbn [In]. rewrite I'. split.
        { intros [H|(k' & -> & H1 & H2 & H3)]; [injection H as <- <- <-; split; [lia|]; rewrite M0; auto|rewrite merged_S; split; [lia|auto]]. }
        { intros (H1 & H2 & H3). destruct k as [|k]; [left; apply M0 in H2; destruct H2; subst; reflexivity|]. right. rewrite merged_S in H2. exists k. split; auto. split; [lia|auto]. }
Qed.
(** An odd number of indices makes it panic. *)
Theorem C80_odd_panics pmap arr : Nat.odd (length arr) = true -> map_edges pmap arr = None.
Proof.
  induction arr as [|p|p q r IH] using pairs_ind; intros H; cbn [map_edges]; [discriminate|reflexivity|].
  rewrite IH; [|exact H]. destruct (nth_error pmap p), (nth_error pmap q); reflexivity.
Qed.

Lemma count_map (f : nat -> nat) (u v : list nat) : (forall w, count_occ Nat.eq_dec u w = count_occ Nat.eq_dec v w) ->
  forall w, count_occ Nat.eq_dec (map f u) w = count_occ Nat.eq_dec (map f v) w.
Proof.
  intros H. assert (Permutation u v) as Pm by (apply (Permutation_count_occ Nat.eq_dec); exact H).
  apply (Permutation_count_occ Nat.eq_dec), Permutation_map, Pm.
Qed.
Lemma map_edges_ends pmap arr r : map_edges pmap arr = Some r -> exists loops,
  (forall w, count_occ Nat.eq_dec (map (fun p => nth p pmap 0) (starts arr)) w = count_occ Nat.eq_dec (starts r) w + count_occ Nat.eq_dec loops w) /\
  (forall w, count_occ Nat.eq_dec (map (fun p => nth p pmap 0) (ends arr)) w = count_occ Nat.eq_dec (ends r) w + count_occ Nat.eq_dec loops w).
Proof.
  revert r. induction arr as [|p|p q t IH] using pairs_ind; intros r E; cbn [map_edges] in E; [|discriminate|].
  - injection E as <-. exists []. split; intros; reflexivity.
  - destruct (nth_error pmap p) as [a|] eqn:Ea; [|discriminate]. destruct (nth_error pmap q) as [b|] eqn:Eb; [|discriminate].
    destruct (map_edges pmap t) as [r'|]; [|discriminate]. destruct (IH _ eq_refl) as (loops & A & B). injection E as <-.
    cbn [starts ends map]. rewrite (nth_error_nth _ _ 0 Ea), (nth_error_nth _ _ 0 Eb).
    destruct (Nat.eqb_spec a b) as [->|Ne].
    + exists (b :: loops). split; intros w; cbn [count_occ]; destruct (Nat.eq_dec b w); rewrite ?A, ?B; lia.
    + exists loops. cbn [starts ends]. split; intros w; cbn [count_occ]; destruct (Nat.eq_dec _ w); rewrite ?A, ?B; lia.
Qed.
(** Closed polygons stay closed. *)
Theorem C80_closed pmap arr r : closed arr -> map_edges pmap arr = Some r -> closed r.
Proof.
  intros C E v. destruct (map_edges_ends _ _ _ E) as (loops & A & B). pose proof (count_map (fun p => nth p pmap 0) _ _ C v). rewrite A, B in H. lia.
Qed.
Lemma map_edges_in pmap arr r v : map_edges pmap arr = Some r -> In v r -> exists k a b, merged pmap arr k a b /\ a <> b /\ (v = a \/ v = b).
Proof.
  revert r. induction arr as [|p|p q t IH] using pairs_ind; intros r E Hv; cbn [map_edges] in E; [injection E as <-; destruct Hv|discriminate|].
  destruct (nth_error pmap p) as [a|] eqn:Ea; [|discriminate]. destruct (nth_error pmap q) as [b|] eqn:Eb; [|discriminate].
  destruct (map_edges pmap t) as [r'|]; [|discriminate]. injection E as <-. 
  assert (R : In v r' -> exists k a b, merged pmap (p :: q :: t) k a b /\ a <> b /\ (v = a \/ v = b)).
  { intros H. destruct (IH _ eq_refl H) as (k & x & y & M & N & V). exists (S k), x, y. rewrite merged_S. auto. }
  destruct (Nat.eqb_spec a b) as [->|Ne]; [auto|]. destruct Hv as [<-|[<-|Hv]]; [| |auto]; exists 0, a, b; (split; [exists p, q; unfold edge; cbn; auto|auto]).
Qed.

(** * The whole *)
Lemma nth_skip {A} n : forall (l : list A) i, nth_error (skipn n l) i = nth_error l (n + i).
Proof. induction n as [|n IH]; intros [|x l] i; cbn; auto. now destruct i. Qed.
Lemma nth_first {A} n : forall (l : list A) i, i < n -> nth_error (firstn n l) i = nth_error l i.
Proof. induction n as [|n IH]; intros [|x l] [|i] H; cbn; auto; try lia. apply IH. lia. Qed.
Lemma in_first {A} n (l : list A) x : In x (firstn n l) -> In x l.
Proof. rewrite <- (firstn_skipn n l) at 2. rewrite in_app_iff. auto. Qed.
Lemma in_skip {A} n (l : list A) x : In x (skipn n l) -> In x l.
Proof. rewrite <- (firstn_skipn n l) at 2. rewrite in_app_iff. auto. Qed.
(** The triangles handed on are those of the faces: each has the shell of its face and
    corners that are merged ends of edges of this face that did not collapse. *)
Theorem C80_prepare sort iter tri point_data axes shells faces epsilon points triangles tshells :
  (forall m, Permutation (iter m) m) -> (forall pts s t, tri pts s = Some t -> exists m, length t = 3 * m) ->
  prepare sort iter tri point_data axes shells faces epsilon = Some (points, triangles, tshells) ->
  exists pmap, remove_duplicates sort point_data epsilon = Some (points, pmap) /\
    length triangles = 3 * length tshells /\
    forall k s, nth_error tshells k = Some s -> exists q face, nth_error faces q = Some face /\ nth_error shells q = Some s /\
      forall i v, i < 3 -> nth_error triangles (3 * k + i) = Some v -> exists e a b, merged pmap face e a b /\ a <> b /\ (v = a \/ v = b).
Proof.
  intros Pi T3 H. unfold prepare in H. destruct (remove_duplicates sort point_data epsilon) as [(pts & pmap)|]; [|discriminate].
  destruct (omap (map_edges pmap) faces) as [fe|] eqn:Ef; [|discriminate].
  destruct (triangulate_polygon_soup iter tri pts fe axes) as [(tr & par)|] eqn:Es; [|discriminate].
  destruct (omap _ par) as [sh|] eqn:Eh; [|discriminate]. injection H as -> -> ->.
  exists pmap. split; [reflexivity|].
  destruct (C39_soup _ _ _ _ _ _ _ T3 Es) as (fs & Lf & Hf & Et & Lt & _ & Hp & Htr).
  apply omap_some in Eh. destruct Eh as (Lh & Hh). apply omap_some in Ef. destruct Ef as (Le & He).
  split; [lia|]. intros k s Hs.
  destruct (nth_error par k) as [q|] eqn:Eq; [|apply nth_error_None in Eq; apply nth_error_lt in Hs; lia].
  specialize (Hh _ _ _ Eq Hs). apply Hp in Eq. destruct Eq as (f & j & Nf & Lj & ->).
  destruct (Hf _ _ Nf) as (seg & o & x & y & Ns & _ & Tp).
  destruct (nth_error faces q) as [face|] eqn:Nq; [|apply nth_error_None in Nq; apply nth_error_lt in Ns; lia].
  exists q, face. split; [exact Nq|]. split; [exact Hh|]. intros i v Li Hv.
  specialize (Htr _ _ _ Nf Lj). specialize (He _ _ _ Nq Ns).
  destruct (C38_triangulate_polygon _ _ _ _ _ _ _ _ Pi Tp) as (Hin & _).
  eapply map_edges_in; [exact He|]. apply Hin.
  assert (In v (triple triangles (length (concat (firstn q fs)) / 3 + j))) as Hv'.
  { unfold triple. set (K := length (concat (firstn q fs)) / 3 + j) in *. 
    apply nth_error_In with (n := i). rewrite nth_first by exact Li. rewrite nth_skip. exact Hv. }
  rewrite Htr in Hv'. unfold triple in Hv'. eapply in_skip, in_first, Hv'.
Qed.
(** A face all of whose edges collapse makes it panic: triangulate is called with no
    points, and the first thing it does is sort and cut them. *)
Theorem C80_collapsed_panics sort iter sort2 sel rest point_data axes shells faces epsilon points pmap q face :
  (forall m, Permutation (iter m) m) -> (forall l, Permutation (sort2 l) l) ->
  remove_duplicates sort point_data epsilon = Some (points, pmap) ->
  nth_error faces q = Some face -> 9 * q < length axes -> (forall k a b, merged pmap face k a b -> a = b) ->
  prepare sort iter (fun pts segments => match sorted_indices sort2 sel (length pts) with Some idx => rest idx pts segments | None => None end)
    point_data axes shells faces epsilon = None.
Proof.
  intros Pi Ps Hd Hq Ha Hc. unfold prepare. rewrite Hd. set (tri := fun pts segments => _).
  destruct (omap (map_edges pmap) faces) as [fe|] eqn:Ef; [|reflexivity].
  assert (nth_error fe q = Some []) as Nq.
  { apply omap_some in Ef. destruct Ef as (Le & He). destruct (nth_error fe q) as [r|] eqn:E; [|apply nth_error_None in E; apply nth_error_lt in Hq; lia].
    specialize (He _ _ _ Hq E). destruct r as [|v r]; [reflexivity|]. destruct (map_edges_in _ _ _ v He) as (k & a & b & M & N & _); [cbn; auto|]. exfalso. eauto. }
  destruct (triangulate_polygon_soup iter tri points fe axes) as [(tr & par)|] eqn:Es; [|reflexivity]. exfalso.
  unfold triangulate_polygon_soup in Es. apply soup_loop_ok in Es. destruct Es as (fs & Lf & Hf & _). rewrite Nat.sub_0_r in Lf.
  assert (q < length fs).
  { rewrite Lf. apply nth_error_lt in Nq. assert (q < (length axes + 8) / 9) by (apply Nat.div_le_lower_bound; lia). lia. }
  destruct (nth_error fs q) as [f|] eqn:Nf; [|apply nth_error_None in Nf; lia].
  destruct (Hf _ _ Nf) as (seg & Ns & O). cbn [Nat.add] in *. rewrite Nq in Ns. injection Ns as <-.
  destruct (axis_chunk axes q) as [((o & x) & y)|]; [|discriminate].
  destruct (C38_triangulate_polygon _ _ _ _ _ _ _ _ Pi O) as (_ & new & ori & pts & t & _ & Hin & _ & Ln & Lp & _ & Et & _).
  assert (ori = []) as ->. { destruct ori as [|v l]; [reflexivity|]. destruct (Hin v) as (H1 & _). destruct (H1 (or_introl eq_refl)). }
  destruct pts; [|discriminate]. unfold tri in Et. cbn [length] in Et. rewrite C81_no_points_panics in Et by exact Ps. discriminate.
Qed.

(** A square and a triangle two corners of which are merged: the side between them
    goes, and the square loses nothing. *)
Example C80_case : let pmap := [0; 1; 2; 3; 4; 4] in
  map_edges pmap [0; 1; 1; 2; 2; 3; 3; 0] = Some [0; 1; 1; 2; 2; 3; 3; 0] /\
  map_edges pmap [3; 4; 4; 5; 5; 0; 0; 3] = Some [3; 4; 4; 0; 0; 3] /\ closed [3; 4; 4; 5; 5; 0; 0; 3] /\ closed [3; 4; 4; 0; 0; 3] /\
  merged pmap [3; 4; 4; 5; 5; 0; 0; 3] 2 4 0.
Proof.
  cbn. split; [reflexivity|]. split; [reflexivity|]. assert (C : closed [3; 4; 4; 5; 5; 0; 0; 3]).
  { intros v. apply (Permutation_count_occ Nat.eq_dec). cbn [starts ends]. apply (Permutation_cons_append [4; 5; 0] 3). }
  split; [exact C|]. split; [apply (C80_closed [0; 1; 2; 3; 4; 4] _ _ C); reflexivity|]. exists 5, 0. unfold edge. cbn. auto.
Qed.
(** Two faces, with a stand-in for triangulate that fans a polygon from its first
    vertex; epsilon is 0. *)
Example C80_prepare_case : let f := fl in
  let fan pts (segments : list nat) := if length pts =? 4 then Some [0; 1; 2; 0; 2; 3] else if length pts =? 3 then Some [0; 1; 2] else None in
  match prepare (fun l => l) (fun m => m) fan (flat_map (fun i => [f (Z.of_nat i) 0; f (Z.of_nat (i * i)) 0; f 0 0]%Z) (seq 0 5))
      (repeat (f 1 0) 18)%Z [7; 9] [[0; 1; 1; 2; 2; 3; 3; 0]; [3; 4; 4; 4; 4; 0; 0; 3]] fzero with
  | Some (_, triangles, tshells) => triangles = [0; 1; 2; 0; 2; 3; 3; 4; 0] /\ tshells = [7; 7; 9]
  | None => False
  end /\
  (forall pts s t, fan pts s = Some t -> exists m, length t = 3 * m).
Proof.
  cbv zeta. split; [vm_compute; auto|]. intros pts s t. destruct (length pts =? 4); [intros H; injection H as <-; exists 2; reflexivity|].
  destruct (length pts =? 3); [intros H; injection H as <-; exists 1; reflexivity|discriminate].
Qed.
(** A second face with one edge, from a vertex to itself. *)
Example C80_collapsed_case : let f := fl in
  let points := flat_map (fun i => [f (Z.of_nat i) 0; f (Z.of_nat (i * i)) 0; f 0 0]%Z) (seq 0 5) in
  let faces := [[0; 1; 1; 2; 2; 3; 3; 0]; [4; 4]] in
  remove_duplicates (fun l => l) points fzero = Some (points, seq 0 (length points)) /\ nth_error faces 1 = Some [4; 4] /\
  (forall k a b, merged (seq 0 (length points)) [4; 4] k a b -> a = b).
Proof.
  cbv zeta. split; [apply C46_epsilon_zero|]. split; [reflexivity|]. intros k a b (p & q & (A & B) & C & D).
  destruct k as [|k]; [cbn in A, B; congruence|]. replace (2 * S k) with (S (S (2 * k))) in A by lia. cbn in A. destruct (k + (k + 0)); discriminate.
Qed.
Print Assumptions C80_edges.
Print Assumptions C80_odd_panics.
Print Assumptions C80_closed.
Print Assumptions C80_prepare.
Print Assumptions C80_collapsed_panics.
