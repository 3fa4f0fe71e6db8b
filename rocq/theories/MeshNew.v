(** SurfaceMesh::new builds a well-formed mesh from the polygons. *)
From Coq Require Import List Arith Bool Lia Permutation.
From Verif Require Import Lib Mesh MeshSpec MeshFacts MeshProofs MeshAddFace MeshSplitFace MeshNewFaces MeshNewEdges MeshNewVerts.
Import ListNotations.
Local Open Scope opt_scope.

Lemma fold_max t : forall a, a <= fold_left Nat.max t a /\ forall x, In x t -> x <= fold_left Nat.max t a.
Proof.
  induction t as [|b t IH]; intros a; simpl; [split; [auto|tauto]|].
  destruct (IH (Nat.max a b)) as [H1 H2]. split; [lia|]. intros x [<-|Hx]; [lia|auto].
Qed.
Lemma fold_max_in t : forall a, fold_left Nat.max t a = a \/ In (fold_left Nat.max t a) t.
Proof.
  induction t as [|b t IH]; intros a; simpl; auto.
  destruct (IH (Nat.max a b)) as [->|H]; [|auto]. destruct (Nat.max_spec a b) as [[_ ->]|[_ ->]]; auto.
Qed.

Lemma max_of_ok l : l <> [] -> exists x, max_of l = Some x /\ In x l /\ forall y, In y l -> y <= x.
Proof.
  destruct l as [|a t]; [congruence|]. intros _. eexists. split; [reflexivity|].
  destruct (fold_max t a) as [H1 H2]. split.
  - destruct (fold_max_in t a) as [->|H]; simpl; auto.
  - intros y [<-|H]; auto.
Qed.

Lemma maxs_ok (ps : list (list nat)) : ps <> [] -> (forall p, In p ps -> p <> []) ->
  exists maxs mx, omap max_of ps = Some maxs /\ max_of maxs = Some mx /\ In mx (concat ps) /\
    forall v, In v (concat ps) -> v <= mx.
Proof.
  intros N H.
  assert (Q : exists maxs, omap max_of ps = Some maxs /\ length maxs = length ps /\
    (forall x, In x maxs -> In x (concat ps)) /\ forall v, In v (concat ps) -> exists x, In x maxs /\ v <= x).
  { clear N. induction ps as [|p ps IH]; simpl.
    - exists []. simpl. intuition.
    - destruct (max_of_ok p) as (x & -> & Ix & Mx); [apply H; now left|].
      destruct IH as (maxs & -> & L & I1 & I2); [intros; apply H; now right|].
      exists (x :: maxs). split; auto. split; [simpl; auto|]. split.
      + intros y [<-|Hy]; apply in_app_iff; auto.
      + intros v Hv. apply in_app_iff in Hv. destruct Hv as [Hv|Hv].
        * exists x. split; [now left|auto].
        * destruct (I2 v Hv) as (y & ? & ?). exists y. split; [now right|auto]. }
  destruct Q as (maxs & E & L & I1 & I2). destruct (max_of_ok maxs) as (mx & E' & Im & Mm).
  { destruct maxs, ps; simpl in *; congruence. }
  exists maxs, mx. split; auto. split; auto. split; auto.
  intros v Hv. destruct (I2 v Hv) as (x & Hx & ?). specialize (Mm x Hx). lia.
Qed.

Lemma key_of_sym a b : key_of a b = key_of b a.
Proof. unfold key_of. destruct (Nat.ltb_spec a b), (Nat.ltb_spec b a); auto; try lia. f_equal; lia. Qed.
Lemma key_of_eq a b c d : key_of a b = key_of c d <-> (a = c /\ b = d \/ a = d /\ b = c).
Proof.
  split.
  - unfold key_of. destruct (a <? b), (c <? d); intros [= -> ->]; auto.
  - intros [[-> ->]|[-> ->]]; auto. apply key_of_sym.
Qed.

Definition pairs (ps : list (list nat)) : list (nat * nat) := concat (map windows ps).

Theorem new_ok order ps :
  (forall l, Permutation l (order l)) -> ps <> [] -> (forall p, In p ps -> p <> []) ->
  exists m, new order ps = Some m /\ well_formed m /\
    n_f m = length ps /\ n_h m = length (concat ps) /\
    (exists mx, n_v m = S mx /\ In mx (concat ps) /\ forall v, In v (concat ps) -> v <= mx) /\
    (forall i p, nth_error ps i = Some p ->
       face_halfedges m i = Some (seq (off ps i) (length p)) /\ face_vertices m i = Some p) /\
    (forall h, h < n_h m -> exists a b, nth_error (pairs ps) h = Some (a, b) /\ goes m h a b) /\
    (forall h1 h2 a b c d, goes m h1 a b -> goes m h2 c d ->
       (rd (he_edge m) h1 = rd (he_edge m) h2 <-> (a = c /\ b = d \/ a = d /\ b = c))).
Proof.
  intros HO N Np. destruct (maxs_ok ps N Np) as (maxs & mx & E1 & E2 & Im & Mm).
  unfold new. rewrite E1, E2. cbv zeta.
  destruct (pass1_ok ps (mx + 1) Np) as (m1 & E3 & P1).
  { intros v Hv. specialize (Mm v Hv). lia. }
  rewrite E3. destruct P1 as [(A1 & A2 & A3) (B1 & B2 & B3 & B4) (C1 & C2 & C3 & C4 & C5 & C6 & C7) PF PV].
  set (n := length (concat ps)) in *.
  assert (Ln : length (nexts 0 ps) = n) by (apply nexts_len; auto).
  fold (pairs ps). assert (Lw : length (pairs ps) = n) by apply ws_len.
  set (K := fun h => kk (nth h (pairs ps) (0, 0))).
  assert (HN : forall (a : ids) j, a = nones n -> rd a j = None).
  { intros a j ->. unfold rd. destruct (nth_error (nones n) j) as [[x|]|] eqn:Q; auto.
    apply nth_error_In in Q. apply repeat_spec in Q. discriminate. }
  destruct (build_edges_ok K (pairs ps) m1 [] 0 n) as (s & he & eh & ne & hist & E4 & I4).
  { constructor.
    - rewrite B1, B4, C6, C7. unfold nones. rewrite !repeat_length. auto.
    - constructor.
    - reflexivity.
    - lia.
    - lia.
    - rewrite C7. lia.
    - intros k. exact I.
    - intros h _. apply HN. exact B4. }
  { lia. }
  { intros i w Hi. unfold K. simpl. rewrite (nth_error_nth _ _ _ Hi). reflexivity. }
  rewrite E4. simpl plus in I4. rewrite Lw in I4.
  destruct (siblings_ok K n s he eh ne hist order I4 (HO _)) as (s' & E5 & Ls & KS). app_simpl. rewrite E5.
  (* vertices of halfedges *)
  assert (VT : forall h, rd (he_vert m1) h = nth_error (concat ps) h) by (intros h; rewrite A2; apply rd_map).
  set (Vo := fun h => nth h (concat ps) 0). set (Vi := fun h => snd (nth h (pairs ps) (0, 0))).
  assert (HVo : forall h, h < n -> rd (he_vert m1) h = Some (Vo h)).
  { intros h Hh. rewrite VT. unfold Vo. apply nth_error_nth'. exact Hh. }
  assert (HW : forall h, h < n -> exists h', h' < n /\ rd (he_next m1) h = Some h' /\ nth_error (pairs ps) h = Some (Vo h, Vo h')).
  { intros h Hh. destruct (locate ps h Hh) as (i & p & j & H1 & H2 & ->).
    assert (Hm : (j + 1) mod length p < length p) by (apply Nat.mod_upper_bound; lia).
    exists (off ps i + (j + 1) mod length p). split; [pose proof (off_le ps i p H1); fold n in H; lia|]. split.
    - rewrite A1, rd_map. rewrite (nexts_at ps 0 i p j); auto.
    - unfold pairs. rewrite (ws_at ps i p j H1 H2), windows_at by auto. unfold Vo.
      rewrite <- (nth_error_nth _ _ 0 (eq_trans (verts_at ps i p j H1 H2) (nth_error_nth' _ 0 H2))).
      rewrite <- (nth_error_nth _ _ 0 (eq_trans (verts_at ps i p _ H1 Hm) (nth_error_nth' _ 0 Hm))). reflexivity. }
  assert (HVi : forall h, h < n -> (h' <- rd (he_next m1) h;; rd (he_vert m1) h') = Some (Vi h)).
  { intros h Hh. destruct (HW h Hh) as (h' & B' & -> & Hp). rewrite HVo by auto. unfold Vi. rewrite (nth_error_nth _ _ _ Hp). reflexivity. }
  assert (BVo : forall h, h < n -> Vo h < mx + 1).
  { intros h Hh. assert (In (Vo h) (concat ps)) by (apply nth_In; exact Hh). specialize (Mm _ H). lia. }
  assert (BVi : forall h, h < n -> Vi h < mx + 1).
  { intros h Hh. destruct (HW h Hh) as (h' & B' & _ & Hp). unfold Vi. rewrite (nth_error_nth _ _ _ Hp). simpl. auto. }
  set (m2 := set_sib _ s').
  assert (HH : halfedges m2 = seq 0 n).
  { unfold halfedges, m2. set_simpl. rewrite A1, map_length, Ln.
    assert (Q : forall l, (forall h, In h l -> h < n) -> filter (fun h => is_some (rd (he_vert m1) h)) l = l).
    { induction l as [|h l IH]; intros Hl; simpl; auto. rewrite HVo by (apply Hl; now left). simpl. f_equal. apply IH. intros; apply Hl; now right. }
    apply Q. intros h Hh. apply in_seq in Hh. lia. }
  assert (LN : length (he_next m1) = n) by (rewrite A1, map_length; auto).
  assert (VCi : exists vh sep, vertex_cycle m2 true = Some (vh, sep) /\
     (forall v, v <= mx + 1 -> nth_error sep v = Some (before Vi v n)) /\
     (forall v j, v < mx + 1 -> j < cnt Vi v n -> nth_error vh (before Vi v n + j) = nth_error (mem Vi v n) j)).
  { unfold vertex_cycle. rewrite HH. rewrite (omap_map _ Vi).
    - unfold m2. set_simpl. rewrite C2, LN. destruct (sort_ok Vi (mx + 1) n BVi) as (deg & vh & Q1 & Q2 & Q3 & Q4).
      rewrite Q1, Q2. eauto.
    - intros h Hh. apply in_seq in Hh. unfold tip, m2. set_simpl. apply HVi. lia. }
  assert (VCo : exists vh sep, vertex_cycle m2 false = Some (vh, sep) /\
     (forall v, v <= mx + 1 -> nth_error sep v = Some (before Vo v n)) /\
     (forall v j, v < mx + 1 -> j < cnt Vo v n -> nth_error vh (before Vo v n + j) = nth_error (mem Vo v n) j)).
  { unfold vertex_cycle. rewrite HH. rewrite (omap_map _ Vo).
    - unfold m2. set_simpl. rewrite C2, LN. destruct (sort_ok Vo (mx + 1) n BVo) as (deg & vh & Q1 & Q2 & Q3 & Q4).
      rewrite Q1, Q2. eauto.
    - intros h Hh. apply in_seq in Hh. unfold m2. set_simpl. apply HVo. lia. }
  destruct VCi as (vhi & sepi & -> & Si & Mi). destruct VCo as (vho & sepo & -> & So & Mo).
  destruct (link_vertices_ok Vi Vo (mx + 1) n vhi sepi vho sepo Si Mi So Mo (seq 0 (n_v m2)) m2) as (ai & ao & E6 & L6 & L6' & K6 & _ & _).
  { apply seq_NoDup. }
  { intros v Hv. apply in_seq in Hv. unfold m2 in Hv. unfold set_sib in Hv. cbn [n_v] in Hv. lia. }
  { exact C2. }
  { unfold m2. set_simpl. rewrite B2. apply repeat_length. }
  { unfold m2. set_simpl. rewrite B3. apply repeat_length. }
  change (n_v m1) with (n_v m2). rewrite E6. unfold m2 in K6 |- *. unfold set_sib in K6 |- *. cbn [v_he n_v he_next he_vert f_he n_h n_f n_e he_edge he_face sib e_he] in K6 |- *.
  clear E6 E5 E4 E3 m2 HH. set (m := Mesh _ _ _ _ _ _ _ _ _ _ _ _ _ _).
  destruct I4 as [(L1 & L2 & L3) I2 I3 I4 I5 I6 I7 I8].
  assert (TP : forall h, tip m h = if h <? n then Some (Vi h) else None).
  { intros h. destruct (Nat.ltb_spec h n).
    - apply HVi. auto.
    - unfold tip. cbn [m he_next]. rewrite rd_ge by lia. reflexivity. }
  assert (VP : forall h, rd (he_vert m1) h = if h <? n then Some (Vo h) else None).
  { intros h. destruct (Nat.ltb_spec h n); [auto|]. apply rd_ge. rewrite A2, map_length. exact H. }
  assert (KV : forall h, h < n -> K h = key_of (Vo h) (Vi h)).
  { intros h Hh. destruct (HW h Hh) as (h' & B' & _ & Hp). unfold K, Vi. rewrite (nth_error_nth _ _ _ Hp). reflexivity. }
  assert (GO : forall h a b, goes m h a b -> h < n /\ a = Vo h /\ b = Vi h).
  { intros h a b [G1 G2]. rewrite TP in G2. unfold m in G1. cbn [he_vert] in G1. rewrite VP in G1.
    destruct (Nat.ltb_spec h n); [|discriminate]. inversion G1; inversion G2; auto. }
  assert (FC : forall i p, nth_error ps i = Some p ->
    cycle (rd (he_next m1)) (fun h => rd (he_face m1) h = Some i) (seq (off ps i) (length p))).
  { intros i p Hi. assert (Hp : 0 < length p).
    { specialize (Np p (nth_error_In _ _ Hi)). destruct p; [congruence|simpl; lia]. }
    split; [destruct (length p); [lia|discriminate]|]. split; [apply seq_NoDup|]. split.
    - apply linked_range; auto. intros j Hj. rewrite A1, rd_map. rewrite (nexts_at ps 0 i p j); auto.
    - intros h. rewrite in_seq, A3, rd_map. split.
      + intros Hh. replace h with (off ps i + (h - off ps i)) by lia. rewrite (faces_at ps 0 i p); auto. lia.
      + intros Hh. assert (Bh : h < n).
        { unfold n. rewrite <- (faces_len ps 0). apply nth_error_Some. congruence. }
        destruct (locate ps h Bh) as (i' & p' & j & H1 & H2 & ->). rewrite (faces_at ps 0 i' p') in Hh by auto.
        simpl in Hh. inversion Hh; subst i'. assert (p' = p) by congruence. subst. lia. }
  assert (FH : forall h, h < n -> exists i p, nth_error ps i = Some p /\ rd (he_face m1) h = Some i).
  { intros h Hh. destruct (locate ps h Hh) as (i & p & j & H1 & H2 & ->). exists i, p. split; auto.
    rewrite A3, rd_map. rewrite (faces_at ps 0 i p); auto. }
  assert (GE : forall h e, rd he h = Some e -> cycle (rd s') (fun x => rd he x = Some e) (grp K (K h) n)).
  { intros h e Hh. assert (Bh : h < n) by (apply rd_lt in Hh; lia).
    assert (Ih : In h (grp K (K h) n)) by (apply grp_in; auto).
    split; [intros C; rewrite C in Ih; destruct Ih|]. split; [apply grp_NoDup|]. split; [apply KS; auto|].
    intros x. rewrite grp_in. split.
    - intros [Bx Kx]. rewrite <- Hh. apply I5; auto.
    - intros Hx. assert (Bx : x < n) by (apply rd_lt in Hx; lia). split; auto. apply I5; auto. congruence. }
  assert (VHE : forall v, v < mx + 1 -> (exists h, h < n /\ Vo h = v) -> rd (v_he m1) v <> None).
  { intros v Hv (h & Bh & <-). destruct (PV (Vo h)) as [(x & -> & _)|[_ Q]]; [discriminate|].
    exfalso. apply Q. apply nth_In. exact Bh. }
  assert (OVi : forall h, h < n -> exists h', h' < n /\ Vo h' = Vi h).
  { intros h Hh. destruct (HW h Hh) as (h' & B' & _ & Hp). exists h'. split; auto. unfold Vi. rewrite (nth_error_nth _ _ _ Hp). reflexivity. }
  assert (WFm : well_formed m).
  { apply wf_of_parts; unfold m; app_simpl.
    - unfold lens. app_simpl. rewrite !A1, !A2, !A3, !map_length, faces_len. fold n. rewrite Ln. lia.
    - intros h Hh. rewrite C1 in Hh. exists (Vo h). split; [rewrite C3; auto|auto].
    - intros h Hh. rewrite C1 in Hh. auto.
    - intros h Hh. rewrite C1 in Hh. destruct (FH h Hh) as (i & p & H1 & H2). exists i. split; auto.
      rewrite C5. apply nth_error_Some. congruence.
    - intros f Hf. rewrite C5 in Hf. apply nth_error_Some in Hf. destruct (nth_error ps f) as [p|] eqn:Q; [|congruence].
      exists (off ps f). split; [apply (PF f p Q)|]. apply (FC f p Q). apply in_seq.
      specialize (Np p (nth_error_In _ _ Q)). destruct p; [congruence|simpl; lia].
    - intros e He. destruct (I6 e He) as (h & _ & H1 & H2). eauto.
    - fold m. intros e He. destruct (I6 e He) as (h & Bh & _ & H2). exists (Vo h), (Vi h). intros x Hx.
      assert (Bx : x < n) by (apply rd_lt in Hx; lia).
      assert (KK : K x = K h) by (apply I5; auto; congruence). rewrite !KV in KK by auto. apply key_of_eq in KK.
      unfold joins, goes. rewrite TP, (proj2 (Nat.ltb_lt _ _) Bx). unfold m. app_simpl. rewrite VP, (proj2 (Nat.ltb_lt _ _) Bx).
      destruct KK as [[-> ->]|[-> ->]]; auto.
    - intros v Hv. destruct (PV v) as [(h & H1 & H2)|[H1 H2]]; [right; eauto|left]. split; auto.
      intros h Hh. rewrite VT in Hh. apply nth_error_In in Hh. contradiction.
    - intros h f Hh. assert (Bh : h < n). { rewrite A3, rd_map in Hh. unfold n. rewrite <- (faces_len ps 0). apply nth_error_Some. congruence. }
      destruct (FH h Bh) as (i & p & H1 & H2). assert (i = f) by congruence. subst i. eexists. apply (FC f p H1).
    - intros h e Hh. eexists. apply (GE h e Hh).
    - intros h v Hh. rewrite VP in Hh. destruct (Nat.ltb_spec h n) as [Bh|]; [|discriminate]. inversion Hh; subst v.
      exists (mem Vo (Vo h) n). assert (Ih : In h (mem Vo (Vo h) n)) by (apply mem_in; auto).
      split; [intros C; rewrite C in Ih; destruct Ih|]. split; [apply mem_NoDup|]. split.
      + apply K6; [apply in_seq; specialize (BVo h Bh); lia|]. apply VHE; eauto.
      + intros x. rewrite mem_in, VP. destruct (Nat.ltb_spec x n); split; try congruence; try lia.
        * intros [_ ->]. reflexivity.
        * intros [= Q]. auto.
    - fold m. intros h v Hh. rewrite TP in Hh. destruct (Nat.ltb_spec h n) as [Bh|]; [|discriminate]. inversion Hh; subst v.
      exists (mem Vi (Vi h) n). assert (Ih : In h (mem Vi (Vi h) n)) by (apply mem_in; auto).
      split; [intros C; rewrite C in Ih; destruct Ih|]. split; [apply mem_NoDup|]. split.
      + apply K6; [apply in_seq; specialize (BVi h Bh); lia|]. apply VHE; eauto.
      + intros x. rewrite mem_in, TP. destruct (Nat.ltb_spec x n); split; try congruence; try lia.
        * intros [_ ->]. reflexivity.
        * intros [= Q]. auto. }
  exists m. split; [reflexivity|]. split; [exact WFm|].
  split; [exact C5|]. split; [exact C1|]. split; [|split; [|split]].
  - exists mx. unfold m. app_simpl. split; [lia|auto].
  - intros i p Hi. assert (Hf : face_halfedges m i = Some (seq (off ps i) (length p))).
    { unfold face_halfedges, m. app_simpl. rewrite (PF i p Hi). destruct (FC i p Hi) as (F1 & F2 & F3 & _).
      destruct (length p) as [|k]; [destruct F1; reflexivity|]. apply circulate_linked; auto. }
    split; [exact Hf|]. unfold face_vertices. rewrite Hf. unfold m. app_simpl.
    rewrite (omap_map _ Vo).
    + f_equal. apply nth_error_ext. intros j. rewrite nth_error_map.
      destruct (Nat.lt_ge_cases j (length p)) as [Hj|Hj].
      * rewrite (nth_error_nth' _ 0) by (rewrite seq_length; auto). rewrite seq_nth by auto. simpl.
        rewrite <- (verts_at ps i p j Hi Hj). unfold Vo. rewrite <- nth_error_nth'; auto.
        pose proof (off_le ps i p Hi). fold n in H |- *. lia.
      * rewrite (proj2 (nth_error_None _ _)) by (rewrite seq_length; auto). symmetry. apply nth_error_None. exact Hj.
    + intros h Hh. apply in_seq in Hh. apply HVo. pose proof (off_le ps i p Hi). fold n in H. lia.
  - intros h Hh. unfold m in Hh. cbn [n_h] in Hh. rewrite C1 in Hh. destruct (HW h Hh) as (h' & B' & En & Hp).
    exists (Vo h), (Vo h'). split; auto. split; [apply HVo; auto|]. rewrite TP, (proj2 (Nat.ltb_lt _ _) Hh).
    unfold Vi. rewrite (nth_error_nth _ _ _ Hp). reflexivity.
  - intros h1 h2 a b c d G1 G2. apply GO in G1, G2. destruct G1 as (Bh1 & -> & ->), G2 as (Bh2 & -> & ->).
    unfold m. app_simpl. rewrite (I5 h1 h2 Bh1 Bh2). rewrite !KV by auto. apply key_of_eq.
Qed.

(** The panics of [new]: no polygon at all, or an empty polygon. *)
Lemma new_panics order ps : (ps = [] \/ In [] ps) -> new order ps = None.
Proof.
  intros [->|H]; [reflexivity|]. unfold new.
  assert (omap max_of ps = None) as ->; [|reflexivity].
  induction ps as [|p ps IH]; [destruct H|]. simpl. destruct H as [->|H]; [reflexivity|].
  rewrite (IH H). destruct (max_of p); reflexivity.
Qed.
