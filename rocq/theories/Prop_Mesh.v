(** Properties C12-C18: the half-edge surface mesh (src/mesh/surface_mesh.rs
    and the iterators of src/mesh/element). *)
From Coq Require Import List Arith Bool Lia Permutation.
From Verif Require Import Lib Mesh MeshSpec MeshFacts MeshProofs MeshAddFace MeshSplitFace MeshSplitEdge
  MeshNewFaces MeshNewEdges MeshNewVerts MeshNew.
Import ListNotations.
Local Open Scope opt_scope.

(** ** Specification *)

(** A polygon soup SurfaceMesh::new accepts: at least one polygon, none empty. *)
Definition soup (ps : list (list nat)) : Prop := ps <> [] /\ forall p, In p ps -> p <> [].
(** The iteration order of a HashMap: any rearrangement of its values. *)
Definition any_order (order : list nat -> list nat) : Prop := forall l, Permutation l (order l).

(** [l] contains exactly the numbers satisfying [S], each once. *)
Definition lists (l : list nat) (S : nat -> Prop) : Prop := NoDup l /\ forall x, In x l <-> S x.

(** Edge [e] has two distinct endpoints. *)
Definition proper_edge (m : mesh) (e : nat) : Prop :=
  exists h a b, rd (he_edge m) h = Some e /\ goes m h a b /\ a <> b.

(** The first two visits to [va] or [vb] along face [f] are one visit each,
    after [P] and after [Q]. *)
Definition cuts (m : mesh) (f va vb : nat) (P : list nat) (a : nat) (Q : list nat) (b : nat) (R : list nat) : Prop :=
  face_vertices m f = Some (P ++ a :: Q ++ b :: R) /\ va <> vb /\
  (a = va /\ b = vb \/ a = vb /\ b = va) /\ (forall v, In v (P ++ Q) -> v <> va /\ v <> vb).

(** Consecutive halfedges of [hs] meet, and the last meets the first. *)
Definition loop (m : mesh) (hs : list nat) : Prop :=
  hs <> [] /\ (forall h, In h hs -> h < n_h m) /\
  forall i x y, nth_error hs i = Some x -> nth_error (hs ++ firstn 1 hs) (S i) = Some y ->
    exists v, tip m x = Some v /\ rd (he_vert m) y = Some v.

(** Meshes the program can build: [new] followed by any of the operations. *)
Inductive reached (order : list nat -> list nat) : mesh -> Prop :=
| r_new ps m : new order ps = Some m -> reached order m
| r_split_edge m e m' v : reached order m -> e < n_e m -> proper_edge m e ->
    split_edge m e = Some (m', v) -> reached order m'
| r_split_face m f va vb P a Q b R m' h : reached order m -> f < n_f m -> cuts m f va vb P a Q b R ->
    split_face m f va vb = Some (m', h) -> reached order m'
| r_add_face m hs m' f : reached order m -> loop m hs ->
    add_face_by_halfedges m hs = Some (m', f) -> reached order m'.

(** ** Lemmas *)
Lemma soup_of_new order ps m : new order ps = Some m -> soup ps.
Proof.
  intros H. split.
  - intros ->. rewrite new_panics in H by auto. discriminate.
  - intros p Hp ->. rewrite new_panics in H by auto. discriminate.
Qed.

Lemma omap_split {A B} (f : A -> option B) l r1 b r2 : omap f l = Some (r1 ++ b :: r2) ->
  exists l1 a l2, l = l1 ++ a :: l2 /\ omap f l1 = Some r1 /\ f a = Some b /\ omap f l2 = Some r2.
Proof.
  revert l. induction r1 as [|c r1 IH]; intros [|x l] H; simpl in H; try discriminate.
  - destruct (f x) eqn:E; [|discriminate]. destruct (omap f l) eqn:E'; [|discriminate]. inversion H; subst.
    exists [], x, l. auto.
  - destruct (f x) eqn:E; [|discriminate]. destruct (omap f l) eqn:E'; [|discriminate]. inversion H; subst.
    destruct (IH l E') as (l1 & a & l2 & -> & H1 & H2 & H3). exists (x :: l1), a, l2. simpl. rewrite E, H1. auto.
Qed.

Lemma omap_in {A B} (f : A -> option B) l r x : omap f l = Some r -> In x l -> exists y, f x = Some y /\ In y r.
Proof.
  revert r. induction l as [|a l IH]; intros r H Hx; [destruct Hx|]. simpl in H.
  destruct (f a) eqn:E; [|discriminate]. destruct (omap f l) eqn:E'; [|discriminate]. inversion H; subst.
  destruct Hx as [->|Hx]; [exists b; simpl; auto|]. destruct (IH _ eq_refl Hx) as (y & H1 & H2). exists y. simpl. auto.
Qed.

(** Cutting the face list where its vertex list is cut. *)
Lemma cuts_halfedges m f va vb P a Q b R : cuts m f va vb P a Q b R ->
  exists A x B y C, face_halfedges m f = Some (A ++ x :: B ++ y :: C) /\
    omap (rd (he_vert m)) A = Some P /\ rd (he_vert m) x = Some a /\ omap (rd (he_vert m)) B = Some Q /\
    rd (he_vert m) y = Some b /\ omap (rd (he_vert m)) C = Some R /\
    (forall h v, In h (A ++ B) -> rd (he_vert m) h = Some v -> v <> va /\ v <> vb).
Proof.
  intros (E & Hv & Hab & HPQ). unfold face_vertices in E.
  destruct (face_halfedges m f) as [l|]; [|discriminate].
  destruct (omap_split _ _ _ _ _ E) as (A & x & l2 & -> & E1 & E2 & E3).
  destruct (omap_split _ _ _ _ _ E3) as (B & y & C & -> & E4 & E5 & E6).
  exists A, x, B, y, C. split; [auto|]. split; [auto|]. split; [auto|]. split; [auto|]. split; [auto|]. split; [auto|].
  intros h v Hh Ev. apply HPQ. apply in_app_iff in Hh. apply in_app_iff.
  destruct Hh as [Hh|Hh]; [left; destruct (omap_in _ _ _ _ E1 Hh) as (w & ? & ?)|right; destruct (omap_in _ _ _ _ E4 Hh) as (w & ? & ?)];
    congruence.
Qed.

Lemma face_same m m' g : well_formed m -> g < n_f m -> rd (f_he m') g = rd (f_he m) g ->
  (forall h, rd (he_face m) h = Some g -> rd (he_next m') h = rd (he_next m) h /\ rd (he_vert m') h = rd (he_vert m) h) ->
  face_halfedges m' g = face_halfedges m g /\ face_vertices m' g = face_vertices m g.
Proof.
  intros W B Ef H. destruct (face_halfedges_ok m g W B) as (l & El & Hd & (Nl & D & LK & I)).
  assert (E' : face_halfedges m' g = Some l).
  { unfold face_halfedges. rewrite Ef, <- Hd. destruct l as [|a t]; [congruence|]. simpl. apply circulate_linked; auto.
    revert LK. apply linked_ext. intros x Hx. symmetry. apply H. apply I. exact Hx. }
  split; [congruence|]. unfold face_vertices. rewrite E', El. apply omap_ext.
  intros x Hx. apply H. apply I. exact Hx.
Qed.

Lemma proper_edge_head m e : well_formed m -> e < n_e m -> proper_edge m e ->
  exists es h0 va vb, edge_halfedges m e = Some es /\ nth_error es 0 = Some h0 /\ goes m h0 va vb /\ va <> vb.
Proof.
  intros W B (h & a & b & E & G & N). destruct (edge_halfedges_ok m e W B) as (es & H1 & H2 & (H3 & _ & _ & I)).
  destruct es as [|h0 t]; [congruence|]. exists (h0 :: t), h0.
  assert (E0 : rd (he_edge m) h0 = Some e) by (apply I; now left).
  destruct (wf_ends _ W e B) as (u & w & J). pose proof (J h E) as J1. pose proof (J h0 E0) as J2.
  unfold joins, goes in *. destruct G as [G1 G2].
  destruct J2 as [[J2 J3]|[J2 J3]].
  - exists u, w. split; auto. split; auto. split; auto. intros ->. destruct J1 as [[J4 J5]|[J4 J5]]; congruence.
  - exists w, u. split; auto. split; auto. split; auto. intros ->. destruct J1 as [[J4 J5]|[J4 J5]]; congruence.
Qed.

Lemma reached_wf order m : any_order order -> reached order m -> well_formed m.
Proof.
  intros HO. induction 1 as [ps m E|m e m' v _ W B P E|m f va vb P a Q b R m' h _ W B C E|m hs m' f _ W L E].
  - destruct (soup_of_new _ _ _ E) as [N1 N2]. destruct (new_ok order ps HO N1 N2) as (m' & E' & W & _). congruence.
  - destruct (proper_edge_head m e W B P) as (es & h0 & va & vb & H1 & H2 & H3 & H4).
    destruct (split_edge_ok m e es h0 va vb W B H1 H2 H3 H4) as (m2 & E' & W' & _). congruence.
  - destruct (cuts_halfedges _ _ _ _ _ _ _ _ _ C) as (A & x & B' & y & C' & H1 & _ & H2 & _ & H3 & _ & H4).
    destruct C as (_ & Hv & Hab & _).
    destruct (split_face_ok m f va vb A x B' y C' a b W B H1 H2 H3 Hv Hab H4) as (m2 & E' & W' & _). congruence.
  - destruct L as (L1 & L2 & L3). destruct (add_face_ok m hs W L1 L2 L3) as (m2 & E' & W' & _). congruence.
Qed.

(** ** C12 *)

(** One face per polygon, in order, and walking around face [i] visits the
    vertices of polygon [i] in the order given. *)
Theorem C12_new_reproduces_polygons order ps :
  any_order order -> soup ps ->
  exists m, new order ps = Some m /\ n_f m = length ps /\ n_h m = length (concat ps) /\
    (forall i p, nth_error ps i = Some p -> face_vertices m i = Some p) /\
    (forall v, In v (concat ps) -> v < n_v m) /\ In (n_v m - 1) (concat ps).
Proof.
  intros HO [N1 N2]. destruct (new_ok order ps HO N1 N2) as (m & E & W & F & H & (mx & V1 & V2 & V3) & FV & _).
  exists m. split; [exact E|]. split; [exact F|]. split; [exact H|]. split; [intros i p Hi; apply (FV i p Hi)|].
  rewrite V1. split; [intros v Hv; specialize (V3 v Hv); lia|]. simpl. rewrite Nat.sub_0_r. exact V2.
Qed.

(** Outside of that domain [new] panics. *)
Theorem C12_new_panics_otherwise order ps : ~ soup ps -> new order ps = None.
Proof.
  intros H. destruct ps as [|p ps]; [reflexivity|]. apply new_panics. right.
  destruct (in_dec (list_eq_dec Nat.eq_dec) [] (p :: ps)) as [I|I]; auto. exfalso. apply H.
  split; [discriminate|]. intros q Hq ->. contradiction.
Qed.

(** ** C13 *)
Theorem C13_edges_identify_pairs order ps m :
  any_order order -> new order ps = Some m ->
  (forall h, h < n_h m -> exists a b e, goes m h a b /\ rd (he_edge m) h = Some e /\ e < n_e m) /\
  (forall h1 h2 a b c d, goes m h1 a b -> goes m h2 c d ->
     (rd (he_edge m) h1 = rd (he_edge m) h2 <-> (a = c /\ b = d \/ a = d /\ b = c))) /\
  (forall e, e < n_e m -> exists l, edge_halfedges m e = Some l /\ l <> [] /\
     lists l (fun h => rd (he_edge m) h = Some e)).
Proof.
  intros HO E. destruct (soup_of_new _ _ _ E) as [N1 N2].
  destruct (new_ok order ps HO N1 N2) as (m' & E' & W & F & H & _ & _ & GO & SE).
  assert (m' = m) by congruence. subst m'. split; [|split].
  - intros h Hh. destruct (GO h Hh) as (a & b & _ & G). destruct (wf_hedge _ W h Hh) as (e & B & Ee).
    exists a, b, e. auto.
  - exact SE.
  - intros e Be. destruct (edge_halfedges_ok m e W Be) as (l & El & _ & (Nl & D & _ & I)).
    exists l. split; [exact El|]. split; [exact Nl|]. split; auto.
Qed.

(** In every reached mesh the halfedges of an edge join the same two vertices. *)
Theorem C13_edge_iteration_reached order m e :
  any_order order -> reached order m -> e < n_e m ->
  exists l a b, edge_halfedges m e = Some l /\ l <> [] /\ lists l (fun h => rd (he_edge m) h = Some e) /\
    forall h, In h l -> joins m h a b.
Proof.
  intros HO R Be. pose proof (reached_wf _ _ HO R) as W.
  destruct (edge_halfedges_ok m e W Be) as (l & El & _ & (Nl & D & _ & I)).
  destruct (wf_ends _ W e Be) as (a & b & J). exists l, a, b. split; [exact El|]. split; [exact Nl|].
  split; [split; auto|]. intros h Hh. apply J. apply I. exact Hh.
Qed.

(** ** C14 *)

(** The iterators stop, and visit the halfedges ending (starting) at the vertex
    once each; a vertex without [v_he] entry has no halfedge at all. *)
Theorem C14_vertex_circulators order m v :
  any_order order -> reached order m -> v < n_v m ->
  (rd (v_he m) v = None /\ (forall h, rd (he_vert m) h <> Some v) /\ (forall h, tip m h <> Some v)) \/
  (exists i o, incoming_halfedges m v = Some i /\ outgoing_halfedges m v = Some o /\ i <> [] /\ o <> [] /\
     lists i (fun h => tip m h = Some v) /\ lists o (fun h => rd (he_vert m) h = Some v)).
Proof.
  intros HO R Bv. pose proof (reached_wf _ _ HO R) as W.
  destruct (wf_vertex _ W v Bv) as [(N1 & N2)|((h & E1 & E2) & _)].
  - left. split; auto. split; auto. intros h Hh. unfold tip in Hh. destruct (rd (he_next m) h); [|discriminate].
    eapply N2; eauto.
  - right. destruct (incoming_ok m v h W E1) as (i & Ei & (Ni & Di & _ & Ii)).
    destruct (outgoing_ok m v h W E1) as (o & Eo & (No & Do & _ & Io)).
    exists i, o. unfold lists. auto 10.
Qed.

(** Every vertex used by a polygon is of the second kind. *)
Theorem C14_used_vertices order ps m v :
  any_order order -> new order ps = Some m -> In v (concat ps) ->
  v < n_v m /\ rd (v_he m) v <> None.
Proof.
  intros HO E Hv. destruct (soup_of_new _ _ _ E) as [N1 N2].
  destruct (new_ok order ps HO N1 N2) as (m' & E' & W & F & H & (mx & V1 & V2 & V3) & FV & _).
  assert (m' = m) by congruence. subst m'. assert (Bv : v < n_v m) by (specialize (V3 v Hv); lia).
  split; [exact Bv|]. apply in_concat in Hv. destruct Hv as (p & Hp & Hv). apply In_nth_error in Hp. destruct Hp as [i Hi].
  destruct (FV i p Hi) as [F1 F2]. unfold face_vertices in F2. rewrite F1 in F2.
  apply In_nth_error in Hv. destruct Hv as [j Hj]. destruct (omap_nth_inv _ _ _ F2) as [L Q].
  assert (Hb : j < length p) by (apply nth_error_Some; congruence).
  pose proof (Q j _ _ (nth_seq (off ps i) (length p) j Hb) Hj) as Q'.
  destruct (wf_vertex _ W v Bv) as [(_ & K)|((h & K & _) & _)]; [exfalso; eapply K; eauto|congruence].
Qed.

(** ** C15 *)

(** The vertices of a face after [split_edge]: [nv] follows the start vertex
    of each halfedge on edge [e]. *)
Definition with_vertex (m : mesh) (e nv : nat) (hs vs : list nat) : list nat :=
  concat (map (fun hv => match rd (he_edge m) (fst hv) with
                         | Some e' => if e' =? e then [snd hv; nv] else [snd hv]
                         | None => [snd hv]
                         end) (combine hs vs)).

Theorem C15_split_edge order m e :
  any_order order -> reached order m -> e < n_e m -> proper_edge m e ->
  exists m' va vb, split_edge m e = Some (m', n_v m) /\ reached order m' /\ va <> vb /\
    n_v m' = S (n_v m) /\ n_e m' = S (n_e m) /\ n_f m' = n_f m /\
    (forall f hs vs, f < n_f m -> face_halfedges m f = Some hs -> face_vertices m f = Some vs ->
       face_vertices m' f = Some (with_vertex m e (n_v m) hs vs)) /\
    (* the old edge now ends at the new vertex, the new edge goes on from there *)
    (forall h, rd (he_edge m) h = Some e -> joins m h va vb) /\
    (forall h, rd (he_edge m') h = Some e -> joins m' h va (n_v m)) /\
    (forall h, rd (he_edge m') h = Some (n_e m) -> joins m' h (n_v m) vb) /\
    (* all other halfedges keep their edge and endpoints *)
    (forall h, h < n_h m -> rd (he_edge m) h <> Some e ->
       rd (he_edge m') h = rd (he_edge m) h /\ rd (he_vert m') h = rd (he_vert m) h /\ tip m' h = tip m h).
Proof.
  intros HO R B P. pose proof (reached_wf _ _ HO R) as W.
  destruct (proper_edge_head m e W B P) as (es & h0 & va & vb & H1 & H2 & H3 & H4).
  destruct (split_edge_ok m e es h0 va vb W B H1 H2 H3 H4) as (m' & E & W' & Nv & Ne & Nf & Nh & FH & OLD & NEW & VO & VN).
  destruct (edge_halfedges_ok m e W B) as (es' & EH' & _ & (_ & DE & _ & IE)).
  assert (es' = es) by congruence. subst es'.
  assert (BE : forall h, In h es -> h < n_h m).
  { intros h Hh. apply IE in Hh. apply rd_lt in Hh. destruct (wf_lengths _ W) as (_ & <- & _). exact Hh. }
  assert (J : forall h, rd (he_edge m) h = Some e -> joins m h va vb).
  { destruct (wf_ends _ W e B) as (u & w & J). intros h Hh. pose proof (J h Hh) as J1.
    assert (I0 : rd (he_edge m) h0 = Some e) by (apply IE; eapply nth_error_In; eauto).
    pose proof (J h0 I0) as J2. unfold joins, goes in *. destruct H3 as [G1 G2].
    assert (Q : forall y z : nat, Some y = Some z -> y = z) by congruence.
    destruct J2 as [[J2 J3]|[J2 J3]];
    pose proof (Q _ _ (eq_trans (eq_sym J2) G1)); pose proof (Q _ _ (eq_trans (eq_sym J3) G2)); subst; tauto. }
  assert (GEN : forall h, h < n_h m' -> (h < n_h m /\ rd (he_edge m) h <> Some e) \/
     (rd (he_edge m) h = Some e /\ h < n_h m) \/ exists h', rd (he_edge m) h' = Some e /\ h = nw es (n_h m) h').
  { intros h Hh. rewrite Nh in Hh. destruct (Nat.lt_ge_cases h (n_h m)).
    - destruct (in_dec Nat.eq_dec h es) as [I|I]; rewrite IE in I; auto.
    - right. right. destruct (nth_error_ex es (h - n_h m)) as [h' Hh']; [lia|]. exists h'. split.
      + apply IE. eapply nth_error_In; eauto.
      + rewrite (nw_pos es (n_h m) DE _ _ Hh'). lia. }
  assert (EG : forall h g, rd (he_edge m') h = Some g -> h < n_h m').
  { intros h g Hg. apply rd_lt in Hg. destruct (wf_lengths _ W') as (_ & <- & _). exact Hg. }
  assert (EN : forall h, h < n_h m -> rd (he_edge m) h <> Some (n_e m)).
  { intros h Hh C. destruct (wf_hedge _ W h Hh) as (g & ? & ?). assert (g = n_e m) by congruence. lia. }
  exists m', va, vb. split; [exact E|]. split; [eapply r_split_edge; eauto|]. split; [exact H4|].
  split; [exact Nv|]. split; [exact Ne|]. split; [exact Nf|]. split; [|split; [|split; [|split]]].
  - intros f hs vs Bf Ef Ev. unfold face_vertices in Ev |- *. rewrite Ef in Ev. rewrite (FH f hs Bf Ef).
    destruct (face_halfedges_ok m f W Bf) as (hs' & Ef' & _ & (_ & _ & _ & If)).
    assert (hs' = hs) by congruence. subst hs'.
    assert (Bh : forall h, In h hs -> h < n_h m).
    { intros h Hh. apply If in Hh. apply rd_lt in Hh. destruct (wf_lengths _ W) as (_ & _ & <- & _). exact Hh. }
    clear Ef Ef' If. revert vs Ev Bh. unfold with_vertex. induction hs as [|h hs IH]; intros vs Ev Bh; simpl in Ev.
    + inversion Ev; reflexivity.
    + destruct (rd (he_vert m) h) as [v|] eqn:Ehv; [|discriminate]. destruct (omap (rd (he_vert m)) hs) as [r|]; [|discriminate].
      inversion Ev; subst. cbn [flat_map combine map concat fst snd]. rewrite omap_app.
      rewrite (IH r eq_refl) by (intros; apply Bh; now right).
      assert (Bh0 := Bh h (or_introl eq_refl)). destruct (OLD h Bh0) as (O1 & _).
      unfold ext. destruct (inb h es) eqn:Ib.
      * apply inb_In, IE in Ib. rewrite Ib, Nat.eqb_refl. destruct (NEW h Ib) as (Q1 & _). cbn [omap].
        rewrite O1, Ehv, Q1. reflexivity.
      * apply inb_nIn in Ib. rewrite IE in Ib. cbn [omap]. rewrite O1, Ehv.
        destruct (rd (he_edge m) h) as [g|]; [|reflexivity]. destruct (Nat.eqb_spec g e); [congruence|reflexivity].
  - exact J.
  - intros h Hh. destruct (GEN h (EG h e Hh)) as [[K1 K2]|[[K1 K2]|(h' & K1 & ->)]].
    + destruct (OLD h K1) as (_ & _ & O). destruct (O K2) as [O1 _]. congruence.
    + destruct (NEW h K1) as (_ & Q2 & _ & _ & Q5 & Q6). destruct (OLD h K2) as (O1 & _).
      destruct (J h K1) as [G|G].
      * left. split; [rewrite O1; apply G|exact Q2].
      * destruct (Q6 G) as [C _]. rewrite C in Hh. inversion Hh; lia.
    + destruct (NEW h' K1) as (Q1 & _ & Q3 & _ & Q5 & Q6). destruct (J h' K1) as [G|G].
      * destruct (Q5 G) as [_ C]. rewrite C in Hh. inversion Hh; lia.
      * right. split; [exact Q1|]. rewrite Q3. apply G.
  - intros h Hh. destruct (GEN h (EG h _ Hh)) as [[K1 K2]|[[K1 K2]|(h' & K1 & ->)]].
    + destruct (OLD h K1) as (_ & _ & O). destruct (O K2) as [O1 _]. exfalso. apply (EN h K1). congruence.
    + destruct (NEW h K1) as (_ & Q2 & _ & _ & Q5 & Q6). destruct (OLD h K2) as (O1 & _).
      destruct (J h K1) as [G|G].
      * destruct (Q5 G) as [C _]. rewrite C in Hh. inversion Hh; lia.
      * right. split; [rewrite O1; apply G|exact Q2].
    + destruct (NEW h' K1) as (Q1 & _ & Q3 & _ & Q5 & Q6). destruct (J h' K1) as [G|G].
      * left. split; [exact Q1|]. rewrite Q3. apply G.
      * destruct (Q6 G) as [_ C]. rewrite C in Hh. inversion Hh; lia.
  - intros h Hh K. destruct (OLD h Hh) as (O1 & _ & O). destruct (O K) as [O2 O3]. auto.
Qed.

(** ** C16 *)
Theorem C16_split_face order m f va vb P a Q b R :
  any_order order -> reached order m -> f < n_f m -> cuts m f va vb P a Q b R ->
  exists m' h, split_face m f va vb = Some (m', h) /\ reached order m' /\
    n_v m' = n_v m /\ n_e m' = S (n_e m) /\ n_f m' = S (n_f m) /\
    (* the two arcs of the old cycle, each closed by the new edge *)
    face_vertices m' f = Some (b :: a :: Q) /\
    face_vertices m' (n_f m) = Some (a :: b :: R ++ P) /\
    (forall g, g < n_f m -> g <> f -> face_vertices m' g = face_vertices m g) /\
    (* the new edge joins a and b; the returned halfedge goes from a to b on it *)
    (forall x, rd (he_edge m') x = Some (n_e m) -> joins m' x a b) /\
    goes m' h a b /\ rd (he_edge m') h = Some (n_e m) /\ rd (he_face m') h = Some (n_f m) /\
    (forall x, x < n_h m -> rd (he_vert m') x = rd (he_vert m) x /\ tip m' x = tip m x /\
       rd (he_edge m') x = rd (he_edge m) x).
Proof.
  intros HO Rm B C. pose proof (reached_wf _ _ HO Rm) as W.
  destruct (cuts_halfedges _ _ _ _ _ _ _ _ _ C) as (A & x & B' & y & C' & H1 & HA & H2 & HB & H3 & HC & H4).
  assert (C0 := C). destruct C0 as (FV & Hv & Hab & _).
  destruct (split_face_ok m f va vb A x B' y C' a b W B H1 H2 H3 Hv Hab H4)
    as (m' & E & W' & Nv & Ne & Nf & Nh & F1 & F2 & V1 & V2 & E1 & E2 & OLD & FO & VH & EO).
  set (N := n_h m) in *.
  assert (FB : forall z, In z (A ++ x :: B' ++ y :: C') -> z < N).
  { destruct (face_halfedges_ok m f W B) as (l & El & _ & (_ & _ & _ & I)). rewrite H1 in El. inversion El; subst l.
    intros z Hz. apply I in Hz. apply rd_lt in Hz. destruct (wf_lengths _ W) as (_ & _ & L & _). fold N in L. lia. }
  assert (VOLD : forall z, In z (A ++ x :: B' ++ y :: C') -> rd (he_vert m') z = rd (he_vert m) z).
  { intros z Hz. apply OLD. auto. }
  assert (OX : forall l r, omap (rd (he_vert m)) l = Some r -> (forall z, In z l -> In z (A ++ x :: B' ++ y :: C')) ->
     omap (rd (he_vert m')) l = Some r).
  { intros l r Hl Hi. rewrite <- Hl. apply omap_ext. auto. }
  assert (IX : In x (A ++ x :: B' ++ y :: C')) by (apply in_app_iff; right; now left).
  assert (IY : In y (A ++ x :: B' ++ y :: C')) by (apply in_app_iff; right; right; apply in_app_iff; right; now left).
  assert (OB := OX B' Q HB ltac:(intros z Hz; apply in_app_iff; right; right; apply in_app_iff; now left)).
  assert (OC := OX C' R HC ltac:(intros z Hz; apply in_app_iff; right; right; apply in_app_iff; right; now right)).
  assert (OA := OX A P HA ltac:(intros z Hz; apply in_app_iff; now left)).
  assert (Lf := proj1 (proj2 (proj2 (wf_lengths _ W')))). 
  (* next pointers of the new halfedges, from the face cycles *)
  assert (FC1 := face_halfedges_ok m' f W' ltac:(lia)). destruct FC1 as (l1 & El1 & _ & (_ & _ & LK1 & I1)).
  assert (FC2 := face_halfedges_ok m' (n_f m) W' ltac:(lia)). destruct FC2 as (l2 & El2 & _ & (_ & _ & LK2 & I2)).
  rewrite F1 in El1. inversion El1; subst l1. rewrite F2 in El2. inversion El2; subst l2.
  assert (T1 : tip m' N = Some a).
  { unfold tip. destruct LK1 as [-> _]. rewrite VOLD; auto. }
  assert (T2 : tip m' (N + 1) = Some b).
  { unfold tip. destruct LK2 as [-> _]. rewrite VOLD; auto. }
  exists m', (N + 1). split; [exact E|]. split; [eapply r_split_face; eauto|]. split; [exact Nv|]. split; [exact Ne|].
  split; [exact Nf|]. split; [|split; [|split; [|split; [|split; [|split; [|split]]]]]].
  - unfold face_vertices. rewrite F1. cbn [omap]. rewrite V1, (VOLD x IX), H2, OB. reflexivity.
  - unfold face_vertices. rewrite F2. cbn [omap]. rewrite V2, (VOLD y IY), H3, omap_app, OC, OA. reflexivity.
  - intros g Bg Hg. apply face_same; auto. intros z Hz.
    assert (Bz : z < N). { apply rd_lt in Hz. destruct (wf_lengths _ W) as (_ & _ & L & _). fold N in L. lia. }
    destruct (OLD z Bz) as (O1 & _ & _ & O2). destruct O2 as [O2 _]; [congruence|]. auto.
  - intros z Hz. assert (Bz : z < N + 2). { apply rd_lt in Hz. destruct (wf_lengths _ W') as (_ & L & _). lia. }
    destruct (Nat.lt_ge_cases z N) as [K|K].
    + destruct (OLD z K) as (_ & _ & O & _). rewrite O in Hz. destruct (wf_hedge _ W z K) as (g & ? & ?).
      assert (g = n_e m) by congruence. lia.
    + assert (z = N \/ z = N + 1) as [->| ->] by lia; [right|left]; split; auto.
  - split; auto.
  - exact E2.
  - apply I2. now left.
  - intros z Hz. destruct (OLD z Hz) as (O1 & O2 & O3 & _). auto.
Qed.

(** If the face does not contain both vertices, [split_face] panics. *)
Theorem C16_split_face_missing m f va vb vs :
  face_vertices m f = Some vs -> va <> vb -> ~ In va vs -> (count_occ Nat.eq_dec vs vb <= 1)%nat ->
  split_face m f va vb = None.
Proof.
  unfold face_vertices, split_face. destruct (face_halfedges m f) as [hs|]; [|discriminate].
  intros Hv Hne Hna Hc.
  assert (Q : forall hs vs i p, omap (rd (he_vert m)) hs = Some vs -> ~ In va vs ->
     (count_occ Nat.eq_dec vs vb <= (match p with None => 1 | Some _ => 0 end))%nat ->
     exists p', find_pos (he_vert m) va vb i hs p = Some (p', None)).
  { clear. induction hs as [|h hs IH]; intros vs i p Hv Hna Hc; simpl in *; [eauto|].
    destruct (rd (he_vert m) h) as [x|]; [|discriminate]. destruct (omap (rd (he_vert m)) hs) as [r|]; [|discriminate].
    inversion Hv; subst. simpl in Hna, Hc. rewrite (proj2 (Nat.eqb_neq x va)) by tauto. simpl.
    destruct (Nat.eqb_spec x vb) as [->|N].
    - destruct (Nat.eq_dec vb vb); [|congruence]. destruct p; [lia|].
      apply (IH r (S i) (Some i) eq_refl); [tauto|]. simpl. lia.
    - destruct (Nat.eq_dec x vb); [congruence|]. apply (IH r (S i) p eq_refl); tauto. }
  destruct (Q hs vs 0 None Hv Hna Hc) as [p' ->]. destruct p' as [pos|]; [|reflexivity].
  destruct (nth_error hs pos) as [h|]; [|reflexivity]. destruct (rd (he_vert m) h) as [x|]; [|reflexivity].
  destruct (x =? va); reflexivity.
Qed.

(** ** C17 *)
Theorem C17_add_face order m hs :
  any_order order -> reached order m -> loop m hs ->
  exists m' vs, add_face_by_halfedges m hs = Some (m', n_f m) /\ reached order m' /\
    n_v m' = n_v m /\ n_e m' = n_e m /\ n_f m' = S (n_f m) /\
    (* the new face visits the start vertices of the loop in order, along the same edges *)
    omap (rd (he_vert m)) hs = Some vs /\ face_vertices m' (n_f m) = Some vs /\
    (exists ns, face_halfedges m' (n_f m) = Some ns /\ length ns = length hs /\ (forall h, In h ns -> n_h m <= h) /\
       forall i h n, nth_error hs i = Some h -> nth_error ns i = Some n ->
         rd (he_edge m') n = rd (he_edge m) h /\ rd (he_vert m') n = rd (he_vert m) h /\ tip m' n = tip m h) /\
    (forall g, g < n_f m -> face_vertices m' g = face_vertices m g) /\
    (forall x, x < n_h m -> rd (he_vert m') x = rd (he_vert m) x /\ tip m' x = tip m x /\
       rd (he_edge m') x = rd (he_edge m) x).
Proof.
  intros HO R L. pose proof (reached_wf _ _ HO R) as W. assert (L0 := L). destruct L0 as (L1 & L2 & L3).
  destruct (add_face_ok m hs W L1 L2 L3) as (m' & E & W' & Nv & Ne & Nf & Nh & FH & NEW & OLD & FO & VH & EH).
  destruct (omap_total (rd (he_vert m)) hs) as [vs Hvs].
  { intros h Hh. destruct (wf_vert _ W h (L2 h Hh)) as (v & _ & ?). eauto. }
  exists m', vs. split; [exact E|]. split; [eapply r_add_face; eauto|]. split; [exact Nv|]. split; [exact Ne|].
  split; [exact Nf|]. split; [exact Hvs|]. split; [|split; [|split]].
  - unfold face_vertices. rewrite FH. destruct (omap_nth_inv _ _ _ Hvs) as [Lv Q]. apply omap_nth.
    + rewrite seq_length. exact Lv.
    + intros i n y Hn Hy. assert (Bi : i < length hs) by (rewrite <- Lv; apply nth_error_Some; congruence).
      rewrite nth_seq in Hn by auto. inversion Hn; subst n. destruct (nth_error_ex hs i Bi) as [h Hh].
      destruct (NEW i h Hh) as (-> & _). apply (Q i h y Hh Hy).
  - exists (seq (n_h m) (length hs)). split; [exact FH|]. split; [apply seq_length|]. split.
    + intros h Hh. apply in_seq in Hh. lia.
    + intros i h n Hh Hn. assert (Bi : i < length hs) by (apply nth_error_Some; congruence).
      rewrite nth_seq in Hn by auto. inversion Hn; subst n. destruct (NEW i h Hh) as (N1 & N2 & N3). auto.
  - intros g Bg. apply face_same; auto. intros z Hz.
    assert (Bz : z < n_h m). { apply rd_lt in Hz. destruct (wf_lengths _ W) as (_ & _ & Lx & _). lia. }
    destruct (OLD z Bz) as (O1 & O2 & _). auto.
  - intros z Bz. destruct (OLD z Bz) as (O1 & O2 & O3 & _). split; [exact O2|]. split; [|exact O3].
    unfold tip. rewrite O1. destruct (wf_next m z W Bz) as (z' & Bz' & -> & _). apply (OLD z' Bz').
Qed.

(** ** C18 *)
Theorem C18_he_prev order m h :
  any_order order -> reached order m -> h < n_h m ->
  (exists p, he_prev m h = Some p /\ p < n_h m /\ rd (he_next m) p = Some h) /\
  (exists n, rd (he_next m) h = Some n /\ he_prev m n = Some h).
Proof.
  intros HO R B. pose proof (reached_wf _ _ HO R) as W. split.
  - destruct (he_prev_ok m h W B) as (p & E & Hn & _ & Bp). eauto.
  - destruct (wf_next m h W B) as (n & Bn & En & Ef). exists n. split; [exact En|].
    destruct (he_prev_ok m n W Bn) as (p & Ep & Hp & Hf & Bp). rewrite Ep. f_equal.
    destruct (wf_hface _ W h B) as (f & Bf & Eh). destruct (wf_parts m W) as (PF & _).
    destruct (PF h f Eh) as [l C]. destruct (cycle_from _ _ _ n C) as [t (_ & D & LK & I)]; [congruence|].
    (* the predecessor inside a cycle without repetition is unique *)
    assert (U : forall t a z, path (rd (he_next m)) a t z -> NoDup (a :: t) -> ~ In z t ->
       forall x, In x (a :: t) -> rd (he_next m) x = Some z -> x = last (a :: t) 0).
    { clear. induction t as [|b t IH]; intros a z P D Nz x Hx Ex.
      - destruct Hx as [->|[]]. reflexivity.
      - destruct P as [E P]. inversion_clear D as [|? ? Na D']. destruct Hx as [->|Hx].
        + exfalso. apply Nz. left. congruence.
        + change (last (a :: b :: t) 0) with (last (b :: t) 0). apply (IH b z P D'); auto.
          intros K. apply Nz. now right. }
    inversion_clear D as [|? ? Nn D'].
    assert (Ih : In h (n :: t)) by (apply I; exact Eh).
    assert (Ip : In p (n :: t)) by (apply I; congruence).
    rewrite (U t n n LK ltac:(constructor; auto) Nn h Ih En).
    apply (U t n n LK ltac:(constructor; auto) Nn p Ip Hp).
Qed.

Theorem C18_he_twin order m h a b e :
  any_order order -> reached order m -> rd (he_edge m) h = Some e -> goes m h a b -> a <> b ->
  exists r, he_twin m h = Some r /\ rd (he_edge m) r = Some e /\
    ((exists x, rd (he_edge m) x = Some e /\ goes m x b a) -> goes m r b a) /\
    ((forall x, rd (he_edge m) x = Some e -> ~ goes m x b a) -> r = h).
Proof.
  intros HO R E G N. pose proof (reached_wf _ _ HO R) as W.
  destruct (he_twin_ok m h a b e W E G N) as (r & Er & Ee & H). exists r. split; [exact Er|]. split; [exact Ee|].
  split.
  - intros (x & Ex & Gx). destruct H as [H|[-> H]]; auto. specialize (H x Ex). destruct H, Gx. congruence.
  - intros K. destruct H as [H|[-> H]]; auto. destruct (K r Ee H).
Qed.

(** ** Examples *)

(** Three triangles and a quadrilateral; three faces meet at edge 0-2 and at
    vertex 2. *)
Definition soup4 : list (list nat) := [[0;1;2];[2;1;3];[3;0;2];[1;0;2;4]].
Example soup4_ok : soup soup4.
Proof. split; [discriminate|]. intros p H. repeat (destruct H as [<-|H]; [discriminate|]). destruct H. Qed.
Example order_id : any_order (fun l => l).
Proof. intros l. apply Permutation_refl. Qed.
Example order_rev : any_order (@rev nat).
Proof. intros l. apply Permutation_rev. Qed.

Definition m4 : mesh := match new (@rev nat) soup4 with Some m => m | None => Mesh [] [] [] [] 0 0 0 0 [] [] [] [] [] [] end.
Lemma m4_new : new (@rev nat) soup4 = Some m4.
Proof. vm_compute. reflexivity. Qed.
Example m4_reached : reached (@rev nat) m4.
Proof. exact (r_new _ soup4 m4 m4_new). Qed.
Example m4_counts : (n_v m4, n_e m4, n_f m4, n_h m4) = (5, 8, 4, 13).
Proof. vm_compute. reflexivity. Qed.
(** The halfedges of the edge between 0 and 2, and those around vertex 2. *)
Example m4_edge : edge_halfedges m4 2 = Some [2; 10; 7].
Proof. vm_compute. reflexivity. Qed.
Example m4_vertex : incoming_halfedges m4 2 = Some [10; 1; 5; 7] /\ outgoing_halfedges m4 2 = Some [11; 2; 3; 8].
Proof. vm_compute. auto. Qed.
Example m4_proper : proper_edge m4 2.
Proof. exists 2, 2, 0. unfold goes. vm_compute. repeat split; auto; discriminate. Qed.
Example m4_split : exists m', split_edge m4 2 = Some (m', 5) /\
  face_vertices m' 0 = Some [0;1;2;5] /\ face_vertices m' 1 = Some [2;1;3] /\
  face_vertices m' 2 = Some [3;0;5;2] /\ face_vertices m' 3 = Some [1;0;5;2;4].
Proof. eexists. split; [vm_compute; reflexivity|]. vm_compute. auto. Qed.
Example m4_cuts : cuts m4 3 2 1 [] 1 [0] 2 [4].
Proof.
  split; [vm_compute; reflexivity|]. split; [discriminate|]. split; [auto|].
  intros v [<-|[]]. split; discriminate.
Qed.
Example m4_loop : loop m4 [0; 4; 6].
Proof.
  split; [discriminate|]. split.
  - intros h H. repeat (destruct H as [<-|H]; [vm_compute; lia|]). destruct H.
  - intros i x y. do 3 (destruct i as [|i]; [intros [= <-] [= <-]; eexists; vm_compute; eauto|]).
    intros H. destruct i; discriminate.
Qed.
Example m4_twin : he_twin m4 2 = Some 10 /\ goes m4 2 2 0 /\ goes m4 10 0 2.
Proof. unfold goes. vm_compute. auto. Qed.
(** Twice the corner 1 before the corner 2: outside of the domain of C16 the
    result of split_face is not a cut between the two vertices. *)
Definition m_bow : mesh := match new (@rev nat) [[1; 0; 1; 2]] with Some m => m | None => m4 end.
Theorem C16_repeated_vertex_refuted :
  face_vertices m_bow 0 = Some [1; 0; 1; 2] /\
  exists m' h, split_face m_bow 0 1 2 = Some (m', h) /\
    face_vertices m' 0 = Some [2; 1; 0] /\ face_vertices m' 1 = Some [1; 1; 2] /\ tip m' h = Some 1.
Proof. split; [vm_compute; reflexivity|]. do 2 eexists. split; [vm_compute; reflexivity|]. vm_compute. auto. Qed.

(** An edge with both ends at one vertex (polygon 0,0,1): after split_edge the
    old edge lists halfedges that belong to the new edge. *)
Definition m_loop : mesh := match new (@rev nat) [[0; 0; 1]] with Some m => m | None => m4 end.
Theorem C15_self_loop_refuted :
  exists m', split_edge m_loop 0 = Some (m', 2) /\ edge_halfedges m' 0 = Some [0; 3] /\
    rd (he_edge m') 0 = Some 2 /\ rd (he_edge m') 3 = Some 2 /\ forall h, rd (he_edge m') h <> Some 0.
Proof.
  eexists. split; [vm_compute; reflexivity|]. do 3 (split; [vm_compute; reflexivity|]).
  intros h. do 4 (destruct h as [|h]; [vm_compute; discriminate|]). cbn [he_edge]. unfold rd. destruct h; discriminate.
Qed.

Print Assumptions C12_new_reproduces_polygons.
Print Assumptions C12_new_panics_otherwise.
Print Assumptions C13_edges_identify_pairs.
Print Assumptions C13_edge_iteration_reached.
Print Assumptions C14_vertex_circulators.
Print Assumptions C14_used_vertices.
Print Assumptions C15_split_edge.
Print Assumptions C16_split_face.
Print Assumptions C16_split_face_missing.
Print Assumptions C17_add_face.
Print Assumptions C18_he_prev.
Print Assumptions C18_he_twin.
