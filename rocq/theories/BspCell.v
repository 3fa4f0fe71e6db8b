(** split_cell keeps a complex right: the whole function. *)
From Coq Require Import List Arith Bool Lia Permutation Relations.
From Verif Require Import Lib Dispatch Tet Bsp BspSpec BspCut BspLoop BspGlue BspSplit.
Import ListNotations.

(** * Vertices and edges of the cell *)
Lemma add_verts_in l : forall vs v, In v (add_verts vs l) <-> In v vs \/ In v l.
Proof.
  induction l as [|x t IH]; intros vs v; cbn; [tauto|]. rewrite IH. destruct (existsb (Nat.eqb x) vs) eqn:E.
  - apply existsb_exists in E as (y & Hy & Ey). apply Nat.eqb_eq in Ey. subst y. intuition congruence.
  - rewrite in_app_iff. cbn. tauto.
Qed.
Lemma add_edges_in l : forall es e, In e (add_edges es l) -> In e es \/ In e l.
Proof.
  induction l as [|x t IH]; intros es e H; cbn in *; [tauto|]. apply IH in H. destruct (existsb (edge_eqb x) es); [tauto|].
  rewrite in_app_iff in H. cbn in H. tauto.
Qed.
Lemma add_edges_all l : forall es e, (exists e', In e' es /\ edge_eqb e e' = true) \/ In e l -> exists e', In e' (add_edges es l) /\ edge_eqb e e' = true.
Proof.
  induction l as [|x t IH]; intros es e H; cbn; [destruct H as [H|[]]; exact H|]. apply IH.
  destruct H as [(e' & H & E)|[->|H]]; auto.
  - left. exists e'. split; auto. destruct (existsb (edge_eqb x) es); auto. apply in_or_app. auto.
  - left. destruct (existsb (edge_eqb e) es) eqn:X.
    + apply existsb_exists in X as (y & Hy & Ey). eauto.
    + exists e. split; [apply in_or_app; cbn; auto|]. apply edge_eqb_true. auto.
Qed.
Lemma edge_index_some e l : (exists e', In e' l /\ edge_eqb e e' = true) -> exists i, edge_index e l = Some i.
Proof.
  intros (e' & H & E). induction l as [|x t IH]; [easy|]. cbn. destruct (edge_eqb x e) eqn:X; [eauto|].
  destruct H as [->|H]; [rewrite edge_eqb_sym in E; congruence|]. destruct (IH H) as (i & ->). cbn. eauto.
Qed.
Lemma edge_index_nth e l : forall i, edge_index e l = Some i -> exists e', nth_error l i = Some e' /\ edge_eqb e' e = true.
Proof.
  induction l as [|x t IH]; intros i H; [discriminate|]. cbn in H. destruct (edge_eqb x e) eqn:X.
  - injection H as <-. exists x. auto.
  - destruct (edge_index e t) as [j|] eqn:J; [|discriminate]. injection H as <-. apply IH. reflexivity.
Qed.
Lemma edge_index_swap e l : edge_index (swap e) l = edge_index e l.
Proof. induction l as [|x t IH]; [reflexivity|]. cbn. rewrite IH, (edge_eqb_sym x), edge_eqb_swap, edge_eqb_sym. reflexivity. Qed.
Lemma reversed_crosses s e : reversed (s (fst e)) (s (snd e)) = true <-> crosses s e.
Proof.
  unfold reversed, crosses. destruct (ori_eqb_spec (s (fst e)) Positive), (ori_eqb_spec (s (fst e)) Negative), (ori_eqb_spec (s (snd e)) Positive), (ori_eqb_spec (s (snd e)) Negative); cbn; intuition congruence.
Qed.
Lemma steps_snd x t : map snd (steps (x :: t)) = t.
Proof. unfold steps. cbn [tl]. revert x; induction t as [|b t IH]; intros x; [reflexivity|]. cbn. f_equal. apply IH. Qed.
Lemma steps_fst x t : map fst (steps (x :: t)) = removelast (x :: t).
Proof. revert x; induction t as [|b t IH]; intros x; [reflexivity|]. specialize (IH b). unfold steps in *. cbn [tl combine map fst] in *. rewrite IH. reflexivity. Qed.

Section Points.
  Variables (s : nat -> Orientation) (nv : nat) (cross : list (nat * nat)).
  Definition zpt (z : zero_vert) : point :=
    match z with Start h => PV (fst h) | Intersection h => if ori_eqb (s (fst h)) Negative then PX (fst h) (snd h) else PX (snd h) (fst h) end.
  Definition pt (r : split_result) : list point :=
    match r with
    | TwoVerts a b => [zpt a; zpt b]
    | ZeroHalfedges hs => map PV match hs with [] => [] | h :: _ => fst h :: map snd hs end
    | IsPos _ => []
    end.
  Definition gp (p : point) : gid := match p with PV v => GV v | PX n q => match edge_index (n, q) cross with Some i => GI i | None => GV 0 end end.
  Definition vx (p : point) : nat := resolve nv (gp p).
  Definition proper (p : point) : Prop :=
    match p with PV v => s v = Zero /\ v < nv | PX n q => s n = Negative /\ s q = Positive /\ exists i, edge_index (n, q) cross = Some i end.
  Lemma gp_inj p q : proper p -> proper q -> gp p = gp q -> p = q.
  Proof.
    destruct p as [v|n p], q as [v'|n' p']; cbn.
    - intros _ _ [= ->]. reflexivity.
    - intros _ (_ & _ & i & ->). discriminate.
    - intros (_ & _ & i & ->). discriminate.
    - intros (A & B & i & E) (A' & B' & i' & E'). rewrite E, E'. intros [= <-]. apply edge_index_nth in E as (e & N1 & E1). apply edge_index_nth in E' as (e' & N2 & E2).
      assert (e' = e) by congruence. subst e'. apply edge_eqb_true in E1, E2. unfold swap in *. cbn in *. destruct E1 as [->| ->], E2 as [E2|E2]; congruence.
  Qed.
  Lemma vx_inj p q : proper p -> proper q -> vx p = vx q -> p = q.
  Proof.
    intros P Q E. apply gp_inj; auto. unfold vx in E.
    destruct p as [v|n p], q as [v'|n' p']; cbn in *.
    - now subst.
    - destruct Q as (_ & _ & i & Ei). rewrite Ei in E |- *. cbn in E. lia.
    - destruct P as (_ & _ & i & Ei). rewrite Ei in E |- *. cbn in E. lia.
    - destruct P as (_ & _ & i & Ei), Q as (_ & _ & j & Ej). rewrite Ei, Ej in *. cbn in E. f_equal. lia.
  Qed.
  Lemma vx_lt p : proper p -> vx p < nv + length cross.
  Proof.
    destruct p as [v|n p]; cbn; [intros (_ & H); unfold vx; cbn; lia|]. intros (_ & _ & i & E). unfold vx. cbn. rewrite E. cbn.
    apply edge_index_nth in E as (e & E & _). apply nth_error_lt in E. lia.
  Qed.
  Lemma subs_vx p : proper p -> subs cross nv p = PV (vx p).
  Proof. destruct p as [v|n p]; cbn; [reflexivity|]. intros (_ & _ & i & E). unfold vx. cbn. now rewrite E. Qed.
  Lemma zero_id_gp z p : zp z p -> proper p -> zero_id cross z = Some (gp p).
  Proof.
    destruct z as [h|h], p as [v|n q]; cbn; try easy.
    - intros [->| ->] (_ & _ & i & E); [now rewrite E|]. change (q, n) with (swap (n, q)). now rewrite edge_index_swap, E.
    - now intros ->.
  Qed.
  Lemma zpt_zp z p : zp z p -> proper p -> zpt z = p.
  Proof.
    destruct z as [h|h], p as [v|n q]; cbn; try easy.
    - intros [->| ->] (A & B & _); cbn; [now rewrite A|]. now rewrite B.
    - now intros ->.
  Qed.
  (** What is known of a piece of the cut. *)
  Lemma case_some oc res ps : face_case s oc res (Some ps) -> (forall p, In p ps -> proper p) ->
    pt res = ps /\ 2 <= length ps /\ split_start cross res = Some (gp (hd (PV 0) ps)) /\ split_end cross res = Some (gp (last ps (PV 0))) /\
    forall f, contrib nv cross (f, res) = steps (map vx ps).
  Proof.
    intros C PR. inversion C as [| |Z P TU LZ NP AZ AP|a P b N x y za zb TU NP NN AP AN HX HY Zx Zy]; subst.
    - assert (LR : 2 <= length (rev Z)) by (rewrite rev_length; exact LZ). clear -LR PR. destruct (rev Z) as [|z [|z' t]]; cbn [length] in LR; try lia. split; [|split; [|split; [|split]]].
      + cbn [pt]. f_equal. change (steps (z :: z' :: t)) with ((z, z') :: steps (z' :: t)). cbn [fst map snd]. now rewrite steps_snd.
      + now rewrite map_length.
      + reflexivity.
      + unfold split_end, last_error. assert (E : exists h, hd_error (rev (steps (z :: z' :: t))) = Some h /\ snd h = last (z :: z' :: t) 0).
        { assert (E := steps_snd z (z' :: t)). destruct (steps (z :: z' :: t)) as [|h hs] using rev_ind; [discriminate|]. clear IHhs.
          rewrite map_app in E. cbn in E. exists h. rewrite rev_app_distr. split; [reflexivity|]. rewrite last_cons, <- E. now rewrite last_last. }
        destruct E as (h & -> & Eh). rewrite Eh. f_equal.
        assert (L : forall l d, last (map PV l) (PV d) = PV (last l d)).
        { clear. induction l as [|a [|b l] IH]; intros d; try reflexivity. apply (IH d). }
        now rewrite L.
      + intros f. cbn [contrib snd]. rewrite map_map. cbn. unfold vx. cbn. now rewrite map_id.
    - assert (Px : proper x) by (apply PR; cbn; auto). assert (Py : proper y) by (apply PR; cbn; auto).
      split; [|split; [|split; [|split]]].
      + cbn. now rewrite (zpt_zp za x), (zpt_zp zb y).
      + cbn. lia.
      + cbn. now apply zero_id_gp.
      + cbn. now apply zero_id_gp.
      + intros f. unfold contrib. cbn [snd]. now rewrite (zero_id_gp za x), (zero_id_gp zb y).
  Qed.
End Points.

Lemma face_case_ext s s' oc res r : (forall v, In v oc -> s v = s' v) -> face_case s oc res r -> face_case s' oc res r.
Proof.
  intros H [A B C|A B|Z P TU LZ NP AZ AP|a P b N x y za zb TU NP NN AP AN HX HY Zx Zy].
  - apply fc_pos.
    + intros v Hv. rewrite <- H by auto. auto.
    + destruct B as (v & Hv & E). exists v. rewrite <- H by auto. auto.
    + intros u v Huv U V. destruct (hes_in _ _ _ Huv). apply (C u v Huv); rewrite H; auto.
  - apply fc_neg.
    + intros v Hv. rewrite <- H by auto. auto.
    + destruct B as (v & Hv & E). exists v. rewrite <- H by auto. auto.
  - apply (fc_side _ _ Z P); auto; apply (all_ext s); auto; intros v Hv; apply H, (turned_in _ _ _ TU), in_or_app; auto.
  - assert (HV : forall v, In v (a ++ P ++ b ++ N) -> s v = s' v) by (intros v Hv; apply H; now apply (turned_in _ _ _ TU)).
    setoid_rewrite in_app_iff in HV. setoid_rewrite in_app_iff in HV. setoid_rewrite in_app_iff in HV.
    apply (fc_two _ _ a P b N x y); auto.
    + apply (all_ext s); [auto|]. intros v Hv. apply HV. tauto.
    + apply (all_ext s); [auto|]. intros v Hv. apply HV. tauto.
    + destruct HX as [(z & -> & Sz & ->)|HX]; auto. left. exists z. split; auto. split; auto. rewrite <- HV; auto. left. now left.
    + destruct HY as [(z & -> & Sz & ->)|HY]; auto. left. exists z. split; auto. split; auto. rewrite <- HV; auto. right. right. left. now left.
Qed.
(** The points of a piece lie on the face. *)
Lemma case_points s oc res ps p : face_case s oc res (Some ps) -> In p ps ->
  match p with
  | PV v => In v oc /\ s v = Zero
  | PX n q => s n = Negative /\ s q = Positive /\ (In (n, q) (hes oc) \/ In (q, n) (hes oc))
  end.
Proof.
  intros C H. inversion C as [| |Z P TU LZ NP AZ AP|a P b N x y za zb TU NP NN AP AN HX HY Zx Zy]; subst.
  - apply in_map_iff in H as (v & <- & Hv). apply in_rev in Hv. split; [|now apply AZ]. apply (turned_in _ _ _ TU), in_or_app. auto.
  - assert (HE : forall e, In e (hes (a ++ P ++ b ++ N)) -> In e (hes oc)) by (intros e; apply (hes_turned_in _ _ _ TU)).
    assert (HI : forall v, In v (a ++ P ++ b ++ N) -> In v oc) by (intros v; apply (turned_in _ _ _ TU)).
    setoid_rewrite in_app_iff in HI. setoid_rewrite in_app_iff in HI. setoid_rewrite in_app_iff in HI.
    destruct P as [|p0 P]; [easy|]. destruct N as [|n0 N]; [easy|].
    assert (LE : forall x t y, In (last (x :: t) 0, y) (path_edges x t y)).
    { clear. intros x t y. revert x; induction t as [|c t IH]; intros x; [now left|]. cbn [path_edges]. right. apply IH. }
    destruct H as [<-|[<-|[]]].
    + destruct HX as [(z & -> & Sz & ->)|(-> & ->)]; [split; auto; apply HI; left; now left|].
      split; [apply AN, last_in|]. split; [apply AP; now left|]. left. apply HE. cbn [hd app hes].
      destruct HY as [(z & -> & Sz & ->)|(-> & ->)]; cbn [app]; rewrite path_edges_app; apply in_or_app; right; [right|]; apply LE.
    + destruct HY as [(z & -> & Sz & ->)|(-> & ->)]; [split; auto; apply HI; right; right; left; now left|].
      split; [apply AN; now left|]. split; [apply AP, last_in|]. right. apply HE. cbn [hd app hes].
      destruct HX as [(z & -> & Sz & ->)|(-> & ->)]; cbn [app hes path_edges]; [right|]; rewrite path_edges_app; apply in_or_app; left; apply LE.
Qed.

(** * The results of the faces *)
Lemma twin_swap cx cf e l : gcomplex cx cf -> In l (loops cx) -> In e (hes l) -> he_twin (loops cx) e = swap e.
Proof.
  intros G Hl He. destruct e as (u, v). destruct (g_both _ _ G l u v Hl He) as (l' & Hl' & He'). unfold he_twin.
  assert (E : existsb (fun l => existsb (he_eqb (swap (u, v))) (hes l)) (loops cx) = true); [|now rewrite E].
  apply existsb_exists. exists l'. split; auto. apply existsb_exists. exists (v, u). split; auto. unfold swap. cbn. now destruct (he_eqb_spec (v, u) (v, u)).
Qed.
Lemma split_faces_ok s cx cf cid fs rr : gcomplex cx cf -> (forall f, In f fs -> In f (cf cid)) ->
  Forall2 (fun f r => cut_face s (cycle_from cx cid f) r) fs rr ->
  exists rs, split_faces s cx cid fs = Some rs /\ map fst rs = fs /\
    Forall2 (fun y r => face_case s (cycle_from cx cid (fst y)) (snd y) r) rs rr.
Proof.
  intros G IN F. unfold split_faces. induction F as [|f r fs rr C F IH]; [exists []; auto|].
  destruct IH as (rs & E & M & F'); [intros g Hg; apply IN; now right|].
  assert (If := IN f (or_introl eq_refl)). apply (g_inc _ _ G) in If. apply face_cells_in in If as (x & Ex & _).
  assert (Lf : f < length (loops cx)) by (rewrite (g_len _ _ G); now apply nth_error_lt in Ex).
  destruct (nth_error_ex (loops cx) f Lf) as (l & El).
  assert (CY : cycle_from cx cid f = if cell_is (fst (cells x)) cid then l else rev l).
  { unfold cycle_from, cycle_of, first_cell. now rewrite (nth_error_nth _ _ [] El), Ex. }
  rewrite CY in C. destruct (split_face_ok s (loops cx) l _ r C) as (res & Er & FC).
  { intros e He. apply (twin_swap cx cf e l G); auto. now apply nth_error_In in El. }
  exists ((f, res) :: rs). cbn [omap]. rewrite Ex, El, Er. rewrite E. split; [reflexivity|]. split; [cbn; now rewrite M|].
  constructor; auto. cbn [fst snd]. now rewrite CY.
Qed.

Lemma chain_steps {E} (vs : E -> list nat) (sf ef : E -> gid) nv t : forall x gz,
  (forall r, In r (x :: t) -> 2 <= length (vs r) /\ hd 0 (vs r) = resolve nv (sf r) /\ last (vs r) 0 = resolve nv (ef r)) ->
  chained ef sf x t gz -> exists B, concat (map (fun r => removelast (vs r)) (x :: t)) = hd 0 (vs x) :: B /\
    concat (map (fun r => steps (vs r)) (x :: t)) = path_edges (hd 0 (vs x)) B (resolve nv gz).
Proof.
  assert (ST : forall p, 2 <= length p -> exists A, removelast p = hd 0 p :: A /\ steps p = path_edges (hd 0 p) A (last p 0)).
  { intros p L. destruct p as [|a [|b q]]; cbn [length] in L; try lia. exists (removelast (b :: q)). split; [reflexivity|]. cbn [hd].
    clear L. revert a b; induction q as [|c q IH]; intros a b; [reflexivity|].
    change (steps (a :: b :: c :: q)) with ((a, b) :: steps (b :: c :: q)). rewrite IH. reflexivity. }
  induction t as [|y t IH]; intros x gz H C; destruct (H x (or_introl eq_refl)) as (L & HD & LA); destruct (ST _ L) as (A & EA & SA).
  - cbn in C. exists A. cbn [map concat]. rewrite !app_nil_r. split; auto. rewrite SA. now rewrite LA, C.
  - destruct C as (C1 & C2). destruct (IH y gz) as (B & EB & SB); [intros r Hr; apply H; now right|exact C2|].
    exists (A ++ hd 0 (vs y) :: B). cbn [map concat] in EB, SB |- *. rewrite EB, SB, EA, SA. split; [reflexivity|].
    rewrite path_edges_app. f_equal. f_equal. rewrite LA, C1. symmetry. apply (H y). right. now left.
Qed.
Lemma somes_pieces s cx cid rs rr : Forall2 (fun y r => face_case s (cycle_from cx cid (fst y)) (snd y) r) rs rr ->
  Forall2 (fun y p => face_case s (cycle_from cx cid (fst y)) (snd y) (Some p)) (filter is_outline rs) (somes rr).
Proof.
  induction 1 as [|y r rs rr C F IH]; [constructor|]. cbn [filter]. destruct y as (f, res). cbn [fst snd] in C. unfold is_outline. cbn [snd].
  inversion C; subst; cbn [somes]; auto.
Qed.
Lemma partition_faces rs : Permutation rs (filter is_pos rs ++ filter is_neg rs ++ filter is_two rs).
Proof.
  induction rs as [|(f, r) t IH]; [constructor|]. cbn [filter]. unfold is_pos, is_neg, is_two. cbn [snd].
  destruct r as [a b|l|[|]]; cbn [negb].
  - rewrite app_assoc, <- Permutation_middle, <- app_assoc. now constructor.
  - cbn. now constructor.
  - cbn. now constructor.
  - cbn [app]. rewrite <- Permutation_middle. now constructor.
Qed.
Lemma twos_outline rs : filter is_two (filter is_outline rs) = filter is_two rs.
Proof. induction rs as [|(f, r) t IH]; [reflexivity|]. destruct r; cbn; now rewrite IH. Qed.
Lemma zhs_outline rs : zhs (filter is_outline rs) = zhs rs.
Proof. unfold zhs. induction rs as [|(f, r) t IH]; [reflexivity|]. destruct r; cbn; now rewrite IH. Qed.
Lemma filter_perm {A} (f : A -> bool) l l' : Permutation l l' -> Permutation (filter f l) (filter f l').
Proof.
  induction 1 as [|x l l' P IH|x y l|l l' l'' P IH Q IH']; cbn; auto.
  - destruct (f x); auto.
  - destruct (f x), (f y); auto. apply perm_swap.
  - now rewrite IH.
Qed.

(** * The new cell *)
Lemma move_faces_ok cid ncid fs : forall fd, NoDup fs -> (forall f, In f fs -> f < length fd) ->
  exists fd', move_faces fd cid ncid fs = Some fd' /\ length fd' = length fd /\
  forall g x, nth_error fd g = Some x -> exists x', nth_error fd' g = Some x' /\
    (In g fs -> cells x' = (move_cell cid ncid (fst (cells x)), move_cell cid ncid (snd (cells x)))) /\ (~ In g fs -> x' = x).
Proof.
  induction fs as [|f fs IH]; intros fd N L.
  - exists fd. split; auto. split; auto. intros g x E. exists x. split; auto. split; [easy|auto].
  - cbn [move_faces]. destruct (nth_error_ex fd f) as (x & Ex); [apply L; now left|]. rewrite Ex.
    set (x1 := BFace _ _ _ _). assert (S : set fd f x1 = Some (upd fd f x1)) by (apply set_Some; split; auto; apply L; now left).
    rewrite S. inversion N as [|? ? Nf N']. subst.
    destruct (IH (upd fd f x1) N') as (fd' & E & Le & H); [intros g Hg; rewrite upd_length; apply L; now right|].
    exists fd'. rewrite upd_length in Le. split; auto. split; auto. intros g y Ey. destruct (Nat.eq_dec g f) as [->|Ng].
    + destruct (H f x1) as (x' & E' & _ & H2); [apply nth_error_upd_eq, L; now left|]. exists x'. split; auto. rewrite (H2 Nf). assert (y = x) by congruence. subst y.
      split; [reflexivity|]. intros Q. exfalso. apply Q. now left.
    + destruct (H g y) as (x' & E' & H1 & H2); [now rewrite nth_error_upd_neq by auto|]. exists x'. split; auto. split.
      * intros [Q|Q]; [congruence|auto].
      * intros Q. apply H2. intros Q'. apply Q. now right.
Qed.
Lemma set_inner_ok cd c l d : nth_error cd c = Some d -> set_inner cd c l = Some (upd cd c (BCell (cfaces d) l)).
Proof. intros E. unfold set_inner. rewrite E. apply set_Some. split; auto. now apply nth_error_lt in E. Qed.

Lemma face_edges_in cx c f u v : In (u, v) (face_edges cx c f) -> In u (cycle_of cx f) /\ In v (cycle_of cx f).
Proof.
  unfold face_edges, outward. destruct (first_cell cx c f); intros H; [now apply hes_in|].
  apply in_map_iff in H as ((a, b) & E & H). unfold swap in E. cbn in E. injection E as <- <-. apply hes_in in H. tauto.
Qed.
Lemma edges_of_in cx c fs u v : In (u, v) (edges_of cx c fs) -> exists f, In f fs /\ In (u, v) (face_edges cx c f).
Proof. intros H. apply in_concat in H as (E & HE & H). apply in_map_iff in HE as (f & <- & Hf). eauto. Qed.
Lemma add_separating_ok o cid nv s cross tris tri cx pos neg zl d : SI cid nv s cross cx pos neg (hes zl) [] ->
  3 <= length zl -> NoDup zl -> (forall v, In v zl -> v < nverts cx /\ s v = Zero) -> nth_error (cdata cx) cid = Some d ->
  exists cx', add_separating o cid tris tri (cx, pos, neg, hes zl) = Some cx' /\ complex cx' /\ nverts cx' = nverts cx /\
    length (cdata cx') = S (length (cdata cx)) /\
    (forall f v, In f (cell_faces cx' cid) -> In v (cycle_of cx' f) -> s v = Negative \/ s v = Zero) /\
    (forall f v, In f (cell_faces cx' (length (cdata cx))) -> In v (cycle_of cx' f) -> s v = Positive \/ s v = Zero) /\
    exists f, face_cells cx' f = [length (cdata cx); cid] /\ forall v, In v (cycle_of cx' f) -> s v = Zero.
Proof.
  intros [G SP SN _ SZ] L3 ND VZ Ed. set (cf := fun c => if c =? cid then pos ++ neg ++ twos [] else cell_faces cx c) in *.
  assert (CFc : cf cid = pos ++ neg) by (unfold cf; now rewrite Nat.eqb_refl, app_nil_r).
  set (n := length (loops cx)) in *. set (nc := length (cdata cx)) in *.
  assert (Lc : cid < nc) by (now apply nth_error_lt in Ed).
  assert (LT : forall c g, In g (cf c) -> g < n).
  { intros c g H. apply (g_inc _ _ G) in H. apply face_cells_in in H as (x & E & _). apply nth_error_lt in E. unfold n. now rewrite (g_len _ _ G). }
  assert (CFn : cf nc = []).
  { unfold cf. destruct (Nat.eqb_spec nc cid); [lia|]. unfold cell_faces. now rewrite (proj2 (nth_error_None _ _)) by lia. }
  assert (FR : forall f, ~ In nc (face_cells cx f)) by (intros f H; apply (g_inc _ _ G) in H; now rewrite CFn in H).
  assert (NDp := g_once _ _ G cid). rewrite CFc in NDp.
  assert (NDpos : NoDup pos). { clear -NDp. induction pos as [|a r IH]; [constructor|]. inversion NDp as [|? ? Q R]. constructor; auto. intros X. apply Q, in_or_app. auto. }
  assert (LP : forall f, In f pos -> f < n) by (intros f Hf; apply (LT cid); rewrite CFc; apply in_or_app; auto).
  assert (LN : forall f, In f neg -> f < n) by (intros f Hf; apply (LT cid); rewrite CFc; apply in_or_app; auto).
  assert (ZZ : forall u v, In (u, v) (hes zl) -> s u = Zero /\ s v = Zero) by (intros u v H; apply hes_in in H as (A & B); split; now apply VZ).
  (* the positive part is closed by the new face *)
  assert (TB := g_closed _ _ G cid). rewrite CFc, concat_map_app in TB. fold (edges_of cx cid pos) (edges_of cx cid neg) in TB.
  assert (TP : forall u v, s u <> Positive -> s u <> Zero \/ False -> times (edges_of cx cid pos) (u, v) = 0 /\ times (edges_of cx cid pos) (v, u) = 0).
  { intros u v U1 [U2|[]]. split; apply count_occ_not_In; intros H; apply edges_of_in in H as (f & Hf & H); apply face_edges_in in H as (A & B).
    - destruct (SP f u Hf A); congruence.
    - destruct (SP f u Hf B); congruence. }
  assert (TN : forall u v, s u <> Negative -> s u <> Zero \/ False -> times (edges_of cx cid neg) (u, v) = 0 /\ times (edges_of cx cid neg) (v, u) = 0).
  { intros u v U1 [U2|[]]. split; apply count_occ_not_In; intros H; apply edges_of_in in H as (f & Hf & H); apply face_edges_in in H as (A & B).
    - destruct (SN f u Hf A); congruence.
    - destruct (SN f u Hf B); congruence. }
  assert (BP : balanced (edges_of cx cid pos ++ hes zl)).
  { intros u v. rewrite !times_app.
    assert (T0 : s u <> Zero \/ s v <> Zero -> times (hes zl) (u, v) = 0 /\ times (hes zl) (v, u) = 0).
    { intros H. split; apply count_occ_not_In; intros Q; apply ZZ in Q; tauto. }
    specialize (TB u v). rewrite !times_app in TB.
    destruct (ori_eqb_spec (s u) Zero) as [U|U], (ori_eqb_spec (s v) Zero) as [V|V].
    - rewrite (SZ u v U V), (SZ v u V U). cbn [zhs flat_map]. rewrite !app_nil_r. lia.
    - destruct T0 as (-> & ->); auto. destruct (ori_eqb_spec (s v) Positive) as [VP|VP].
      + destruct (TN v u) as (N1 & N2); [congruence|auto|]. lia.
      + destruct (TP v u) as (N1 & N2); auto. lia.
    - destruct T0 as (-> & ->); auto. destruct (ori_eqb_spec (s u) Positive) as [VP|VP].
      + destruct (TN u v) as (N1 & N2); [congruence|auto|]. lia.
      + destruct (TP u v) as (N1 & N2); auto. lia.
    - destruct T0 as (-> & ->); auto. destruct (ori_eqb_spec (s u) Positive) as [VP|VP].
      + destruct (TN u v) as (N1 & N2); [congruence|auto|]. lia.
      + destruct (TP u v) as (N1 & N2); auto. lia. }
  assert (EZ : forall u v, In (u, v) (hes zl) -> exists l, In l (loops cx) /\ In (v, u) (hes l)).
  { intros u v H. destruct (ZZ u v H) as (U & V). assert (Q : times (edges_of cx cid pos) (v, u) > 0).
    { rewrite (SZ v u V U), times_app. assert (times (hes zl) (u, v) > 0) by (now apply count_occ_In). lia. }
    apply count_occ_In, edges_of_in in Q as (f & Hf & Q). destruct (nth_error_ex (loops cx) f (LP f Hf)) as (l & El).
    unfold face_edges, cycle_of, outward in Q. rewrite (nth_error_nth _ _ [] El) in Q. apply nth_error_In in El.
    destruct (first_cell cx cid f); [eauto|]. apply in_map_iff in Q as ((a, b) & E & Q). unfold swap in E. cbn in E. injection E as -> ->.
    apply (g_both _ _ G l); auto. }
  (* the new state *)
  unfold add_separating. destruct (hes zl) as [|h hs] eqn:EH; [apply (f_equal (@length _)) in EH; rewrite hes_length in EH; cbn in EH; lia|].
  rewrite <- EH in *. clear h hs EH. fold n nc.
  set (xn := BFace (Some nc, Some cid) tris tri n).
  destruct (move_faces_ok cid nc pos (fdata cx ++ [xn]) NDpos) as (fd' & Emv & Lfd & MV).
  { intros f Hf. rewrite app_length, <- (g_len _ _ G). fold n. specialize (LP f Hf). lia. }
  rewrite Emv, Ed. assert (S1 : set (cdata cx) cid (BCell (neg ++ [n]) (inner d)) = Some (upd (cdata cx) cid (BCell (neg ++ [n]) (inner d)))) by (apply set_Some; auto).
  rewrite S1. rewrite (hes_fst zl).
  set (cd := upd (cdata cx) cid (BCell (neg ++ [n]) (inner d))). set (cd' := cd ++ [BCell (pos ++ [n]) []]).
  assert (En : nth_error cd' nc = Some (BCell (pos ++ [n]) [])).
  { unfold cd'. rewrite nth_error_app_one. unfold cd. rewrite upd_length. fold nc. now rewrite Nat.eqb_refl. }
  set (cx1 := Bsp (nverts cx) (loops cx ++ [zl]) fd' cd').
  rewrite (set_inner_ok cd' nc _ _ En). cbn [cfaces]. set (in1 := filter _ (inner d)).
  assert (Ec : nth_error (upd cd' nc (BCell (pos ++ [n]) in1)) cid = Some (BCell (neg ++ [n]) (inner d))).
  { rewrite nth_error_upd_neq by lia. unfold cd'. rewrite nth_error_app_one. unfold cd. rewrite upd_length. fold nc.
    destruct (Nat.eqb_spec cid nc); [lia|]. now apply nth_error_upd_eq. }
  rewrite (set_inner_ok _ cid _ _ Ec). cbn [cfaces]. set (in2 := filter _ (inner d)).
  set (cd2 := upd (upd cd' nc (BCell (pos ++ [n]) in1)) cid (BCell (neg ++ [n]) in2)).
  set (cx' := Bsp (nverts cx) (loops cx ++ [zl]) fd' cd2).
  assert (Lcd' : length cd' = S nc) by (unfold cd', cd; rewrite app_length, upd_length; cbn; lia).
  assert (CFs : forall c, cell_faces cx' c = if c =? cid then neg ++ [n] else if c =? nc then pos ++ [n] else cf c).
  { intros c. unfold cell_faces at 1. cbn [cdata cx']. unfold cd2. rewrite nth_error_upd, upd_length, Lcd'.
    rewrite (Nat.eqb_sym cid c). destruct (Nat.eqb_spec c cid) as [->|N1]; cbn [andb].
    - destruct (Nat.ltb_spec cid (S nc)); [reflexivity|lia].
    - rewrite nth_error_upd, Lcd'. rewrite (Nat.eqb_sym nc c). destruct (Nat.eqb_spec c nc) as [->|N2]; cbn [andb].
      + destruct (Nat.ltb_spec nc (S nc)); [reflexivity|lia].
      + unfold cd'. rewrite nth_error_app_one. unfold cd. rewrite upd_length. fold nc. destruct (Nat.eqb_spec c nc); [easy|].
        rewrite nth_error_upd_neq by auto. unfold cf. destruct (Nat.eqb_spec c cid); [easy|]. reflexivity. }
  assert (Lfd' : length (fdata cx) = n) by (symmetry; apply (g_len _ _ G)).
  assert (XN : exists x, nth_error fd' n = Some x /\ cells x = (Some nc, Some cid)).
  { destruct (MV n xn) as (x' & E' & _ & H2); [rewrite nth_error_app_one, Lfd'; now rewrite Nat.eqb_refl|]. exists x'. split; auto. rewrite H2; [reflexivity|].
    intros H. apply LP in H. lia. }
  assert (G' : gcomplex cx' (fun c => if c =? cid then neg ++ [n] else if c =? nc then pos ++ [n] else cf c)).
  { apply (gcomplex_separate cx cf cid nc pos neg zl fd' cd2); auto.
    - rewrite CFc. apply Permutation_refl.
    - lia.
    - intros v Hv. now apply VZ.
    - rewrite Lfd, app_length. cbn. lia.
    - rewrite Lfd'. exact XN.
    - intros g x Ex. destruct (MV g x) as (x' & E' & H1 & H2).
      { rewrite nth_error_app1; auto. now apply nth_error_lt in Ex. }
      exists x'. split; auto. split; auto. intros Q. now rewrite H2. }
  assert (CYo : forall g, g < n -> cycle_of cx' g = cycle_of cx g) by (intros g Hg; unfold cycle_of; cbn [loops cx']; now rewrite app_nth1).
  assert (CYn : cycle_of cx' n = zl) by (unfold cycle_of; cbn [loops cx']; rewrite app_nth2 by (unfold n; lia); unfold n; now rewrite Nat.sub_diag).
  exists cx'. split; [reflexivity|]. split; [|split; [reflexivity|split; [|split; [|split]]]].
  - apply gcomplex_complex. apply (gcomplex_perm _ _ _ G'). intros c. rewrite CFs. apply Permutation_refl.
  - cbn [cdata cx']. unfold cd2. rewrite !upd_length, Lcd'. reflexivity.
  - intros f v Hf Hv. rewrite CFs, Nat.eqb_refl in Hf. apply in_app_or in Hf as [Hf|[<-|[]]].
    + rewrite CYo in Hv by auto. now apply (SN f).
    + rewrite CYn in Hv. right. now apply VZ.
  - intros f v Hf Hv. rewrite CFs, Nat.eqb_refl in Hf. destruct (Nat.eqb_spec nc cid); [lia|]. apply in_app_or in Hf as [Hf|[<-|[]]].
    + rewrite CYo in Hv by auto. now apply (SP f).
    + rewrite CYn in Hv. right. now apply VZ.
  - exists n. split.
    + unfold face_cells. cbn [fdata cx']. destruct XN as (x & -> & ->). reflexivity.
    + intros v Hv. rewrite CYn in Hv. now apply VZ.
Qed.

Lemma Forall2_in_l {A B} (R : A -> B -> Prop) l l' x : Forall2 R l l' -> In x l -> exists y, In y l' /\ R x y.
Proof. induction 1 as [|a b l l' H F IH]; [easy|]. intros [->|Hx]; [exists b; split; auto; now left|]. destruct (IH Hx) as (y & Hy & Q). exists y. split; auto. now right. Qed.
Lemma Forall2_in_r {A B} (R : A -> B -> Prop) l l' y : Forall2 R l l' -> In y l' -> exists x, In x l /\ R x y.
Proof. induction 1 as [|a b l l' H F IH]; [easy|]. intros [->|Hx]; [exists a; split; auto; now left|]. destruct (IH Hx) as (x & Hy & Q). exists x. split; auto. now right. Qed.
Lemma nodup_starts {A} (d : A) (ps : list (list A)) : NoDup (concat (map (@removelast A) ps)) -> (forall p, In p ps -> 2 <= length p) -> NoDup (map (fun p => hd d p) ps).
Proof.
  induction ps as [|p ps IH]; intros N L; [constructor|]. cbn [map concat] in *.
  assert (NR : NoDup (concat (map (@removelast A) ps))). { revert N. induction (removelast p); auto. intros N. inversion N; auto. }
  constructor; [|apply IH; auto; intros q Hq; apply L; now right]. intros H. apply in_map_iff in H as (q & E & Hq).
  assert (Lp := L p (or_introl eq_refl)). assert (Lq := L q (or_intror Hq)).
  destruct p as [|a [|a' p]]; cbn [length] in Lp; try lia. destruct q as [|b [|b' q]]; cbn [length] in Lq; try lia. cbn in E. subst b.
  change (removelast (a :: a' :: p)) with (a :: removelast (a' :: p)) in N. cbn [app] in N. inversion N as [|? ? Q _]. apply Q, in_or_app. right.
  apply in_concat. exists (removelast (a :: b' :: q)). split; [now apply in_map|]. now left.
Qed.
Lemma map_inj_nodup {A B} (f : A -> B) l : (forall x y, In x l -> In y l -> f x = f y -> x = y) -> NoDup l -> NoDup (map f l).
Proof.
  intros H N. induction N as [|x l Hx N IH]; [constructor|]. cbn. constructor.
  - intros Q. apply in_map_iff in Q as (y & E & Hy). assert (y = x) by (apply H; cbn; auto). now subst.
  - apply IH. intros a b Ha Hb. apply H; now right.
Qed.
Lemma perm_concat_map {A B} (f : A -> list B) l l' : Permutation l l' -> Permutation (concat (map f l)) (concat (map f l')).
Proof. intros P. rewrite <- !flat_map_concat_map. now apply Permutation_flat_map. Qed.
Lemma Forall2_mapl {A B C} (R : B -> C -> Prop) (f : A -> B) l l' : Forall2 (fun x y => R (f x) y) l l' -> Forall2 R (map f l) l'.
Proof. induction 1; cbn; constructor; auto. Qed.
Lemma perm_concat_ext {A B} (g h : A -> list B) l : (forall x, Permutation (g x) (h x)) -> Permutation (concat (map g l)) (concat (map h l)).
Proof. intros H. induction l; cbn; [constructor|]. apply Permutation_app; auto. Qed.

Theorem split_cell_ok o n tri cx0 cid c pivot tid : complex cx0 -> nth_error (cdata cx0) cid = Some c -> last_error (inner c) = Some pivot ->
  last_error (filter (o_coplanar o cx0 pivot) (inner c)) = Some tid ->
  let cx := Bsp (nverts cx0) (loops cx0) (fdata cx0) (upd (cdata cx0) cid (BCell (cfaces c) (filter (fun t => negb (o_coplanar o cx0 pivot t)) (inner c)))) in
  cuts_cell (o_side o cx tid) cx0 cid ->
  exists cx', split_cell o n tri cx0 cid = Some cx' /\ complex cx' /\ (cx' = cx \/ cut_in_two (o_side o cx tid) cid cx0 cx').
Proof.
  intros CX Ec Ep Et cx CU. set (s := o_side o cx tid) in *.
  assert (Lc : cid < length (cdata cx0)) by now apply nth_error_lt in Ec.
  assert (CFeq : forall k, cell_faces cx k = cell_faces cx0 k).
  { intros k. unfold cell_faces. cbn [cdata cx]. rewrite nth_error_upd. destruct (Nat.eqb_spec cid k) as [<-|N]; cbn [andb]; [|reflexivity].
    destruct (Nat.ltb_spec cid (length (cdata cx0))); [|lia]. now rewrite Ec. }
  assert (G : gcomplex cx (cell_faces cx)).
  { apply gcomplex_complex in CX. apply (gcomplex_cdata _ _ (cdata cx)) in CX. apply (gcomplex_perm _ _ _ CX). intros k. rewrite CFeq. apply Permutation_refl. }
  assert (CX1 : complex cx) by now apply gcomplex_complex.
  assert (CFc : cell_faces cx cid = cfaces c) by (rewrite CFeq; unfold cell_faces; now rewrite Ec).
  assert (CU' : cuts_cell s cx cid).
  { clear -CU CFeq. unfold cuts_cell in *. rewrite CFeq. exact CU. }
  clear CU. destruct CU' as ((fp & vp & Hfp & Hvp & Svp) & (fn & vn & Hfn & Hvn & Svn) & rr & FR & (POL1 & POL2 & POL3)).
  rewrite CFc in *. set (fs := cfaces c) in *. set (nv := nverts cx0) in *.
  (* faces and cycles *)
  assert (LF : forall f, In f fs -> exists l, nth_error (loops cx) f = Some l /\ cycle_of cx f = l /\ 3 <= length l /\ NoDup l /\ forall v, In v l -> v < nv).
  { intros f Hf. rewrite <- CFc in Hf. apply (g_inc _ _ G) in Hf. apply face_cells_in in Hf as (x & Ex & _).
    destruct (nth_error_ex (loops cx) f) as (l & El); [rewrite (g_len _ _ G); now apply nth_error_lt in Ex|]. exists l. split; auto.
    split; [unfold cycle_of; now apply nth_error_nth|]. now apply (g_loop _ _ G f). }
  unfold split_cell. rewrite Ec, Ep.
  assert (S1 : set (cdata cx0) cid (BCell (cfaces c) (filter (fun t => negb (o_coplanar o cx0 pivot t)) (inner c))) = Some (cdata cx)) by (apply set_Some; auto).
  fold fs in S1. fold fs. rewrite S1. cbn zeta. rewrite Et. fold fs.
  change (Bsp (nverts cx0) (loops cx0) (fdata cx0) (cdata cx)) with cx. fold s. change (loops cx) with (loops cx0). change (nverts cx) with nv.
  assert (EL : omap (nth_error (loops cx0)) fs = Some (map (cycle_of cx) fs)).
  { apply omap_map. intros f Hf. destruct (LF f Hf) as (l & El & -> & _). exact El. }
  rewrite EL. set (ls := map (cycle_of cx) fs).
  assert (VS : forall v, In v (cell_verts ls) <-> exists f, In f fs /\ In v (cycle_of cx f)).
  { intros v. unfold cell_verts. rewrite add_verts_in, in_concat. unfold ls. split.
    - intros [[]|(l & Hl & Hv)]. apply in_map_iff in Hl as (f & <- & Hf). eauto.
    - intros (f & Hf & Hv). right. exists (cycle_of cx f). split; auto. now apply in_map. }
  assert (XP : existsb (fun v => ori_eqb (s v) Positive) (cell_verts ls) = true).
  { apply existsb_exists. exists vp. split; [apply VS; eauto|]. now rewrite Svp. }
  assert (XN : existsb (fun v => ori_eqb (s v) Negative) (cell_verts ls) = true).
  { apply existsb_exists. exists vn. split; [apply VS; eauto|]. now rewrite Svn. }
  rewrite XP, XN. cbn [negb orb].
  set (cross := filter (fun e => reversed (s (fst e)) (s (snd e))) (cell_edges ls)).
  assert (CRX : Forall (crosses s) cross).
  { apply Forall_forall. intros e He. apply filter_In in He as (_ & He). now apply reversed_crosses. }
  assert (CRI : forall f a b, In f fs -> In (a, b) (hes (cycle_of cx f)) -> crosses s (a, b) -> exists i, edge_index (a, b) cross = Some i).
  { intros f a b Hf Hab C. apply edge_index_some. destruct (add_edges_all (concat (map hes ls)) [] (a, b)) as (e' & He' & E).
    - right. apply in_concat. exists (hes (cycle_of cx f)). split; auto. apply in_map_iff. exists (cycle_of cx f). split; auto. now apply in_map.
    - exists e'. split; auto. apply filter_In. split; auto. apply reversed_crosses. rewrite edge_eqb_sym in E. destruct e' as (x, y).
      apply edge_eqb_true in E as [E|E]; [now rewrite E|]. unfold swap in E. cbn in E. injection E as -> ->. unfold crosses in *. cbn in *. tauto. }
  destruct (split_faces_ok s cx (cell_faces cx) cid fs rr G) as (rs & Ers & Mrs & Frs); [intros f; now rewrite CFc|exact FR|].
  rewrite Ers. set (out := filter is_outline rs).
  assert (FO := somes_pieces s cx cid rs rr Frs). fold out in FO.
  assert (INrs : forall y, In y rs -> In (fst y) fs) by (intros y Hy; rewrite <- Mrs; now apply in_map).
  assert (INout : forall y, In y out -> In y rs) by (intros y Hy; now apply filter_In in Hy).
  assert (CYI : forall f v, In v (cycle_from cx cid f) <-> In v (cycle_of cx f)).
  { intros f v. unfold cycle_from. destruct (first_cell cx cid f); [tauto|]. symmetry. apply in_rev. }
  assert (PRP : forall y p, In y out -> face_case s (cycle_from cx cid (fst y)) (snd y) (Some p) -> forall q, In q p -> proper s nv cross q).
  { intros y p Hy FC q Hq. assert (C := case_points _ _ _ _ q FC Hq). assert (Hf := INrs y (INout y Hy)).
    destruct q as [v|a b]; cbn [proper].
    - destruct C as (C1 & C2). split; auto. apply CYI in C1. destruct (LF _ Hf) as (l & _ & El & _ & _ & V). apply V. now rewrite El in C1.
    - destruct C as (C1 & C2 & C3). split; auto. split; auto.
      assert (X : exists a' b', In (a', b') (hes (cycle_of cx (fst y))) /\ ((a', b') = (a, b) \/ (a', b') = (b, a))).
      { unfold cycle_from in C3. destruct (first_cell cx cid (fst y)); [destruct C3; eauto 10|]. rewrite !hes_rev_in in C3. destruct C3; eauto 10. }
      destruct X as (a' & b' & H1 & [E|E]); injection E as -> ->.
      + apply (CRI _ a b Hf H1). left. auto.
      + change (a, b) with (swap (b, a)). rewrite edge_index_swap. apply (CRI _ b a Hf H1). right. auto. }
  set (P := fun y : nat * split_result => pt s (snd y)).
  set (sf := fun y => gp cross (hd (PV 0) (P y))). set (ef := fun y => gp cross (last (P y) (PV 0))).
  assert (PC : forall y, In y out -> (forall q, In q (P y) -> proper s nv cross q) /\ 2 <= length (P y) /\ split_start cross (snd y) = Some (sf y) /\
     split_end cross (snd y) = Some (ef y) /\ contrib nv cross y = steps (map (vx nv cross) (P y)) /\ face_case s (cycle_from cx cid (fst y)) (snd y) (Some (P y))).
  { intros y Hy. destruct (Forall2_in_l _ _ _ y FO Hy) as (p & Hp & FC). assert (PQ := PRP y p Hy FC).
    destruct (case_some s nv cross _ _ _ FC PQ) as (E & L & A & B & C). unfold P, sf, ef, P. rewrite E. destruct y as (f, r). auto 10. }
  assert (PS : map P out = somes rr).
  { assert (Q : forall y p, In y out -> face_case s (cycle_from cx cid (fst y)) (snd y) (Some p) -> P y = p).
    { intros y p Hy FC. now destruct (case_some s nv cross _ _ _ FC (PRP y p Hy FC)) as (E & _). }
    revert Q FO. clear. generalize (somes rr). induction out as [|y t IH]; intros ps Q F; inversion F; subst; [reflexivity|].
    cbn. f_equal; [apply Q; auto; now left|]. apply IH; auto. intros z p Hz. apply Q. now right. }
  rewrite <- PS in POL1, POL2, POL3.
  assert (PL : forall p, In p (map P out) -> 2 <= length p) by (intros p Hp; apply in_map_iff in Hp as (y & <- & Hy); now apply PC).
  assert (NE : out <> []) by (intros E; rewrite E in POL2; cbn in POL2; lia).
  assert (HDI : forall y, In y out -> In (hd (PV 0) (P y)) (P y)).
  { intros y Hy. destruct (PC y Hy) as (_ & L & _). destruct (P y); [cbn in L; lia|now left]. }
  assert (LAI : forall y, In y out -> In (last (P y) (PV 0)) (P y)).
  { intros y Hy. destruct (PC y Hy) as (_ & L & _). destruct (P y) as [|a t]; [cbn in L; lia|apply last_in]. }
  assert (NS0 : NoDup (map (fun y => hd (PV 0) (P y)) out)).
  { assert (Q := nodup_starts (PV 0) _ POL1 PL). now rewrite map_map in Q. }
  assert (NS : NoDup (map sf out)).
  { unfold sf. rewrite <- (map_map (fun y => hd (PV 0) (P y)) (gp cross)). apply map_inj_nodup; auto.
    intros x y Hx Hy. apply in_map_iff in Hx as (x' & <- & Hx). apply in_map_iff in Hy as (y' & <- & Hy).
    apply (gp_inj s nv cross); [apply (PC x' Hx), HDI; auto|apply (PC y' Hy), HDI; auto]. }
  assert (PE : Permutation (map sf out) (map ef out)).
  { assert (Q : Permutation (map path_start (somes rr)) (map path_end (somes rr))).
    { apply (cut_ends s (map (cycle_from cx cid) fs)).
      - apply Forall2_mapl. exact FR.
      - apply (balanced_permutation (concat (map (face_edges cx cid) fs))).
        + rewrite map_map. apply perm_concat_ext. intros f. unfold face_edges, cycle_from. apply outward_perm.
        + rewrite <- CFc. apply (g_closed _ _ G). }
    rewrite <- PS in Q. apply (Permutation_map (gp cross)) in Q. rewrite !map_map in Q. exact Q. }
  assert (CN : forall p q, In p out -> In q out -> clos_refl_trans _ (fun a b => In a out /\ In b out /\ ef a = sf b) p q).
  { intros p q Hp Hq. assert (C := POL3 (P p) (P q) (in_map P _ _ Hp) (in_map P _ _ Hq)). apply clos_rt_rt1n in C.
    remember (P p) as pp eqn:E1. remember (P q) as qq eqn:E2. revert p Hp E1. induction C as [a|a b d (Ha & Hb & E) _ IH]; intros p Hp E1.
    - assert (p = q); [|subst; apply rt_refl]. assert (E : hd (PV 0) (P p) = hd (PV 0) (P q)) by congruence.
      clear -NS0 E Hp Hq. induction out as [|y t IHt]; [easy|]. cbn in NS0. inversion NS0 as [|? ? X Y]. subst.
      destruct Hp as [->|Hp], Hq as [->|Hq]; auto.
      + exfalso. apply X. rewrite E. apply in_map_iff. eauto.
      + exfalso. apply X. rewrite <- E. apply in_map_iff. eauto.
    - apply in_map_iff in Hb as (y & Ey & Hy). apply (rt_trans _ _ _ y); [apply rt_step|apply IH; auto].
      split; auto. split; auto. unfold ef, sf. now rewrite <- E1, Ey, E. }
  destruct (make_loop_ok cross out sf ef NE) as (x & t & Eml & Pml & CH); auto.
  { intros y Hy. now apply PC. }
  { intros y Hy. now apply PC. }
  rewrite Eml. set (ol := x :: t) in *.
  assert (INol : forall y, In y ol -> In y out) by (intros y Hy; now apply (Permutation_in _ (Permutation_sym Pml))).
  destruct (omap_ex (fun r => split_start cross (snd r)) ol) as (poly & Epoly); [intros y Hy; exists (sf y); apply PC; auto|].
  rewrite Epoly. destruct (filter (fun t0 => o_poly o cx t0 poly) _) as [|t0 ts]; [exists cx; auto|].
  (* the edges *)
  set (s' := fun v => if nv <=? v then Zero else s v).
  assert (SS : forall v, v < nv -> s v = s' v) by (intros v Hv; unfold s'; destruct (Nat.leb_spec nv v); [lia|reflexivity]).
  set (cx2 := Bsp (nv + length cross) (split_edges (loops cx0) nv cross) (fdata cx) (cdata cx)).
  assert (G2 : gcomplex cx2 (cell_faces cx)) by (apply (gcomplex_edges cross cx _ (cdata cx) G)).
  assert (CRX' : Forall (crosses s') cross).
  { apply Forall_forall. intros e He. assert (C := proj1 (Forall_forall _ _) CRX e He). apply filter_In in He as (He & _).
    apply add_edges_in in He as [[]|He]. apply in_concat in He as (E & HE & He). apply in_map_iff in HE as (l & <- & Hl). apply in_map_iff in Hl as (f & <- & Hf).
    destruct e as (a, b). apply hes_in in He as (A & B). destruct (LF f Hf) as (l & _ & El & _ & _ & V). rewrite El in A, B.
    unfold crosses in *. cbn [fst snd] in *. now rewrite <- !SS by auto. }
  assert (CY2 : forall f, In f fs -> cycle_of cx2 f = ins_all (cycle_of cx f) nv cross).
  { intros f Hf. destruct (LF f Hf) as (l & El & -> & _). unfold cycle_of. cbn [loops cx2]. rewrite split_edges_map.
    apply nth_error_nth. rewrite nth_error_map. change (loops cx0) with (loops cx). now rewrite El. }
  assert (FCC : forall f, first_cell cx2 cid f = first_cell cx cid f) by reflexivity.
  assert (FRS' : Forall2 (fun y r => face_case s' (cycle_from cx cid (fst y)) (snd y) r) rs rr).
  { assert (Q : forall y, In y rs -> In (fst y) fs) by auto. revert Q. clear -Frs SS LF CYI. induction Frs as [|y r rs rr C F IH]; intros Q; constructor.
    - apply (face_case_ext s); auto. intros v Hv. apply SS. apply CYI in Hv. destruct (LF (fst y)) as (l & _ & El & _ & _ & V); [apply Q; now left|]. apply V. now rewrite El in Hv.
    - apply IH. intros z Hz. apply Q. now right. }
  assert (SAME : forall y r, In y rs -> face_case s' (cycle_from cx cid (fst y)) (snd y) r -> is_two y = false -> cycle_of cx2 (fst y) = cycle_of cx (fst y)).
  { intros y r Hy FC TW. rewrite CY2 by auto. apply (ins_all_same s'); auto. intros a b Hab C.
    assert (Ha : In a (cycle_from cx cid (fst y)) /\ In b (cycle_from cx cid (fst y))) by (rewrite !CYI; now apply hes_in).
    destruct y as (f, res). cbn [fst snd] in *. unfold is_two in TW. cbn [snd] in TW. unfold crosses in C. cbn [fst snd] in C.
    inversion FC as [A B D|A B|Z Q TU LZ NP AZ AP|]; subst; try discriminate.
    - destruct (A a (proj1 Ha)), (A b (proj2 Ha)); intuition congruence.
    - destruct (A a (proj1 Ha)), (A b (proj2 Ha)); intuition congruence.
    - destruct Ha as (Ha & Hb). apply (turned_in _ _ _ TU), in_app_or in Ha, Hb.
      destruct Ha as [Ha|Ha], Hb as [Hb|Hb]; try (apply AZ in Ha); try (apply AP in Ha); try (apply AZ in Hb); try (apply AP in Hb); intuition congruence. }
  assert (IRR : forall y, In y rs -> exists r, face_case s' (cycle_from cx cid (fst y)) (snd y) r).
  { intros y Hy. destruct (Forall2_in_l _ _ _ y FRS' Hy) as (r & _ & FC). eauto. }
  assert (I0 : SI cid nv s' cross cx2 (map fst (filter is_pos rs)) (map fst (filter is_neg rs)) [] ol).
  { constructor.
    - apply (gcomplex_perm _ _ _ G2). intros k. destruct (Nat.eqb_spec k cid) as [->|Nk]; [|apply Permutation_refl].
      rewrite CFc. fold fs. rewrite <- Mrs. rewrite (Permutation_map fst (partition_faces rs)), !map_app.
      apply Permutation_app_head, Permutation_app_head. unfold twos. rewrite <- twos_outline. fold out. apply Permutation_map, filter_perm. exact Pml.
    - intros f v Hf Hv. apply in_map_iff in Hf as (y & <- & Hy). apply filter_In in Hy as (Hy & Py). destruct (IRR y Hy) as (r & FC).
      rewrite (SAME y r Hy FC) in Hv by (unfold is_pos, is_two in *; now destruct (snd y)). apply CYI in Hv. unfold is_pos in Py.
      inversion FC as [A B D Er|A B Er|Z Q TU LZ NP AZ AP Er|a Q b N x' y' za zb TU NP NN AP AN HX HY Zx Zy Er]; rewrite <- Er in Py; try discriminate; auto.
      apply (turned_in _ _ _ TU), in_app_or in Hv as [Hv|Hv]; [right; now apply AZ|left; now apply AP].
    - intros f v Hf Hv. apply in_map_iff in Hf as (y & <- & Hy). apply filter_In in Hy as (Hy & Py). destruct (IRR y Hy) as (r & FC).
      rewrite (SAME y r Hy FC) in Hv by (unfold is_neg, is_two in *; now destruct (snd y)). apply CYI in Hv. unfold is_neg in Py.
      inversion FC as [A B D Er|A B Er|Z Q TU LZ NP AZ AP Er|a Q b N x' y' za zb TU NP NN AP AN HX HY Zx Zy Er]; rewrite <- Er in Py; try discriminate; auto.
    - intros y za zb Hy Ey. assert (Ho := INol y Hy). assert (Hr := INout y Ho). destruct (PC y Ho) as (PP & PL2 & Est & Een & _ & FC).
      rewrite Ey in Est, Een. cbn [split_start split_end] in Est, Een. exists (sf y), (ef y). split; auto. split; auto.
      assert (Hf := INrs y Hr). destruct (LF _ Hf) as (l & _ & Ecy & L3 & NDl & V).
      rewrite Ey in FC. inversion FC as [| | |a Q b N x' y' za' zb' TU NP NN AP AN HX HY Zx Zy Ez Ept]. subst za' zb'.
      assert (CF : cut_face s' (cycle_from cx cid (fst y)) (Some [x'; y'])).
      { apply (cut_ext s); [intros v Hv; apply SS, V; rewrite <- Ecy; now apply CYI|]. now apply (cut_two _ _ a Q b N). }
      assert (VY : resolve nv (sf y) = vx nv cross x' /\ resolve nv (ef y) = vx nv cross y').
      { unfold sf, ef, vx. rewrite <- Ept. auto. }
      destruct VY as (-> & ->).
      assert (Px : proper s nv cross x' /\ proper s nv cross y') by (rewrite <- Ept in PP; split; apply PP; cbn; auto).
      assert (CF' : cut_face s' (cycle_from cx2 cid (fst y)) (Some [PV (vx nv cross x'); PV (vx nv cross y')])).
      { assert (Q' := cut_ins_all s' cross nv _ _ CF). cbn [option_map map] in Q'. rewrite !(subs_vx s nv cross) in Q' by tauto.
        unfold cycle_from in *. rewrite FCC, CY2 by auto. rewrite Ecy in *. destruct (first_cell cx cid (fst y)).
        - apply Q'; auto. intros v Hv. unfold s'. destruct (Nat.leb_spec nv v); [reflexivity|lia].
        - apply (cut_turned s' (ins_all (rev l) nv cross)); [apply turned_sym, ins_all_rev|]. apply Q'; auto.
          + now apply NoDup_rev.
          + now rewrite rev_length.
          + intros v Hv. apply V. now apply in_rev.
          + intros v Hv. unfold s'. destruct (Nat.leb_spec nv v); [reflexivity|lia]. }
      apply cut_two_inv; auto. destruct N as [|n0 N]; [easy|]. exists n0.
      assert (Hn0 : In n0 (cycle_of cx (fst y))) by (apply CYI, (turned_in _ _ _ TU); rewrite !in_app_iff; cbn; auto).
      split.
      + unfold cycle_from. rewrite FCC, CY2 by auto. destruct (first_cell cx cid (fst y)); [|apply in_rev; rewrite rev_involutive]; now apply ins_all_in.
      + rewrite <- SS; [apply AN; now left|]. apply V. now rewrite <- Ecy.
    - intros u v U V. cbn [app]. assert (Pz : Permutation (zhs ol) (zhs rs)).
      { rewrite <- (zhs_outline rs). unfold zhs. apply Permutation_flat_map. symmetry. exact Pml. }
      rewrite (times_perm _ _ _ Pz).
      enough (Q : forall l, (forall y, In y l -> In y rs) -> times (edges_of cx2 cid (map fst (filter is_pos l))) (u, v) = times (zhs l) (v, u)) by (apply Q; auto).
      induction l as [|y l IH]; intros SUB; [reflexivity|]. unfold edges_of in *. cbn [filter].
      assert (IH' := IH (fun z Hz => SUB z (or_intror Hz))). clear IH. assert (Hy := SUB y (or_introl eq_refl)). destruct (IRR y Hy) as (r & FC).
      assert (EZ : zhs (y :: l) = match snd y with ZeroHalfedges h => h | _ => [] end ++ zhs l) by reflexivity. rewrite EZ.
      rewrite times_app, <- IH'. clear IH' EZ.
      assert (EP : map fst (if is_pos y then y :: filter is_pos l else filter is_pos l) = (if is_pos y then [fst y] else []) ++ map fst (filter is_pos l)) by now destruct (is_pos y).
      rewrite EP, map_app, concat_app, times_app. f_equal. clear EP.
      assert (OW : is_two y = false -> times (face_edges cx2 cid (fst y)) (u, v) = times (hes (cycle_from cx cid (fst y))) (u, v)).
      { intros TW. unfold face_edges, cycle_from. rewrite FCC, (SAME y r Hy FC TW). apply times_perm, outward_perm. }
      clear - FC OW U V.
      destruct y as (f, res). unfold is_two in OW. cbn [fst snd] in *. destruct res as [za zb|h|[|]]; cbn [is_pos snd map concat fst]; try reflexivity; rewrite app_nil_r, OW by reflexivity.
      + inversion FC as [| |Z Q TU LZ NP AZ AP|]. subst. apply (side_zz s' _ Z Q); auto. intros ->. cbn in LZ. lia.
      + inversion FC as [A B D| | |]. subst. cbn. apply (times_none s'); auto. intros a b Hab. specialize (D a b Hab).
        destruct (s' a), (s' b); auto; try (left; discriminate); try (right; discriminate). }
  destruct (split_all_ok o tid cid nv s' cross ol _ _ _ _ I0) as (cx3 & pos & neg & Esa & I3 & NV3 & LC3 & NC3).
  rewrite Esa. cbn [app] in *.
  (* the separating polygon *)
  destruct (chain_steps (fun y => map (vx nv cross) (P y)) sf ef nv t x (sf x)) as (B & EB & SB); [|exact CH|].
  { intros y Hy. destruct (PC y (INol y Hy)) as (_ & L & _). rewrite map_length. split; auto. unfold sf, ef.
    destruct (P y) as [|a q]; [cbn in L; lia|]. cbn [map hd]. split; [reflexivity|]. fold (vx nv cross (last (a :: q) (PV 0))).
    clear. revert a; induction q as [|b q IH]; intros a; [reflexivity|]. apply (IH b). }
  set (a0 := hd 0 (map (vx nv cross) (P x))) in *. fold ol in EB, SB.
  assert (EC : concat (map (contrib nv cross) ol) = hes (a0 :: B)).
  { rewrite (map_ext_in _ (fun r => steps (map (vx nv cross) (P r)))); [|intros y Hy; apply PC; auto]. rewrite SB. cbn [hes]. f_equal.
    destruct (PC x (INol x (or_introl eq_refl))) as (_ & L & _). unfold a0, sf. destruct (P x); [cbn in L; lia|reflexivity]. }
  rewrite EC in I3 |- *.
  assert (EV : a0 :: B = map (vx nv cross) (concat (map (@removelast point) (map P ol)))).
  { rewrite <- EB, concat_map, !map_map. f_equal. apply map_ext. intros y. apply removelast_map. }
  assert (PP : Permutation (concat (map (@removelast point) (map P out))) (concat (map (@removelast point) (map P ol)))) by (apply perm_concat_map, Permutation_map; exact Pml).
  assert (PRO : forall q, In q (concat (map (@removelast point) (map P ol))) -> proper s nv cross q).
  { intros q Hq. apply in_concat in Hq as (p & Hp & Hq). apply in_map_iff in Hp as (p' & <- & Hp). apply in_map_iff in Hp as (y & <- & Hy).
    apply (PC y (INol y Hy)). now apply removelast_in. }
  assert (ZV : forall q, proper s nv cross q -> s' (vx nv cross q) = Zero).
  { intros [v|a b]; cbn [proper]; unfold vx; cbn [gp].
    - intros (Q & L). cbn [resolve]. now rewrite <- SS.
    - intros (_ & _ & i & ->). cbn [resolve]. unfold s'. destruct (Nat.leb_spec nv (nv + i)); [reflexivity|lia]. }
  destruct (nth_error_ex (cdata cx3) cid) as (d & Ed); [rewrite LC3; cbn [cdata cx2 cx]; now rewrite upd_length|].
  match goal with |- context [add_separating o cid ?a ?b _] => destruct (add_separating_ok o cid nv s' cross a b cx3 pos neg (a0 :: B) d I3) as (cx' & E' & CX' & NV' & LC' & H1 & H2 & H3) end; auto.
  { rewrite EV, map_length, <- (Permutation_length PP). exact POL2. }
  { rewrite EV. apply map_inj_nodup; [|now apply (Permutation_NoDup PP)]. intros p q Hp Hq. apply (vx_inj s); auto. }
  { intros v Hv. rewrite EV in Hv. apply in_map_iff in Hv as (q & <- & Hq). split; [|apply ZV; auto]. rewrite NV3. apply (vx_lt s). auto. }
  assert (LN : length (cdata cx3) = length (cdata cx0)) by (rewrite LC3; cbn [cdata cx2 cx]; apply upd_length).
  rewrite LN in *. exists cx'. split; [exact E'|]. split; auto. right. unfold cut_in_two. fold nv. fold s'. auto.
Qed.
