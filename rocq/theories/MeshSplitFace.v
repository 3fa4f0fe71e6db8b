(** split_face preserves well-formedness and cuts the face in two. *)
From Coq Require Import List Arith Bool Lia Permutation.
From Verif Require Import Lib Mesh MeshSpec MeshFacts MeshProofs.
Import ListNotations.
Local Open Scope opt_scope.

Lemma nth_last {A} (t : list A) : forall x, nth_error (x :: t) (length (x :: t) - 1) = Some (last t x).
Proof.
  induction t as [|b t IH]; intros x; [reflexivity|].
  replace (length (x :: b :: t) - 1) with (S (length (b :: t) - 1)) by (simpl; lia).
  change (nth_error (x :: b :: t) (S (length (b :: t) - 1))) with (nth_error (b :: t) (length (b :: t) - 1)).
  rewrite IH. f_equal. clear IH. destruct t as [|c t]; [reflexivity|].
  change (last (b :: c :: t) x) with (last (c :: t) x). revert c. induction t as [|d t IH]; intros c; [reflexivity|].
  change (last (c :: d :: t) b) with (last (d :: t) b). change (last (c :: d :: t) x) with (last (d :: t) x). apply IH.
Qed.

Lemma last_cons {A} (t : list A) : forall b x, last (b :: t) x = last t b.
Proof.
  induction t as [|c t IH]; intros b x; [reflexivity|].
  change (last (b :: c :: t) x) with (last (c :: t) x). rewrite (IH c x). symmetry. apply (IH c b).
Qed.

Lemma last_In {A} (t : list A) x : In (last t x) (x :: t).
Proof.
  revert x. induction t as [|b t IH]; intros x; [now left|]. rewrite last_cons. right. apply IH.
Qed.

(** Redirecting the last step of a path. *)
Lemma path_retarget f g t : forall x z w, path f x t z -> NoDup (x :: t) ->
  (forall j, In j (x :: t) -> j <> last t x -> g j = f j) -> g (last t x) = Some w -> path g x t w.
Proof.
  induction t as [|b t IH]; intros x z w P D G L; simpl in *; auto.
  destruct P as [E P]. inversion_clear D as [|? ? N D'].
  change (match t with [] => b | _ :: _ => last t x end) with (last (b :: t) x) in *.
  rewrite last_cons in *. split.
  - rewrite <- E. apply G; auto. intros ->. apply N. apply last_In.
  - apply (IH b z w); auto.
Qed.

Lemma path_last f t : forall x z, path f x t z -> f (last t x) = Some z.
Proof.
  induction t as [|b t IH]; intros x z P; simpl in *; auto. destruct P as [_ P].
  change (match t with [] => b | _ :: _ => last t x end) with (last (b :: t) x).
  rewrite last_cons. apply IH. exact P.
Qed.

Lemma find_pos_skip v va vb l1 l2 : forall i p,
  (forall h, In h l1 -> exists u, rd v h = Some u /\ u <> va /\ u <> vb) ->
  find_pos v va vb i (l1 ++ l2) p = find_pos v va vb (i + length l1) l2 p.
Proof.
  induction l1 as [|h l1 IH]; intros i p H; simpl.
  - rewrite Nat.add_0_r. reflexivity.
  - destruct (H h) as (u & -> & N1 & N2); [now left|].
    rewrite (proj2 (Nat.eqb_neq _ _) N1), (proj2 (Nat.eqb_neq _ _) N2). simpl.
    rewrite IH by (intros; apply H; now right). f_equal. lia.
Qed.

Lemma find_pos_ok v va vb A x B y C u w :
  (forall h, In h (A ++ B) -> exists u, rd v h = Some u /\ u <> va /\ u <> vb) ->
  rd v x = Some u -> rd v y = Some w -> (u = va /\ w = vb \/ u = vb /\ w = va) ->
  find_pos v va vb 0 (A ++ x :: B ++ y :: C) None
    = Some (Some (length A), Some (length A + S (length B))).
Proof.
  intros H Ex Ey Huw. rewrite find_pos_skip by (intros; apply H, in_or_app; auto).
  cbn [find_pos]. rewrite Ex. 
  replace ((u =? va) || (u =? vb)) with true.
  2:{ symmetry. apply orb_true_iff. rewrite !Nat.eqb_eq. tauto. }
  rewrite find_pos_skip by (intros; apply H, in_or_app; auto).
  cbn [find_pos]. rewrite Ey. replace ((w =? va) || (w =? vb)) with true.
  2:{ symmetry. apply orb_true_iff. rewrite !Nat.eqb_eq. tauto. }
  f_equal. f_equal. f_equal. simpl. lia.
Qed.

Ltac app_simpl := cbn [n_h n_v n_e n_f v_he he_next he_vert f_he he_edge he_face in_next out_next sib e_he
  set_v_he set_he_next set_he_vert set_f_he set_he_edge set_he_face set_in_next set_out_next set_sib set_e_he].

Theorem split_face_ok m f va vb A x B y C u w :
  well_formed m -> f < n_f m -> face_halfedges m f = Some (A ++ x :: B ++ y :: C) ->
  rd (he_vert m) x = Some u -> rd (he_vert m) y = Some w -> va <> vb ->
  (u = va /\ w = vb \/ u = vb /\ w = va) ->
  (forall h v, In h (A ++ B) -> rd (he_vert m) h = Some v -> v <> va /\ v <> vb) ->
  let N := n_h m in
  exists m', split_face m f va vb = Some (m', N + 1) /\ well_formed m' /\
    n_v m' = n_v m /\ n_e m' = S (n_e m) /\ n_f m' = S (n_f m) /\ n_h m' = N + 2 /\
    face_halfedges m' f = Some (N :: x :: B) /\
    face_halfedges m' (n_f m) = Some (N + 1 :: y :: C ++ A) /\
    rd (he_vert m') N = Some w /\ rd (he_vert m') (N + 1) = Some u /\
    rd (he_edge m') N = Some (n_e m) /\ rd (he_edge m') (N + 1) = Some (n_e m) /\
    (forall h, h < N -> rd (he_vert m') h = rd (he_vert m) h /\ tip m' h = tip m h /\
       rd (he_edge m') h = rd (he_edge m) h /\ (rd (he_face m) h <> Some f ->
          rd (he_next m') h = rd (he_next m) h /\ rd (he_face m') h = rd (he_face m) h)) /\
    (forall g, g < n_f m -> g <> f -> rd (f_he m') g = rd (f_he m) g) /\
    v_he m' = v_he m /\ (forall e, e < n_e m -> rd (e_he m') e = rd (e_he m) e).
Proof.
  intros W Bf FH Ex Ey Hvv Huw HAB N.
  destruct (wf_counts _ W) as (Cv & Cf & Ce & Ch).
  destruct (wf_lengths _ W) as (Lv & Le & Lf & Li & Lo & Ls).
  destruct (wf_parts m W) as (PF & PE & PO & PI).
  destruct (face_halfedges_ok m f W Bf) as (hs & FH' & Hhd & (_ & D & LK & I)).
  assert (hs = A ++ x :: B ++ y :: C) by congruence. subst hs. clear FH'.
  assert (BD : forall h, In h (A ++ x :: B ++ y :: C) -> h < N).
  { intros h Hh. apply I in Hh. apply rd_lt in Hh. fold N in Lf. lia. }
  set (first := x :: B). set (second := y :: C ++ A).
  assert (PERM : Permutation (A ++ x :: B ++ y :: C) (first ++ second)).
  { unfold first, second. rewrite Permutation_app_comm. simpl. apply perm_skip. rewrite <- app_assoc. reflexivity. }
  assert (DFS : NoDup (first ++ second)) by (eapply Permutation_NoDup; eauto).
  assert (IFS : forall h, In h (A ++ x :: B ++ y :: C) <-> In h first \/ In h second).
  { intros h. rewrite <- in_app_iff. split; apply Permutation_in; auto. symmetry; auto. }
  assert (LFS : linked (rd (he_next m)) (first ++ second)).
  { unfold first, second. apply linked_rot in LK. revert LK. simpl. rewrite <- app_assoc. auto. }
  assert (NDF : NoDup first /\ NoDup second /\ forall h, In h first -> ~ In h second).
  { clear - DFS. revert DFS. generalize second. clear. induction first as [|a l IH]; intros s D; simpl in *.
    - split; [constructor|]. split; auto.
    - inversion_clear D as [|? ? N D']. destruct (IH _ D') as (H1 & H2 & H3). rewrite in_app_iff in N.
      split; [constructor; tauto|]. split; auto. intros h [<-|Hh]; auto. }
  destruct NDF as (DF & DS & DJ).
  simpl in LFS. unfold second in LFS. apply path_app in LFS. destruct LFS as [PX PY].
  set (fl := last B x). set (gl := last (C ++ A) y).
  assert (Nfl : rd (he_next m) fl = Some y) by apply (path_last _ _ _ _ PX).
  assert (Ngl : rd (he_next m) gl = Some x) by apply (path_last _ _ _ _ PY).
  assert (Ifl : In fl first) by apply last_In. assert (Igl : In gl second) by apply last_In.
  assert (BF : forall h, In h first -> h < N) by (intros; apply BD, IFS; auto).
  assert (BS : forall h, In h second -> h < N) by (intros; apply BD, IFS; auto).
  assert (Ix : In x first) by now left. assert (Iy : In y second) by now left.
  assert (Tfl : tip m fl = Some w) by (unfold tip; rewrite Nfl; exact Ey).
  assert (Tgl : tip m gl = Some u) by (unfold tip; rewrite Ngl; exact Ex).
  assert (Bu : u < n_v m). { destruct (wf_vert _ W x (BF _ Ix)) as (? & ? & ?). congruence. }
  assert (Bw : w < n_v m). { destruct (wf_vert _ W y (BS _ Iy)) as (? & ? & ?). congruence. }
  (* the run *)
  unfold split_face. rewrite FH.
  rewrite (find_pos_ok (he_vert m) va vb A x B y C u w); auto.
  2:{ intros h Hh. assert (Hh' : h < N).
      { apply BD. rewrite in_app_iff in *. simpl. rewrite in_app_iff. tauto. }
      destruct (wf_vert _ W h Hh') as (v & _ & E). exists v. split; auto. apply (HAB h v Hh E). }
  rewrite nth_error_app2 by lia. rewrite Nat.sub_diag. cbn [nth_error]. rewrite Ex.
  replace (firstn (length A + S (length B) - length A) (skipn (length A) (A ++ x :: B ++ y :: C))) with first.
  2:{ rewrite skipn_app, skipn_all, Nat.sub_diag. simpl app. change (skipn 0 (x :: B ++ y :: C)) with (x :: B ++ y :: C).
      replace (length A + S (length B) - length A) with (length (x :: B) + 0) by (simpl; lia).
      change (x :: B ++ y :: C) with ((x :: B) ++ y :: C). rewrite firstn_app_2. simpl firstn. rewrite app_nil_r. reflexivity. }
  replace (skipn (length A + S (length B)) (A ++ x :: B ++ y :: C) ++ firstn (length A) (A ++ x :: B ++ y :: C)) with second.
  2:{ rewrite skipn_app, skipn_all2 by lia. replace (length A + S (length B) - length A) with (length (x :: B)) by (simpl; lia).
      change (x :: B ++ y :: C) with ((x :: B) ++ y :: C). rewrite skipn_app, skipn_all, Nat.sub_diag. cbn [skipn app].
      rewrite firstn_app, firstn_all, Nat.sub_diag. simpl. rewrite app_nil_r. reflexivity. }
  replace (if u =? va then (va, vb) else (vb, va)) with (u, w).
  2:{ destruct Huw as [[-> ->]|[-> ->]]. - rewrite Nat.eqb_refl. reflexivity.
      - rewrite (proj2 (Nat.eqb_neq vb va)) by auto. reflexivity. }
  unfold new_halfedges. rewrite <- Ch. fold N. app_simpl.
  assert (RL : forall a : ids, length a = N -> length (resize a (N + 2)) = N + 2 /\ forall j, rd (resize a (N + 2)) j = rd a j).
  { intros a La. split; [apply resize_len; lia|]. intros j. apply rd_resize. lia. }
  destruct (RL (he_vert m) Lv) as [Qv Rv]. destruct (RL (he_next m) (eq_sym Ch)) as [Qn Rn].
  destruct (RL (he_edge m) Le) as [Qe Re]. destruct (RL (he_face m) Lf) as [Qf Rf].
  destruct (RL (in_next m) Li) as [Qi Ri]. destruct (RL (out_next m) Lo) as [Qo Ro].
  destruct (RL (sib m) Ls) as [Qs Rs].
  assert (Bfl := BF _ Ifl). assert (Bgl := BS _ Igl). assert (Bx := BF _ Ix). assert (By := BS _ Iy).
  destruct (wr_spec (resize (he_vert m) (N + 2)) N w) as (hv1 & E1 & L1 & R1); [lia|]. rewrite E1.
  destruct (wr_spec hv1 (N + 1) u) as (hv2 & E2 & L2 & R2); [lia|]. rewrite E2. app_simpl.
  destruct (wr_spec (resize (sib m) (N + 2)) N (N + 1)) as (s1 & E3 & L3 & R3); [lia|]. rewrite E3.
  destruct (wr_spec s1 (N + 1) N) as (s2 & E4 & L4 & R4); [lia|]. rewrite E4. app_simpl.
  unfold first at 1, second at 1. cbn [nth_error]. unfold first at 1 2, second at 1 2.
  rewrite !nth_last. fold fl. fold gl.
  destruct (insert_spec (resize (in_next m) (N + 2)) gl N) as (i1 & E5 & L5 & R5); try lia. rewrite E5.
  destruct (insert_spec (resize (out_next m) (N + 2)) y N) as (o1 & E6 & L6 & R6); try lia. rewrite E6.
  destruct (insert_spec i1 fl (N + 1)) as (i2 & E7 & L7 & R7); try lia. rewrite E7.
  destruct (insert_spec o1 x (N + 1)) as (o2 & E8 & L8 & R8); try lia. rewrite E8. app_simpl.
  destruct (wr_spec (resize (he_next m) (N + 2)) N x) as (n1 & E9 & L9 & R9); [lia|]. rewrite E9.
  destruct (wr_spec n1 fl N) as (n2 & E10 & L10 & R10); [lia|]. rewrite E10.
  destruct (wr_spec n2 (N + 1) y) as (n3 & E11 & L11 & R11); [lia|]. rewrite E11.
  destruct (wr_spec n3 gl (N + 1)) as (n4 & E12 & L12 & R12); [lia|]. rewrite E12. app_simpl.
  unfold new_edges. app_simpl.
  destruct (wr_spec (resize (he_edge m) (N + 2)) N (length (e_he m))) as (he1 & E13 & L13 & R13); [lia|]. rewrite E13.
  destruct (wr_spec he1 (N + 1) (length (e_he m))) as (he2 & E14 & L14 & R14); [lia|]. rewrite E14. app_simpl.
  unfold new_faces. app_simpl.
  destruct (wr_spec (resize (he_face m) (N + 2)) N f) as (hf1 & E15 & L15 & R15); [lia|]. rewrite E15.
  destruct (wr_spec hf1 (N + 1) (length (f_he m))) as (hf2 & E16 & L16 & R16); [lia|]. rewrite E16.
  destruct (writes_const hf2 second (length (f_he m))) as (hf3 & E17 & L17 & R17).
  { intros h Hh. specialize (BS h Hh). lia. }
  rewrite E17. app_simpl.
  destruct (wr_spec (resize (e_he m) (length (e_he m) + 1)) (length (e_he m)) N) as (eh & E18 & L18 & R18).
  { rewrite resize_len; lia. }
  rewrite E18. app_simpl.
  destruct (wr_spec (resize (f_he m) (length (f_he m) + 1)) f N) as (fh1 & E19 & L19 & R19).
  { rewrite resize_len; lia. }
  rewrite E19.
  destruct (wr_spec fh1 (length (f_he m)) (N + 1)) as (fh2 & E20 & L20 & R20).
  { rewrite L19, resize_len; lia. }
  rewrite E20. app_simpl.
  rewrite resize_len in L18, L19 by lia.
  set (m' := Mesh (v_he m) n4 hv2 fh2 (n_v m) (N + 2) (n_f m + 1) (n_e m + 1) he2 hf3 i2 o2 s2 eh).
  (* reading facts *)
  assert (VO : forall h, h < N -> rd hv2 h = rd (he_vert m) h).
  { intros h Hh. rewrite R2, R1, Rv. rewrite (proj2 (Nat.eqb_neq h (N + 1))), (proj2 (Nat.eqb_neq h N)) by lia. reflexivity. }
  assert (VN : rd hv2 N = Some w).
  { rewrite R2, R1, Nat.eqb_refl. rewrite (proj2 (Nat.eqb_neq N (N + 1))) by lia. reflexivity. }
  assert (VN1 : rd hv2 (N + 1) = Some u) by (rewrite R2, Nat.eqb_refl; reflexivity).
  assert (NX : forall j, rd n4 j = if j =? gl then Some (N + 1) else if j =? N + 1 then Some y else
                 if j =? fl then Some N else if j =? N then Some x else rd (he_next m) j).
  { intros j. rewrite R12, R11, R10, R9, Rn. reflexivity. }
  assert (FLGL : fl <> gl) by (intros Eq; apply (DJ fl); [exact Ifl|rewrite Eq; exact Igl]).
  assert (NO : forall h, h < N -> h <> fl -> h <> gl -> rd n4 h = rd (he_next m) h).
  { intros h Hh H1 H2. rewrite NX. rewrite (proj2 (Nat.eqb_neq h gl)), (proj2 (Nat.eqb_neq h (N + 1))),
      (proj2 (Nat.eqb_neq h fl)), (proj2 (Nat.eqb_neq h N)) by lia. reflexivity. }
  assert (Nfl' : rd n4 fl = Some N).
  { rewrite NX. rewrite (proj2 (Nat.eqb_neq fl gl)), (proj2 (Nat.eqb_neq fl (N + 1))) by lia. rewrite Nat.eqb_refl. reflexivity. }
  assert (Ngl' : rd n4 gl = Some (N + 1)) by (rewrite NX, Nat.eqb_refl; reflexivity).
  assert (NN : rd n4 N = Some x).
  { rewrite NX. rewrite (proj2 (Nat.eqb_neq N gl)), (proj2 (Nat.eqb_neq N (N + 1))), (proj2 (Nat.eqb_neq N fl)) by lia.
    rewrite Nat.eqb_refl. reflexivity. }
  assert (NN1 : rd n4 (N + 1) = Some y).
  { rewrite NX. rewrite (proj2 (Nat.eqb_neq (N + 1) gl)) by lia. rewrite Nat.eqb_refl. reflexivity. }
  assert (TO : forall h, h < N -> tip m' h = tip m h).
  { intros h Hh. unfold tip. cbn [m' he_next he_vert].
    destruct (Nat.eq_dec h fl) as [->|Hf1]; [rewrite Nfl', Nfl, VN; auto|].
    destruct (Nat.eq_dec h gl) as [->|Hg1]; [rewrite Ngl', Ngl, VN1; auto|].
    rewrite NO by assumption. destruct (wf_next m h W Hh) as (h' & Bh' & -> & _). apply VO. exact Bh'. }
  assert (TN : tip m' N = Some u).
  { unfold tip. cbn [m' he_next he_vert]. rewrite NN, VO by assumption. exact Ex. }
  assert (TN1 : tip m' (N + 1) = Some w).
  { unfold tip. cbn [m' he_next he_vert]. rewrite NN1, VO by assumption. exact Ey. }
  assert (TZ : forall h, N + 2 <= h -> tip m' h = None).
  { intros h Hh. unfold tip. cbn [m' he_next]. rewrite rd_ge by lia. reflexivity. }
  assert (EO : forall h, h < N -> rd he2 h = rd (he_edge m) h).
  { intros h Hh. rewrite R14, R13, Re. rewrite (proj2 (Nat.eqb_neq h (N + 1))), (proj2 (Nat.eqb_neq h N)) by lia. reflexivity. }
  assert (EN : rd he2 N = Some (length (e_he m))).
  { rewrite R14, R13, Nat.eqb_refl. destruct (N =? N + 1); reflexivity. }
  assert (EN1 : rd he2 (N + 1) = Some (length (e_he m))) by (rewrite R14, Nat.eqb_refl; reflexivity).
  assert (FF : forall h, rd hf3 h = if inb h second then Some (length (f_he m)) else
                 if h =? N + 1 then Some (length (f_he m)) else if h =? N then Some f else rd (he_face m) h).
  { intros h. rewrite R17, R16, R15, Rf. reflexivity. }
  assert (NS1 : inb N second = false) by (apply inb_nIn; intros K; apply BS in K; lia).
  assert (NS2 : inb (N + 1) second = false) by (apply inb_nIn; intros K; apply BS in K; lia).
  assert (FNf : rd hf3 N = Some f).
  { rewrite FF, NS1, Nat.eqb_refl. rewrite (proj2 (Nat.eqb_neq N (N + 1))) by lia. reflexivity. }
  assert (FN1 : rd hf3 (N + 1) = Some (length (f_he m))) by (rewrite FF, NS2, Nat.eqb_refl; reflexivity).
  assert (FO : forall h, h < N -> rd hf3 h = if inb h second then Some (length (f_he m)) else rd (he_face m) h).
  { intros h Hh. rewrite FF. destruct (inb h second); auto.
    rewrite (proj2 (Nat.eqb_neq h (N + 1))), (proj2 (Nat.eqb_neq h N)) by lia. reflexivity. }
  assert (FLT : forall h g, rd (he_face m) h = Some g -> g < n_f m /\ h < N).
  { intros h g H. pose proof (rd_lt _ _ _ H) as K. rewrite Lf in K. fold N in K.
    destruct (wf_hface _ W h K) as (g' & ? & ?). assert (g = g') by congruence. subst. auto. }
  assert (CYF : cycle (rd n4) (fun h => rd hf3 h = Some f) (N :: first)).
  { split; [discriminate|]. split; [|split].
    - constructor; auto. intros K. apply BF in K. lia.
    - simpl. split; [exact NN|]. apply (path_retarget (rd (he_next m)) (rd n4) B x y N PX DF).
      + intros j Hj Hl. apply NO; auto. intros ->. apply (DJ gl Hj Igl).
      + exact Nfl'.
    - intros h. split.
      + intros [<-|Hh]; [exact FNf|]. rewrite FO by auto. replace (inb h second) with false.
        * apply I, IFS. auto.
        * symmetry. apply inb_nIn. auto.
      + intros Hh. destruct (Nat.eq_dec h N) as [->|Hn]; [now left|]. right.
        rewrite FF in Hh. destruct (inb h second) eqn:Eb; [exfalso; inversion Hh; lia|].
        rewrite (proj2 (Nat.eqb_neq h N)) in Hh by auto.
        destruct (h =? N + 1); [inversion Hh; lia|]. apply I, IFS in Hh. apply inb_nIn in Eb. tauto. }
  assert (CYS : cycle (rd n4) (fun h => rd hf3 h = Some (length (f_he m))) (N + 1 :: second)).
  { split; [discriminate|]. split; [|split].
    - constructor; auto. intros K. apply BS in K. lia.
    - simpl. split; [exact NN1|]. apply (path_retarget (rd (he_next m)) (rd n4) (C ++ A) y x (N + 1) PY DS).
      + intros j Hj Hl. apply NO; auto. intros ->. apply (DJ fl Ifl Hj).
      + exact Ngl'.
    - intros h. split.
      + intros [<-|Hh]; [exact FN1|]. rewrite FF. apply inb_In in Hh. rewrite Hh. reflexivity.
      + intros Hh. rewrite FF in Hh. destruct (inb h second) eqn:Eb; [right; now apply inb_In|].
        destruct (Nat.eqb_spec h (N + 1)) as [->|]; [now left|].
        destruct (h =? N); [inversion Hh; lia|]. apply FLT in Hh. lia. }
  assert (PIN : parts (rd i2) (tip m')).
  { assert (P1 : parts (rd i1) (fun j => if j =? N then tip m gl else tip m j)).
    { apply (parts_insert (rd (resize (in_next m) (N + 2))) (rd i1) (tip m) gl N).
      - revert PI. apply parts_ext; auto.
      - congruence.
      - unfold tip. rewrite rd_ge by lia. reflexivity.
      - rewrite R5. rewrite (proj2 (Nat.eqb_neq gl N)) by lia. rewrite Nat.eqb_refl. reflexivity.
      - rewrite R5, Nat.eqb_refl. reflexivity.
      - intros j H1 H2. rewrite R5. rewrite (proj2 (Nat.eqb_neq _ _) H1), (proj2 (Nat.eqb_neq _ _) H2). reflexivity. }
    assert (P2 := parts_insert (rd i1) (rd i2) _ fl (N + 1) P1). cbv beta in P2.
    rewrite (proj2 (Nat.eqb_neq fl N)) in P2 by lia. rewrite (proj2 (Nat.eqb_neq (N + 1) N)) in P2 by lia.
    rewrite Tfl, Tgl in P2.
    eapply parts_ext; [| |apply P2]; auto.
    - intros h. cbv beta. destruct (Nat.eqb_spec h (N + 1)) as [->|]; [auto|]. destruct (Nat.eqb_spec h N) as [->|]; [auto|].
      destruct (Nat.lt_ge_cases h N); [symmetry; auto|]. rewrite TZ by lia. unfold tip. rewrite rd_ge by lia. reflexivity.
    - discriminate.
    - unfold tip. rewrite rd_ge by lia. reflexivity.
    - rewrite R7. rewrite (proj2 (Nat.eqb_neq fl (N + 1))) by lia. rewrite Nat.eqb_refl. reflexivity.
    - rewrite R7, Nat.eqb_refl. reflexivity.
    - intros j H1 H2. rewrite R7. rewrite (proj2 (Nat.eqb_neq _ _) H1), (proj2 (Nat.eqb_neq _ _) H2). reflexivity. }
  assert (POUT : parts (rd o2) (rd hv2)).
  { assert (P1 : parts (rd o1) (fun j => if j =? N then rd (he_vert m) y else rd (he_vert m) j)).
    { apply (parts_insert (rd (resize (out_next m) (N + 2))) (rd o1) (rd (he_vert m)) y N).
      - revert PO. apply parts_ext; auto.
      - congruence.
      - apply rd_ge; lia.
      - rewrite R6. rewrite (proj2 (Nat.eqb_neq y N)) by lia. rewrite Nat.eqb_refl. reflexivity.
      - rewrite R6, Nat.eqb_refl. reflexivity.
      - intros j H1 H2. rewrite R6. rewrite (proj2 (Nat.eqb_neq _ _) H1), (proj2 (Nat.eqb_neq _ _) H2). reflexivity. }
    assert (P2 := parts_insert (rd o1) (rd o2) _ x (N + 1) P1). cbv beta in P2.
    rewrite (proj2 (Nat.eqb_neq x N)) in P2 by lia. rewrite (proj2 (Nat.eqb_neq (N + 1) N)) in P2 by lia.
    rewrite Ex, Ey in P2.
    eapply parts_ext; [| |apply P2]; auto.
    - intros h. cbv beta. destruct (Nat.eqb_spec h (N + 1)) as [->|]; [auto|]. destruct (Nat.eqb_spec h N) as [->|]; [auto|].
      destruct (Nat.lt_ge_cases h N); [symmetry; auto|]. rewrite !rd_ge by lia. reflexivity.
    - discriminate.
    - apply rd_ge. lia.
    - rewrite R8. rewrite (proj2 (Nat.eqb_neq x (N + 1))) by lia. rewrite Nat.eqb_refl. reflexivity.
    - rewrite R8, Nat.eqb_refl. reflexivity.
    - intros j H1 H2. rewrite R8. rewrite (proj2 (Nat.eqb_neq _ _) H1), (proj2 (Nat.eqb_neq _ _) H2). reflexivity. }
  assert (ELT : forall h e, rd (he_edge m) h = Some e -> e < n_e m /\ h < N).
  { intros h g H. pose proof (rd_lt _ _ _ H) as K. rewrite Le in K. fold N in K.
    destruct (wf_hedge _ W h K) as (g' & ? & ?). assert (g = g') by congruence. subst. auto. }
  assert (E2N : forall h e, rd he2 h = Some e -> e <> length (e_he m) -> rd (he_edge m) h = Some e).
  { intros h e H Hn. rewrite R14, R13, Re in H. destruct (h =? N + 1); [congruence|]. destruct (h =? N); [congruence|exact H]. }
  assert (E2L : forall h, rd he2 h = Some (length (e_he m)) -> h = N \/ h = N + 1).
  { intros h H. rewrite R14, R13, Re in H. destruct (Nat.eqb_spec h (N + 1)); [auto|]. destruct (Nat.eqb_spec h N); [auto|].
    apply ELT in H. lia. }
  assert (SO : forall h, h < N -> rd s2 h = rd (sib m) h).
  { intros h Hh. rewrite R4, R3, Rs. rewrite (proj2 (Nat.eqb_neq h (N + 1))), (proj2 (Nat.eqb_neq h N)) by lia. reflexivity. }
  assert (PSB : parts (rd s2) (rd he2)).
  { intros h e He. destruct (Nat.eq_dec e (length (e_he m))) as [->|Hne].
    - exists [N; N + 1]. split; [discriminate|]. split; [|split].
      + constructor; [simpl; lia|]. constructor; [simpl; auto|constructor].
      + simpl. rewrite R4, R3. rewrite (proj2 (Nat.eqb_neq N (N + 1))) by lia. rewrite Nat.eqb_refl.
        rewrite R4, Nat.eqb_refl. auto.
      + intros h'. split; [intros [<-|[<-|[]]]; auto|]. intros K. apply E2L in K. simpl. destruct K; auto.
    - assert (He' := E2N _ _ He Hne). destruct (PE h e He') as [l L]. exists l. revert L. apply cycle_ext.
      + intros h'. split; [|intros K; apply E2N; auto]. intros K. rewrite EO; [exact K|]. apply ELT in K. tauto.
      + intros h' K. symmetry. apply SO. apply ELT in K. tauto. }
  assert (WF' : well_formed m').
  { apply wf_of_parts; subst m'; app_simpl.
    - unfold lens. app_simpl. lia.
    - intros h Hh. destruct (Nat.lt_ge_cases h N).
      + destruct (wf_vert _ W h) as (v & ? & ?); auto. exists v. rewrite VO by assumption. auto.
      + assert (h = N \/ h = N + 1) as [->| ->] by lia; eauto.
    - intros h Hh. destruct (Nat.lt_ge_cases h N).
      + destruct (wf_hedge _ W h) as (e & ? & ?); auto. exists e. rewrite EO by assumption. split; auto. lia.
      + exists (length (e_he m)). split; [lia|]. assert (h = N \/ h = N + 1) as [->| ->] by lia; auto.
    - intros h Hh. rewrite FF. destruct (inb h second); [exists (length (f_he m)); split; [lia|auto]|].
      destruct (Nat.eqb_spec h (N + 1)); [exists (length (f_he m)); split; [lia|auto]|].
      destruct (Nat.eqb_spec h N); [exists f; split; [lia|auto]|].
      destruct (wf_hface _ W h) as (g & ? & ?); [fold N; lia|]. exists g. split; [lia|auto].
    - intros g Hg. destruct (Nat.eq_dec g (length (f_he m))) as [->|Hn].
      + exists (N + 1). rewrite R20, Nat.eqb_refl. auto.
      + rewrite R20, R19. rewrite (proj2 (Nat.eqb_neq _ _) Hn).
        destruct (Nat.eqb_spec g f) as [->|Hgf]; [eauto|].
        destruct (wf_face _ W g) as [(h & Eh1 & Eh2) _]; [lia|]. exists h. rewrite rd_resize by lia. split; auto.
        assert (h < N) by (apply FLT in Eh2; tauto). rewrite FO by assumption.
        replace (inb h second) with false; auto. symmetry. apply inb_nIn. intros K.
        assert (rd (he_face m) h = Some f) by (apply I, IFS; auto). congruence.
    - intros e He. destruct (Nat.eq_dec e (length (e_he m))) as [->|Hn].
      + exists N. rewrite R18, Nat.eqb_refl. auto.
      + destruct (wf_edge _ W e) as [(h & Eh1 & Eh2) _]; [lia|]. exists h.
        rewrite R18. rewrite (proj2 (Nat.eqb_neq _ _) Hn). rewrite rd_resize by lia. split; auto.
        rewrite EO; auto. apply ELT in Eh2. tauto.
    - intros e He. destruct (Nat.eq_dec e (length (e_he m))) as [->|Hn].
      + exists w, u. intros h Hh. unfold joins, goes. app_simpl. apply E2L in Hh. destruct Hh as [->| ->]; auto.
      + destruct (wf_ends _ W e) as (a & b & J); [lia|]. exists a, b. intros h Hh. apply E2N in Hh; auto.
        assert (h < N) by (apply ELT in Hh; tauto). specialize (J h Hh).
        unfold joins, goes in *. app_simpl. rewrite TO, VO by assumption. exact J.
    - intros v Hv. destruct (wf_vertex _ W v Hv) as [(N1 & N2)|((h & Eh1 & Eh2) & _)].
      + left. split; auto. intros h Hh. rewrite R2, R1, Rv in Hh.
        destruct (h =? N + 1); [inversion Hh; subst v; eapply N2; eauto|].
        destruct (h =? N); [inversion Hh; subst v; eapply N2; eauto|]. eapply N2; eauto.
      + right. exists h. split; auto. rewrite VO; auto. apply rd_lt in Eh2. fold N in Lv. lia.
    - intros h g Hg. destruct (Nat.eq_dec g (length (f_he m))) as [->|Hn]; [eauto|].
      destruct (Nat.eq_dec g f) as [->|Hgf]; [eauto|].
      assert (Q : forall j, rd hf3 j = Some g <-> rd (he_face m) j = Some g).
      { intros j. rewrite FF. destruct (inb j second) eqn:Eb.
        - apply inb_In in Eb. assert (rd (he_face m) j = Some f) by (apply I, IFS; auto). split; congruence.
        - destruct (Nat.eqb_spec j (N + 1)) as [->|]; [rewrite rd_ge by lia; split; congruence|].
          destruct (Nat.eqb_spec j N) as [->|]; [rewrite rd_ge by lia; split; congruence|]. tauto. }
      apply Q in Hg. destruct (PF h g Hg) as [l L]. exists l. revert L. apply cycle_ext.
      + intros j. symmetry. apply Q.
      + intros j Hj. symmetry. apply NO.
        * apply FLT in Hj. tauto.
        * intros ->. assert (rd (he_face m) fl = Some f) by (apply I, IFS; auto). congruence.
        * intros ->. assert (rd (he_face m) gl = Some f) by (apply I, IFS; auto). congruence.
    - exact PSB.
    - exact POUT.
    - exact PIN. }
  exists m'. split; [reflexivity|]. split; [exact WF'|]. subst m'. app_simpl.
  split; [reflexivity|]. split; [lia|]. split; [lia|]. split; [reflexivity|].
  split; [|split; [|split; [|split; [|split; [|split; [|split; [|split; [|split]]]]]]]].
  - unfold face_halfedges. app_simpl. rewrite R20, R19. rewrite (proj2 (Nat.eqb_neq f (length (f_he m)))) by lia.
    rewrite Nat.eqb_refl. destruct CYF as (_ & CD & CL & _). apply circulate_linked; auto.
  - unfold face_halfedges. app_simpl. rewrite R20, Cf, Nat.eqb_refl.
    destruct CYS as (_ & CD & CL & _). apply circulate_linked; auto.
  - exact VN.
  - exact VN1.
  - rewrite Ce. exact EN.
  - rewrite Ce. exact EN1.
  - intros h Hh. fold N in Hh. split; [auto|]. split; [apply TO; exact Hh|]. split; [auto|]. intros Hf.
    assert (~ In h first /\ ~ In h second).
    { split; intros K; apply Hf; apply I, IFS; auto. }
    split.
    + apply NO; auto; intros ->; tauto.
    + rewrite FO by assumption. replace (inb h second) with false; auto. symmetry. apply inb_nIn. tauto.
  - intros g Hg Hgf. rewrite R20, R19. rewrite (proj2 (Nat.eqb_neq g (length (f_he m)))) by lia.
    rewrite (proj2 (Nat.eqb_neq _ _) Hgf). apply rd_resize. lia.
  - reflexivity.
  - intros e He. rewrite R18. rewrite (proj2 (Nat.eqb_neq e (length (e_he m)))) by lia. apply rd_resize. lia.
Qed.
