(** What one cut does to the faces, the other cells and the triangles, whatever
    the geometric tests say. *)
From Coq Require Import List Arith Bool Lia Permutation.
From Verif Require Import Lib Dispatch Tet Bsp BspSpec BspCut BspLoop BspGlue BspSplit BspCell BspRun.
Import ListNotations.

(** * make_loop passes no result twice *)
Lemma loop_from_det starts ends : forall k k' c r r', loop_from starts ends c k = Some r -> loop_from starts ends c k' = Some r' -> r = r'.
Proof.
  induction k as [|k IH]; intros [|k'] c r r'; cbn [loop_from]; try easy.
  destruct (nth_error ends c) as [e|]; [|easy]. destruct (find_start e starts 0) as [j|]; [|easy]. destruct (j =? 0); [congruence|].
  destruct (loop_from starts ends j k) as [a|] eqn:A; [|easy]. destruct (loop_from starts ends j k') as [b|] eqn:B; [|easy].
  intros [= <-] [= <-]. f_equal. eapply IH; eauto.
Qed.
Lemma loop_from_suffix starts ends : forall k c r p j q, loop_from starts ends c k = Some r -> r = p ++ j :: q ->
  j <> 0 /\ exists k', loop_from starts ends j k' = Some q.
Proof.
  induction k as [|k IH]; intros c r p j q; cbn [loop_from]; [easy|].
  destruct (nth_error ends c) as [e|]; [|easy]. destruct (find_start e starts 0) as [i|]; [|easy]. destruct (Nat.eqb_spec i 0) as [|N].
  - intros [= <-] H. now destruct p.
  - destruct (loop_from starts ends i k) as [a|] eqn:A; [|easy]. intros [= <-] H. destruct p as [|x p]; cbn in H; injection H as -> H.
    + subst a. split; auto. now exists k.
    + eapply IH; eauto.
Qed.
Lemma loop_from_nodup starts ends k r : loop_from starts ends 0 k = Some r -> NoDup (0 :: r).
Proof.
  intros E. constructor.
  - intros H. apply in_split in H as (p & q & ->). now destruct (loop_from_suffix _ _ _ _ _ p 0 q E eq_refl) as (N & _).
  - assert (H : forall p j q, r = p ++ j :: q -> ~ In j q).
    { intros p j q -> H. apply in_split in H as (a & b & ->).
      destruct (loop_from_suffix _ _ _ _ _ p j (a ++ j :: b) E eq_refl) as (_ & k1 & E1).
      destruct (loop_from_suffix _ _ _ _ _ (p ++ j :: a) j b E) as (_ & k2 & E2); [now rewrite <- app_assoc|].
      assert (Q := loop_from_det _ _ _ _ _ _ _ E1 E2). apply (f_equal (@length nat)) in Q. rewrite app_length in Q. cbn in Q. lia. }
    clear E. induction r as [|x r IH]; constructor; [apply (H []); auto|]. apply IH. intros p j q ->. apply (H (x :: p)). reflexivity.
Qed.
Lemma omap_nth_nodup {A B} (f : A -> B) (l : list A) is l' : omap (nth_error l) is = Some l' -> NoDup is -> NoDup (map f l) -> NoDup (map f l') /\ forall x, In x l' -> In x l.
Proof.
  intros E N M. apply omap_some in E. revert l' E N. induction is as [|i is IH]; intros l' E N; inversion E as [|? y ? t Ei Et]; subst; [split; [constructor|easy]|].
  inversion N as [|? ? Ni N']. subst. destruct (IH t Et N') as (I1 & I2). split.
  - cbn. constructor; auto. intros H. apply in_map_iff in H as (z & Ez & Hz). assert (X := Forall2_in_r _ _ _ _ Et Hz). destruct X as (j & Hj & Ej).
    assert (i = j); [|congruence]. apply (proj1 (NoDup_nth_error (map f l)) M).
    + rewrite map_length. now apply nth_error_lt in Ei.
    + rewrite !nth_error_map, Ei, Ej. cbn. now rewrite Ez.
  - intros x [<-|H]; [now apply nth_error_In in Ei|auto].
Qed.
Lemma make_loop_nodup cross rs ol : make_loop cross rs = Some ol -> NoDup (map fst rs) -> NoDup (map fst ol) /\ forall x, In x ol -> In x rs.
Proof.
  unfold make_loop. destruct (omap _ rs) as [starts|]; [|easy]. destruct (omap _ rs) as [ends|]; [|easy].
  destruct (loop_from _ _ _ _) as [is|] eqn:E; [|easy]. apply loop_from_nodup in E. intros H N. now apply (omap_nth_nodup fst _ _ _ H).
Qed.

(** * The vertices of a cut cycle *)
Lemma find_two_app va vb l : forall p x r, find_two va vb l = Some (p, x, r) -> l = p ++ x :: r.
Proof.
  induction l as [|y l IH]; intros p x r; cbn [find_two]; [easy|]. destruct (_ || _); [intros [= <- <- <-]; auto|].
  destruct (find_two va vb l) as [((p', x'), r')|]; [|easy]. intros [= <- <- <-]. now rewrite (IH _ _ _ eq_refl).
Qed.
Lemma find_two_or va vb l : forall p x r, find_two va vb l = Some (p, x, r) -> x = va \/ x = vb.
Proof.
  induction l as [|y l IH]; intros p x r; cbn [find_two]; [easy|].
  destruct (Nat.eqb_spec y va), (Nat.eqb_spec y vb); cbn [orb]; try (intros [= <- <- <-]; auto; fail).
  destruct (find_two va vb l) as [((p', x'), r')|]; [|easy]. intros [= <- <- <-]. now apply (IH _ _ _ eq_refl).
Qed.
Lemma insert_vertex_only e w l v : In v (insert_vertex_in e w l) -> v = w \/ In v l.
Proof.
  rewrite insert_put. intros H. apply in_flat_map in H as (h & Hh & H). unfold put in H. destruct h as (a, b). apply hes_in in Hh as (Ha & _).
  destruct (edge_eqb _ _); cbn in H; intuition congruence.
Qed.
Lemma ins_all_only cross : forall l w v, In v (ins_all l w cross) -> In v l \/ w <= v.
Proof.
  induction cross as [|e t IH]; intros l w v; cbn [ins_all]; auto. intros H. apply IH in H as [H|H]; [|right; lia].
  apply insert_vertex_only in H as [->|H]; auto.
Qed.
Lemma split_loop_in l va vb l1 l2 : NoDup l -> split_loop l va vb = Some (l1, l2) -> forall v, In v l <-> In v l1 \/ In v l2.
Proof.
  intros N. unfold split_loop. destruct (find_two va vb l) as [((p, a), t)|] eqn:E1; [|easy]. destruct (find_two va vb t) as [((q, b), r)|] eqn:E2; [|easy].
  assert (A := find_two_or _ _ _ _ _ _ E1). assert (B := find_two_or _ _ _ _ _ _ E2). apply find_two_app in E1, E2. subst l t.
  assert (AB : a <> b). { intros <-. apply NoDup_remove_2 in N. apply N. rewrite !in_app_iff. cbn. auto. }
  assert (Q : (if a =? va then (va, vb) else (vb, va)) = (a, b)). { destruct (Nat.eqb_spec a va) as [->|]; f_equal; intuition congruence. }
  rewrite Q. intros [= <- <-] v. cbn. rewrite !in_app_iff. cbn. rewrite !in_app_iff. cbn. intuition.
Qed.

(** * The loop over the outlines *)
Section Parts.
  Variables (o : oracle) (tid cid nv : nat) (s : nat -> Orientation) (cross : list (nat * nat)).
  (** the complex after the edges were split *)
  Variable (cx1 : bsp).
  Hypothesis L1 : length (loops cx1) = length (fdata cx1).
  Hypothesis N1 : forall f l, nth_error (loops cx1) f = Some l -> NoDup l.
  Notation len := (length (fdata cx1)).
  Definition poss (x : bface) : list nat := filter (fun u => fst (o_tri o tid u)) (ftris x).
  Definition negs (x : bface) : list nat := filter (fun u => snd (o_tri o tid u)) (ftris x).
  Record pinv (P : list nat) (cx : bsp) (pos neg : list nat) : Prop := Pinv {
    pi_nd : NoDup P;
    pi_lt : forall f, In f P -> f < len;
    pi_nv : nverts cx = nverts cx1;
    pi_ll : length (loops cx) = len + length P;
    pi_lf : length (fdata cx) = len + length P;
    pi_face : forall g, g < len + length P -> exists x l x' l', nth_error (fdata cx1) (parent cx1 P g) = Some x /\ nth_error (loops cx1) (parent cx1 P g) = Some l /\
      nth_error (fdata cx) g = Some x' /\ nth_error (loops cx) g = Some l' /\ plane x' = plane x /\ fid0 x' = fid0 x /\ cells x' = cells x /\ incl l' l /\
      (~ In (parent cx1 P g) P -> x' = x /\ l' = l) /\
      (In (parent cx1 P g) P -> In g pos /\ ~ In g neg /\ ftris x' = poss x \/ In g neg /\ ~ In g pos /\ ftris x' = negs x);
    pi_cover : forall k f l v, nth_error P k = Some f -> nth_error (loops cx1) f = Some l -> In v l ->
      exists g l', (g = f \/ g = len + k) /\ nth_error (loops cx) g = Some l' /\ In v l';
    pi_opp : forall k f, nth_error P k = Some f -> In f pos /\ In (len + k) neg \/ In f neg /\ In (len + k) pos;
    pi_pos : NoDup pos /\ forall g, In g pos -> g < len + length P;
    pi_neg : forall g, In g neg -> g < len + length P }.

  Lemma parent_app P f g : g < len + length P -> parent cx1 (P ++ [f]) g = parent cx1 P g.
  Proof. clear L1 N1. intros H. unfold parent. destruct (Nat.ltb_spec g len); auto. apply app_nth1. lia. Qed.
  Lemma parent_new P f : parent cx1 (P ++ [f]) (len + length P) = f.
  Proof. clear L1 N1.
    unfold parent. destruct (Nat.ltb_spec (len + length P) len); [lia|]. replace (len + length P - len) with (length P) by lia. rewrite app_nth2 by lia. now rewrite Nat.sub_diag.
  Qed.
  Lemma parent_old P f : f < len -> parent cx1 P f = f.
  Proof. clear L1 N1. intros H. unfold parent. now destruct (Nat.ltb_spec f len); [|lia]. Qed.
  Lemma parent_in P g : len <= g -> g < len + length P -> In (parent cx1 P g) P.
  Proof. clear L1 N1. intros A B. unfold parent. destruct (Nat.ltb_spec g len); [lia|]. apply nth_In. lia. Qed.

  Lemma pinv_step P cx pos neg za zb f cx' pos' neg' zh zh' : pinv P cx pos neg -> ~ In f P -> f < len -> ~ In f pos -> ~ In f neg ->
    split_one o tid cid nv s cross (cx, pos, neg, zh) (f, TwoVerts za zb) = Some (cx', pos', neg', zh') ->
    pinv (P ++ [f]) cx' pos' neg' /\ forall g, In g pos' \/ In g neg' -> In g pos \/ In g neg \/ g = f \/ g = len + length P.
  Proof.
    intros [ND LT NV LL LF FA CO OP [PN PL] NL] NP Lf N1p N2p. unfold split_one. cbn [snd fst].
    destruct (zero_id cross za) as [ga|]; [|easy]. destruct (zero_id cross zb) as [gb|]; [|easy].
    destruct (FA f) as (x & l & x' & l' & Ex & El & Ex' & El' & _ & _ & _ & _ & SAME & _); [lia|]. rewrite parent_old in * by auto. destruct (SAME NP) as (-> & ->). clear SAME.
    rewrite El'. destruct (split_loop l _ _) as [(l1, l2)|] eqn:SL; [|easy]. rewrite Ex'. assert (SI := split_loop_in _ _ _ _ _ (N1 _ _ El) SL).
    destruct (add_to_cell _ _ _ _) as [cd1|]; [|easy]. destruct (add_to_cell cd1 _ _ _) as [cd2|]; [|easy].
    destruct (set (loops cx) f l1) as [ls|] eqn:S1; [|easy]. apply set_Some in S1 as (_ & ->).
    destruct (set (fdata cx) f _) as [fd|] eqn:S2; [|easy]. apply set_Some in S2 as (_ & ->).
    set (b := ori_eqb _ Positive). intros [= <- <- <- _]. rewrite LL.
    assert (GP : forall g, In g (if b then pos ++ [len + length P] else pos ++ [f]) <-> In g pos \/ g = (if b then len + length P else f)).
    { intros g. destruct b; rewrite in_app_iff; cbn; intuition. }
    assert (GN : forall g, In g (if b then neg ++ [f] else neg ++ [len + length P]) <-> In g neg \/ g = (if b then f else len + length P)).
    { intros g. destruct b; rewrite in_app_iff; cbn; intuition. }
    assert (FR : ~ In (len + length P) pos /\ ~ In (len + length P) neg) by (split; intros H; [apply PL in H|apply NL in H]; lia).
    assert (NF : f <> len + length P) by lia.
    split; [|intros g; rewrite GP, GN; destruct b; intuition]. constructor; cbn [nverts loops fdata].
    - apply (Permutation_NoDup (Permutation_cons_append P f)). now constructor.
    - intros g H. apply in_app_iff in H as [H|[<-|[]]]; auto.
    - exact NV.
    - rewrite !app_length, upd_length. cbn. lia.
    - rewrite !app_length, upd_length. cbn. lia.
    - intros g Hg. rewrite app_length in Hg. cbn in Hg. destruct (Nat.eq_dec g (len + length P)) as [->|Ng].
      + rewrite parent_new. exists x, l, (set_tris x (if b then poss x else negs x)), l2. split; auto. split; auto.
        split; [rewrite nth_error_app2; rewrite upd_length, LF; [|lia]; rewrite Nat.sub_diag; cbn; unfold poss, negs; destruct b; reflexivity|].
        split; [rewrite nth_error_app2; rewrite upd_length, LL; [|lia]; now rewrite Nat.sub_diag|]. split; [reflexivity|]. split; [reflexivity|]. split; [reflexivity|].
        split; [intros v Hv; apply SI; auto|]. split; [intros Q; exfalso; apply Q, in_app_iff; cbn; auto|]. intros _. rewrite GP, GN. cbn [ftris set_tris]. destruct b; [left|right]; intuition.
      + assert (Hg' : g < len + length P) by lia. rewrite parent_app by auto. destruct (Nat.eq_dec g f) as [->|Nf].
        * rewrite parent_old by auto. exists x, l, (set_tris x (if b then negs x else poss x)), l1. split; auto. split; auto.
          split; [rewrite nth_error_app1 by (rewrite upd_length; lia); rewrite nth_error_upd_eq by lia; unfold poss, negs; destruct b; reflexivity|].
          split; [rewrite nth_error_app1 by (rewrite upd_length; lia); now rewrite nth_error_upd_eq by lia|]. split; [reflexivity|]. split; [reflexivity|]. split; [reflexivity|].
          split; [intros v Hv; apply SI; auto|]. split; [intros Q; exfalso; apply Q, in_app_iff; cbn; auto|]. intros _. rewrite GP, GN. cbn [ftris set_tris]. destruct b; [right|left]; intuition.
        * destruct (FA g Hg') as (y & m & y' & m' & Ey & Em & Ey' & Em' & A1 & A2 & A3 & A4 & A5 & A6). exists y, m, y', m'. split; auto. split; auto.
          split; [rewrite nth_error_app1 by (rewrite upd_length; lia); now rewrite nth_error_upd_neq by auto|].
          split; [rewrite nth_error_app1 by (rewrite upd_length; lia); now rewrite nth_error_upd_neq by auto|]. split; auto. split; auto. split; auto. split; auto.
          assert (NQ : parent cx1 P g <> f). { unfold parent. destruct (Nat.ltb_spec g len); auto. intros Q. apply NP. rewrite <- Q. apply nth_In. lia. }
          split; [intros Q; apply A5; intros Q'; apply Q, in_app_iff; auto|]. intros Q. apply in_app_iff in Q as [Q|[Q|[]]]; [|congruence].
          rewrite GP, GN. destruct (A6 Q) as [(B1 & B2 & B3)|(B1 & B2 & B3)]; [left|right]; (split; [auto|split; [|auto]]); destruct b; intuition.
    - intros k g m v Hk Hm Hv. destruct (Nat.lt_ge_cases k (length P)) as [H|H].
      + rewrite nth_error_app1 in Hk by auto. destruct (CO k g m v Hk Hm Hv) as (h & m' & A & B & C). exists h, m'. split; auto. split; auto.
        assert (h < len + length P) by (apply nth_error_lt in B; lia). rewrite nth_error_app1 by (rewrite upd_length; lia). rewrite nth_error_upd_neq; auto.
        intros <-. destruct A as [<-|A]; [|lia]. apply NP. now apply nth_error_In in Hk.
      + assert (k = length P) by (apply nth_error_lt in Hk; rewrite app_length in Hk; cbn in Hk; lia). subst k. rewrite nth_error_app2, Nat.sub_diag in Hk by auto. cbn in Hk. injection Hk as <-.
        assert (m = l) by congruence. subst m. apply SI in Hv as [Hv|Hv]; [exists f, l1|exists (len + length P), l2]; (split; [auto|split; [|auto]]).
        * rewrite nth_error_app1 by (rewrite upd_length; lia). now rewrite nth_error_upd_eq by lia.
        * rewrite nth_error_app2; rewrite upd_length, LL; [|lia]. now rewrite Nat.sub_diag.
    - intros k g Hk. rewrite !GP, !GN. destruct (Nat.lt_ge_cases k (length P)) as [H|H].
      + rewrite nth_error_app1 in Hk by auto. destruct (OP k g Hk) as [(A & B)|(A & B)]; auto.
      + assert (k = length P) by (apply nth_error_lt in Hk; rewrite app_length in Hk; cbn in Hk; lia). subst k. rewrite nth_error_app2, Nat.sub_diag in Hk by auto. cbn in Hk. injection Hk as <-. destruct b; auto.
    - rewrite app_length. cbn. split.
      + destruct b; apply (Permutation_NoDup (Permutation_cons_append pos _)); constructor; tauto.
      + intros g Hg. apply GP in Hg as [Hg|Hg]; [apply PL in Hg|destruct b]; lia.
    - rewrite app_length. cbn. intros g Hg. apply GN in Hg as [Hg|Hg]; [apply NL in Hg|destruct b]; lia.
  Qed.

  Lemma pinv_all rs : forall P cx pos neg zh cx' pos' neg' zh', pinv P cx pos neg -> NoDup (map fst rs) ->
    (forall r, In r rs -> is_two r = true -> fst r < len /\ ~ In (fst r) P /\ ~ In (fst r) pos /\ ~ In (fst r) neg) ->
    split_all o tid cid nv s cross (cx, pos, neg, zh) rs = Some (cx', pos', neg', zh') -> pinv (P ++ twos rs) cx' pos' neg'.
  Proof.
    induction rs as [|(f, r) rs IH]; intros P cx pos neg zh cx' pos' neg' zh' I N H; cbn [split_all].
    - intros [= <- <- <- _]. now rewrite app_nil_r.
    - destruct (split_one _ _ _ _ _ _ _ _) as [(((cx2, p2), n2), z2)|] eqn:E; [|easy]. inversion N as [|? ? Nf N']. subst. intros E'. destruct r as [za zb|l|b].
      + destruct (H (f, TwoVerts za zb)) as (A & B & C & D); [now left|reflexivity|]. destruct (pinv_step _ _ _ _ _ _ _ _ _ _ _ _ I B A C D E) as (I' & G).
        replace (P ++ twos ((f, TwoVerts za zb) :: rs)) with ((P ++ [f]) ++ twos rs) by (rewrite <- app_assoc; reflexivity).
        apply (IH _ _ _ _ z2 cx' pos' neg' zh' I' N'); [|exact E']. intros r Hr Tr. destruct (H r) as (A' & B' & C' & D'); [now right|auto|].
        assert (fst r <> f) by (intros Q; apply Nf; rewrite <- Q; now apply in_map). split; auto. split; [rewrite in_app_iff; cbn; intuition|].
        cbn [fst] in *. split; intros Q; [assert (X := G _ (or_introl Q))|assert (X := G _ (or_intror Q))]; intuition lia.
      + cbn in E. injection E as <- <- <- <-. apply (fun X => IH _ _ _ _ _ _ _ _ _ I N' X E'). intros r Hr. apply H. now right.
      + cbn in E. injection E as <- <- <- <-. apply (fun X => IH _ _ _ _ _ _ _ _ _ I N' X E'). intros r Hr. apply H. now right.
  Qed.
End Parts.

(** * The new cell *)
Definition hand (c new : nat) (x : bface) : bface :=
  BFace (move_cell c new (fst (cells x)), move_cell c new (snd (cells x))) (ftris x) (plane x) (fid0 x).
Lemma move_handed c new x : move_cell c new x = handed c new x.
Proof. unfold move_cell, handed, cell_is. destruct x as [a|]; auto. destruct (Nat.eq_dec a c) as [->|N]; [now rewrite Nat.eqb_refl|]. now destruct (Nat.eqb_spec a c). Qed.
Lemma move_faces_res c new fs : forall fd fd', NoDup fs -> move_faces fd c new fs = Some fd' -> length fd' = length fd /\
  forall g x, nth_error fd g = Some x -> nth_error fd' g = Some (if in_dec Nat.eq_dec g fs then hand c new x else x).
Proof.
  induction fs as [|f fs IH]; intros fd fd' N; cbn [move_faces].
  - intros [= <-]. split; auto.
  - destruct (nth_error fd f) as [x|] eqn:Ex; [|easy]. destruct (set fd f _) as [fd1|] eqn:S; [|easy]. apply set_Some in S as (L & ->). intros E.
    inversion N as [|? ? Nf N']. subst. destruct (IH _ _ N' E) as (A & B). rewrite upd_length in A. split; auto. intros g y Ey. destruct (Nat.eq_dec g f) as [->|Ng].
    + rewrite (B f (hand c new x)) by (now apply nth_error_upd_eq). assert (y = x) by congruence. subst y.
      destruct (in_dec Nat.eq_dec f fs); [contradiction|]. destruct (in_dec Nat.eq_dec f (f :: fs)) as [|Q]; auto. exfalso. apply Q. now left.
    + rewrite (B g y) by (now rewrite nth_error_upd_neq by auto). f_equal. destruct (in_dec Nat.eq_dec g fs) as [i|n], (in_dec Nat.eq_dec g (f :: fs)) as [i'|n']; auto.
      * exfalso. apply n'. now right.
      * destruct i'; congruence.
Qed.
Lemma split_faces_fst s cx c fs rs : split_faces s cx c fs = Some rs -> map fst rs = fs.
Proof.
  unfold split_faces. intros H. apply omap_some in H. induction H as [|f r fs rs E F IH]; auto. cbn. rewrite IH. f_equal.
  destruct (nth_error (fdata cx) f); [|easy]. destruct (nth_error (loops cx) f); [|easy]. destruct (split_face_verts _ _ _ _); [|easy]. now injection E as <-.
Qed.
Lemma map_fst_filter_nodup {A B} (p : A * B -> bool) l : NoDup (map fst l) -> NoDup (map fst (filter p l)).
Proof.
  induction l as [|a l IH]; cbn; auto. intros N. inversion N as [|? ? Na N']. subst. destruct (p a); auto. cbn. constructor; auto.
  intros H. apply Na. apply in_map_iff in H as (b & E & Hb). apply filter_In in Hb as (Hb & _). rewrite <- E. now apply in_map.
Qed.
Lemma fst_inj {A B} (l : list (A * B)) x y : NoDup (map fst l) -> In x l -> In y l -> fst x = fst y -> x = y.
Proof.
  induction l as [|a l IH]; cbn; [easy|]. intros N. inversion N as [|? ? Na N']. subst. intros [->|Hx] [->|Hy] E; auto.
  - exfalso. apply Na. rewrite E. now apply in_map.
  - exfalso. apply Na. rewrite <- E. now apply in_map.
Qed.
Lemma map_fst_filter_disj {A B} (p q : A * B -> bool) l : NoDup (map fst l) -> (forall x, p x = true -> q x = true -> False) ->
  forall x, In x l -> p x = true -> ~ In (fst x) (map fst (filter q l)).
Proof.
  intros N D x Hx Px H. apply in_map_iff in H as (y & E & Hy). apply filter_In in Hy as (Hy & Qy). assert (y = x) by (apply (fst_inj l); auto). subst y. eapply D; eauto.
Qed.
Lemma nth_in_cycle cx f l : nth_error (loops cx) f = Some l -> cycle_of cx f = l.
Proof. intros E. unfold cycle_of. now apply nth_error_nth. Qed.

Theorem split_cell_parts o n tri cx c d p tid cx' : complex cx -> nth_error (cdata cx) c = Some d -> last_error (inner d) = Some p ->
  last_error (filter (o_coplanar o cx p) (inner d)) = Some tid -> split_cell o n tri cx c = Some cx' ->
  cx' = Bsp (nverts cx) (loops cx) (fdata cx) (upd (cdata cx) c (BCell (cfaces d) (filter (fun t => negb (o_coplanar o cx p t)) (inner d)))) \/
  exists P, parts o n tri tid c (filter (o_coplanar o cx p) (inner d)) (filter (fun t => negb (o_coplanar o cx p t)) (inner d)) cx cx' P.
Proof.
  intros C Ed Ep Et. unfold split_cell. rewrite Ed, Ep, Et. set (rest := filter (fun t => negb _) (inner d)). set (cop0 := filter (o_coplanar o cx p) (inner d)).
  destruct (set (cdata cx) c _) as [cd|] eqn:Es; [|easy]. apply set_Some in Es as (Lc & ->). cbn zeta. cbn [loops nverts fdata cdata].
  set (q0 := Bsp (nverts cx) (loops cx) (fdata cx) _). set (s := o_side o q0 tid).
  hd_case ls. match goal with |- context [if ?b then None else _] => destruct b; [easy|] end. set (cross := filter _ (cell_edges ls)).
  match goal with |- match ?e with _ => _ end = _ -> _ => destruct e as [rs|] eqn:Ers; [|easy] end. apply split_faces_fst in Ers.
  match goal with |- match ?e with _ => _ end = _ -> _ => destruct e as [ol|] eqn:Eol; [|easy] end. hd_case poly.
  set (cop := filter (fun t => o_poly o q0 t poly) cop0). destruct cop as [|ct cts] eqn:Ecop; [intros [= <-]; now left|]. rewrite <- Ecop. clear ct cts Ecop.
  set (s' := fun v : nat => _). match goal with |- context [split_all _ _ _ _ _ _ (?a, _, _, _) _] => set (cx1 := a) end.
  destruct (split_all _ _ _ _ _ _ _ _) as [(((cx2, pos), neg), zh)|] eqn:E; [|easy].
  assert (IN := split_all_inner _ _ _ _ _ _ _ _ _ _ _ _ _ _ _ E).
  assert (NR : NoDup (map fst rs)). { rewrite Ers. assert (X := cx_once _ C c). unfold cell_faces in X. now rewrite Ed in X. }
  assert (NO := map_fst_filter_nodup is_outline rs NR). destruct (make_loop_nodup _ _ _ Eol NO) as (NL & IL).
  assert (HF : forall f, In f (cfaces d) -> f < length (fdata cx)).
  { intros f Hf. assert (X := proj1 (cx_inc _ C c f)). unfold cell_faces in X. rewrite Ed in X. apply X in Hf. unfold face_cells in Hf.
    destruct (nth_error (fdata cx) f) eqn:Q; [now apply nth_error_lt in Q|contradiction]. }
  assert (LL1 : length (loops cx1) = length (fdata cx1)) by (cbn; rewrite split_edges_map, map_length; apply (cx_len _ C)).
  assert (CY : forall f l, nth_error (loops cx) f = Some l -> nth_error (loops cx1) f = Some (ins_all l (nverts cx) cross)).
  { intros f l El. cbn. now rewrite split_edges_map, nth_error_map, El. }
  assert (YC : forall f l, nth_error (loops cx1) f = Some l -> exists l0, nth_error (loops cx) f = Some l0 /\ l = ins_all l0 (nverts cx) cross).
  { intros f l El. cbn in El. rewrite split_edges_map, nth_error_map in El. destruct (nth_error (loops cx) f) as [l0|]; [|easy]. exists l0. split; auto. now injection El. }
  assert (ND1 : forall f l, nth_error (loops cx1) f = Some l -> NoDup l).
  { intros f l El. apply YC in El as (l0 & E0 & ->). destruct (cx_loop _ C _ _ E0) as (A & B & D). now apply ins_all_nodup. }
  assert (PI : pinv o tid cx1 (twos ol) cx2 pos neg).
  { change (twos ol) with ([] ++ twos ol). apply (pinv_all o tid c (nverts cx) s' cross cx1 LL1 ND1 ol [] cx1 (map fst (filter is_pos rs)) (map fst (filter is_neg rs)) [] cx2 pos neg zh).
    - assert (IR : forall q g, In g (map fst (filter q rs)) -> g < length (fdata cx1)).
      { intros q g Hg. apply in_map_iff in Hg as (r & <- & Hr). apply filter_In in Hr as (Hr & _). apply HF. rewrite <- Ers. now apply in_map. }
      constructor; auto; cbn [length]; rewrite ?Nat.add_0_r; auto; try easy.
      + constructor.
      + intros g Hg. rewrite parent_old by auto. destruct (nth_error_ex _ _ Hg) as (x & Ex). rewrite <- LL1 in Hg. destruct (nth_error_ex _ _ Hg) as (l & El).
        exists x, l, x, l. repeat split; auto. { intros v Hv. exact Hv. } contradiction.
      + intros [|k] f l v; easy.
      + intros [|k] f; easy.
      + split; [now apply map_fst_filter_nodup|apply IR].
      + intros g. rewrite ?Nat.add_0_r. apply IR.
    - exact NL.
    - intros r Hr Tr. apply IL in Hr. apply filter_In in Hr as (Hr & _). split; [apply HF; rewrite <- Ers; now apply in_map|]. split; [easy|]. split.
      + apply (map_fst_filter_disj is_two is_pos rs NR); auto. intros (f, [a b|l|b]); easy.
      + apply (map_fst_filter_disj is_two is_neg rs NR); auto. intros (f, [a b|l|b]); easy.
    - exact E. }
  assert (PC : forall f, In f (twos ol) -> In f (cell_faces cx c)).
  { intros f Hf. unfold twos in Hf. apply in_map_iff in Hf as (r & <- & Hr). apply filter_In in Hr as (Hr & _). apply IL, filter_In in Hr as (Hr & _). unfold cell_faces. rewrite Ed, <- Ers. now apply in_map. }
  destruct PI as [PD PLT PNV PLL PLF PF PCO POP [PPN PPL] PNL]. change (fdata cx1) with (fdata cx) in *. set (P := twos ol) in *. clearbody P. set (len := length (fdata cx)) in *.
  assert (LC2 : length (cdata cx2) = length (cdata cx)). { apply (f_equal (@length _)) in IN. unfold inners in IN. rewrite !map_length in IN. cbn in IN. now rewrite upd_length in IN. }
  unfold add_separating. destruct zh as [|z zh]; [easy|]. rewrite PLL, LC2. set (new := length (cdata cx)).
  set (sep := BFace (Some new, Some c) _ _ _). destruct (move_faces _ _ _ _) as [fd|] eqn:Em; [|easy].
  destruct (move_faces_res _ _ _ _ _ PPN Em) as (Lfd & FD). rewrite app_length, PLF in Lfd. cbn [length] in Lfd.
  destruct (nth_error (cdata cx2) c) as [d2|] eqn:Ed2; [|easy]. destruct (set (cdata cx2) c _) as [cd3|] eqn:S3; [|easy]. apply set_Some in S3 as (_ & ->).
  match goal with |- context [o_cell o ?qq c] => set (q := qq) end.
  destruct (set_inner _ new _) as [cd1|] eqn:S1; [|easy]. destruct (set_inner cd1 _ _) as [cd2|] eqn:S2; [|easy]. intros [= <-]. right. exists P.
  assert (PR : parent cx1 P = parent cx P) by reflexivity.
  assert (FG : forall g, g < len + length P -> exists x l x' l', nth_error (fdata cx) (parent cx P g) = Some x /\ nth_error (loops cx) (parent cx P g) = Some l /\
    nth_error fd g = Some x' /\ nth_error (loops cx2) g = Some l' /\ plane x' = plane x /\ fid0 x' = fid0 x /\
    cells x' = (if in_dec Nat.eq_dec g pos then cells (hand c new x) else cells x) /\ (forall v, In v l' -> v < nverts cx -> In v l) /\
    (~ In (parent cx P g) P -> ftris x' = ftris x /\ l' = ins_all l (nverts cx) cross) /\
    (In (parent cx P g) P -> In g pos /\ ~ In g neg /\ ftris x' = poss o tid x \/ In g neg /\ ~ In g pos /\ ftris x' = negs o tid x)).
  { intros g Hg. destruct (PF g Hg) as (x & l & x' & l' & Ex & El & Ex' & El' & A1 & A2 & A3 & A4 & A5 & A6). change (fdata cx1) with (fdata cx) in Ex. rewrite PR in *. apply YC in El as (l0 & El & ->).
    exists x, l0, (if in_dec Nat.eq_dec g pos then hand c new x' else x'), l'. split; auto. split; auto.
    split; [apply FD; rewrite nth_error_app1 by lia; auto|]. split; auto. split; [destruct (in_dec _ _ _); auto|]. split; [destruct (in_dec _ _ _); auto|].
    split; [destruct (in_dec _ _ _); auto; unfold hand; cbn [cells]; now rewrite A3|]. split; [intros v Hv Lv; apply A4, ins_all_only in Hv as [Hv|Hv]; auto; lia|].
    split; [intros Q; destruct (A5 Q) as (-> & ->); destruct (in_dec _ _ _); auto|]. intros Q. destruct (in_dec _ _ _); cbn [ftris hand]; auto. }
  constructor; cbn [fdata]; fold len; fold new.
  - auto.
  - rewrite Lfd. lia.
  - intros g Hg. destruct (FG g Hg) as (x & l & x' & l' & Ex & El & Ex' & El' & A1 & A2 & A3 & _). exists x, x'. split; auto. split; auto. split; auto. split; auto.
    rewrite A3. destruct (in_dec _ _ _); auto. right. cbn [cells hand]. now rewrite !move_handed.
  - intros f x x' NP Ex Ex'. assert (Lf := nth_error_lt _ _ _ Ex). fold len in Lf. destruct (FG f) as (y & l & y' & l' & Ey & _ & Ey' & _ & _ & _ & _ & _ & A5 & _); [lia|].
    assert (Q : parent cx P f = f) by (apply parent_old; exact Lf). rewrite Q in *. destruct (A5 NP) as (R & _). congruence.
  - intros k f x Hk Ex. assert (Hf := nth_error_In _ _ Hk). assert (Lf := PLT f Hf). assert (Lk := nth_error_lt _ _ _ Hk).
    assert (Qf : parent cx P f = f) by (apply parent_old; exact Lf).
    assert (Qk : parent cx P (len + k) = f). { unfold parent. fold len. destruct (Nat.ltb_spec (len + k) len); [lia|]. replace (len + k - len) with k by lia. now apply nth_error_nth. }
    destruct (FG f) as (y & l & y' & l' & Ey & _ & Ey' & _ & _ & _ & C1 & _ & _ & A1); [lia|]. destruct (FG (len + k)) as (z0 & m & z' & m' & Ez & _ & Ez' & _ & _ & _ & C2 & _ & _ & A2); [lia|].
    rewrite Qf in *. rewrite Qk in *. assert (y = x) by congruence. assert (z0 = x) by congruence. subst y z0. specialize (A1 Hf). specialize (A2 Hf).
    assert (HC : fst (cells x) = Some c \/ snd (cells x) = Some c).
    { apply PC, (cx_inc _ C) in Hf. unfold face_cells in Hf. rewrite Ex in Hf. apply in_app_iff in Hf as [H|H]; [left; destruct (fst (cells x))|right; destruct (snd (cells x))]; cbn in H; intuition congruence. }
    assert (HM : forall g w, nth_error fd g = Some w -> cells w = cells (hand c new x) -> In new (match nth_error fd g with Some x => match fst (cells x) with Some a => [a] | None => [] end ++ match snd (cells x) with Some b => [b] | None => [] end | None => [] end)).
    { intros g w -> ->. cbn [hand cells fst snd]. unfold move_cell, cell_is. apply in_app_iff. destruct HC as [-> | ->]; [left|right]; rewrite Nat.eqb_refl; now left. }
    assert (HK : forall g w, nth_error fd g = Some w -> cells w = cells x -> In c (match nth_error fd g with Some x => match fst (cells x) with Some a => [a] | None => [] end ++ match snd (cells x) with Some b => [b] | None => [] end | None => [] end)).
    { intros g w -> ->. apply in_app_iff. destruct HC as [-> | ->]; [left|right]; now left. }
    unfold face_cells. cbn [fdata]. destruct (POP k f Hk) as [(H1 & H2)|(H1 & H2)].
    + exists f, (len + k), y', z'. split; auto. split; auto. split; auto. destruct A1 as [(P1 & P2 & P3)|(P1 & P2 & P3)]; [|contradiction]. destruct A2 as [(R1 & R2 & R3)|(R1 & R2 & R3)]; [contradiction|].
      destruct (in_dec Nat.eq_dec f pos); [|contradiction]. destruct (in_dec Nat.eq_dec (len + k) pos); [contradiction|]. split; [now apply (HM _ y')|]. split; [now apply (HK _ z')|]. auto.
    + exists (len + k), f, z', y'. split; auto. split; auto. split; auto. destruct A1 as [(P1 & P2 & P3)|(P1 & P2 & P3)]; [contradiction|]. destruct A2 as [(R1 & R2 & R3)|(R1 & R2 & R3)]; [|contradiction].
      destruct (in_dec Nat.eq_dec f pos); [contradiction|]. destruct (in_dec Nat.eq_dec (len + k) pos); [|contradiction]. split; [now apply (HM _ z')|]. split; [now apply (HK _ y')|]. auto.
  - intros g v Hg Lv Hv. destruct (FG g Hg) as (x & l & x' & l' & Ex & El & Ex' & El' & _ & _ & _ & A & _). rewrite (nth_in_cycle cx _ _ El). apply A; auto.
    unfold cycle_of in Hv. cbn [loops] in Hv. rewrite app_nth1 in Hv by (rewrite PLL; exact Hg). now rewrite (nth_error_nth _ _ _ El') in Hv.
  - intros f v Hv. assert (Lf : f < len).
    { destruct (Nat.lt_ge_cases f len); auto. unfold cycle_of in Hv. rewrite nth_overflow in Hv; [contradiction|]. rewrite (cx_len _ C). auto. }
    destruct (FG f) as (x & l & x' & l' & Ex & El & Ex' & El' & _ & _ & _ & _ & A & _); [lia|]. assert (Qf : parent cx P f = f) by (apply parent_old; exact Lf). rewrite Qf in *.
    rewrite (nth_in_cycle cx _ _ El) in Hv. apply (ins_all_in cross _ (nverts cx)) in Hv. destruct (in_dec Nat.eq_dec f P) as [Hf|Hf].
    + apply In_nth_error in Hf as (k & Hk). destruct (PCO k f _ v Hk (CY _ _ El) Hv) as (g & m & [->| ->] & Em' & Hm).
      * exists f. split; [lia|]. split; auto. unfold cycle_of; cbn [loops]; rewrite app_nth1 by (now apply nth_error_lt in Em'); now rewrite (nth_error_nth _ _ _ Em').
      * exists (len + k). assert (Lk := nth_error_lt _ _ _ Hk). split; [lia|]. split; [|unfold cycle_of; cbn [loops]; rewrite app_nth1 by (now apply nth_error_lt in Em'); now rewrite (nth_error_nth _ _ _ Em')].
        unfold parent. fold len. destruct (Nat.ltb_spec (len + k) len); [lia|]. replace (len + k - len) with k by lia. now apply nth_error_nth.
    + destruct (A Hf) as (_ & ->). exists f. split; [lia|]. split; auto. unfold cycle_of; cbn [loops]; rewrite app_nth1 by (now apply nth_error_lt in El'); now rewrite (nth_error_nth _ _ _ El').
  - exists q0, poly. split; auto. split; auto. rewrite (FD _ sep).
    + destruct (in_dec _ _ _) as [Q|]; auto. apply PPL in Q. lia.
    + rewrite nth_error_app2 by lia. rewrite PLF, Nat.sub_diag. reflexivity.
  - exists q. split; [reflexivity|]. split; [reflexivity|]. cbn [cdata].
    assert (FC : forall cd c l cd', set_inner cd c l = Some cd' -> map cfaces cd' = map cfaces cd).
    { intros cd c0 l cd' H. unfold set_inner in H. destruct (nth_error cd c0) eqn:Q; [|easy]. apply set_Some in H as (_ & ->). rewrite map_upd. apply upd_same. now rewrite nth_error_map, Q. }
    split; [now rewrite (FC _ _ _ _ S2), (FC _ _ _ _ S1)|]. apply set_inner_inner in S1 as (_ & S1). apply set_inner_inner in S2 as (_ & S2). rewrite S2, S1.
    assert (I2 : nth_error (inners cx2) c = Some (inner d2)) by (unfold inners; now rewrite nth_error_map, Ed2).
    assert (EI : inner d2 = rest). { rewrite IN in I2. unfold inners in I2. cbn [cdata cx1] in I2. rewrite map_upd in I2. cbn [inner] in I2. rewrite nth_error_upd_eq in I2 by (now rewrite map_length). congruence. }
    rewrite EI. unfold inners in IN. cbn [cdata cx1] in IN. rewrite map_app, map_upd. cbn [map inner]. rewrite IN, map_upd. cbn [inner]. rewrite ?EI, upd_upd.
    assert (LN : new = length (upd (map inner (cdata cx)) c rest)) by (now rewrite upd_length, map_length).
    rewrite LN at 1. rewrite upd_last. rewrite upd_app by (rewrite upd_length, map_length; auto). now rewrite upd_upd.
Qed.
