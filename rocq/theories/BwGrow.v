(** Insertion of a point: the cavity the code collects is the region of the
    specification. *)
From Coq Require Import List Arith Bool NArith ZArith Lia.
From Verif Require Import Lib Tet TetSpec TetProofs BwSpec BwBase.
Import ListNotations.

Lemma nodup_snoc {A} (l : list A) a : NoDup l -> ~ In a l -> NoDup (l ++ [a]).
Proof.
  intros N H. rewrite <- (app_nil_r l) in N. apply NoDup_Add with (a := a) (l := l); [|rewrite app_nil_r in N; auto].
  rewrite <- (app_nil_r l) at 1. apply Add_app.
Qed.
Lemma bubble_length n : forall l, length (fst (bubble n l)) = length l.
Proof.
  induction n as [|n IH]; intros [|a [|b t]]; try reflexivity. cbn [bubble].
  destruct (b <? a); [specialize (IH (a :: t))|specialize (IH (b :: t))]; destruct (bubble n _) as [r c]; cbn in *; lia.
Qed.
Lemma bubble_sort_length n : forall l, length (fst (bubble_sort n l)) = length l.
Proof.
  induction n as [|n IH]; intros l; [reflexivity|]. cbn [bubble_sort]. pose proof (bubble_length n l) as B.
  destruct (bubble n l) as [l1 c]. cbn in B. destruct (c =? 0); [exact B|]. specialize (IH l1).
  destruct (bubble_sort n l1) as [l2 c']. cbn in *. congruence.
Qed.
Lemma insphere_total o3 isp a b c d e : exists s, insphere_s o3 isp a b c d e = Some s.
Proof.
  unfold insphere_s. destruct (negb _); [eauto|]. pose proof (bubble_sort_length 5 [a; b; c; d; e]) as L.
  destruct (bubble_sort 5 [a; b; c; d; e]) as [l n]. cbn in L. destruct l as [|? [|? [|? [|? [|? [|]]]]]]; try discriminate L.
  eauto.
Qed.

(** * The conflict test looks at vertices and neighbours only *)
Definition enq_view (o3 : sign3) (isp : sign4) (m : tetmesh) (pid u : nat) : option bool :=
  match dat m u with
  | Some [p0; p1; p2; p3] =>
    if negb (p3 =? n_points m) then match insphere_s o3 isp p0 p1 p2 p3 pid with Some s => Some (s <? 0)%Z | None => None end
    else let ori := o3 p0 p1 p2 pid in
      if (ori <? 0)%Z then Some true
      else if (ori =? 0)%Z then
        match nei_at m (Some u) 3 with
        | Some nf =>
          match tet nf with
          | Some y => match dat m y with
            | Some [q0; q1; q2; q3] => match insphere_s o3 isp q0 q1 q2 q3 pid with Some s => Some (s <? 0)%Z | None => None end
            | _ => None end
          | None => None end
        | None => None end
      else Some false
  | _ => None
  end.
Lemma enqueue_view o3 isp m pid u : enqueue o3 isp m pid (Some u) = enq_view o3 isp m pid u.
Proof.
  unfold enqueue, enq_view, is_hull_tet, nei_at, tet_at, dat. destruct (nth_error (tets m) u) as [x|]; [|reflexivity]. cbn [option_map].
  destruct (data x) as [|p0 [|p1 [|p2 [|p3 [|]]]]]; try reflexivity. cbn [nth_error].
  destruct (negb (p3 =? n_points m)); [reflexivity|]. cbv zeta. destruct (_ <? 0)%Z; [reflexivity|]. destruct (_ =? 0)%Z; [|reflexivity].
  match goal with |- match ?o with _ => _ end = _ => destruct o as [nf|] end; [|reflexivity]. destruct (tet nf) as [y|]; [|reflexivity].
  destruct (nth_error (tets m) y) as [z|]; [|reflexivity]. cbn. destruct (data z) as [|? [|? [|? [|? [|]]]]]; reflexivity.
Qed.
Lemma enqueue_skin o3 isp m m' pid u : skin m m' -> enqueue o3 isp m' pid (Some u) = enqueue o3 isp m pid (Some u).
Proof.
  intros S. rewrite !enqueue_view. unfold enq_view. rewrite (sk_d _ _ S), (sk_n _ _ S), (sk_nei _ _ S).
  destruct (dat m u) as [[|p0 [|p1 [|p2 [|p3 [|]]]]]|]; try reflexivity.
  destruct (negb _); [reflexivity|]. cbv zeta. destruct (_ <? 0)%Z; [reflexivity|]. destruct (_ =? 0)%Z; [|reflexivity].
  destruct (nei_at m (Some u) 3) as [nf|]; [|reflexivity]. destruct (tet nf) as [y|]; [|reflexivity]. now rewrite (sk_d _ _ S).
Qed.

Section Grow.
  Variables (m : tetmesh) (o3 : sign3) (isp : sign4) (pid : nat).
  Hypothesis G : good m.

  Lemma enqueue_total u : live m u -> exists b, enqueue o3 isp m pid (Some u) = Some b.
  Proof.
    intros Lu. rewrite enqueue_view. unfold enq_view. destruct (dat_ex m u (live_lt m u Lu)) as (l & El). rewrite El.
    pose proof (good_dat m G _ _ El) as L4. destruct l as [|p0 [|p1 [|p2 [|p3 [|]]]]]; try discriminate L4.
    destruct (negb _); [destruct (insphere_total o3 isp p0 p1 p2 p3 pid) as (s & ->); eauto|]. cbv zeta.
    destruct (_ <? 0)%Z; [eauto|]. destruct (_ =? 0)%Z; [|eauto].
    destruct (nei_at m (Some u) 3) as [nf|] eqn:En.
    - destruct (nei_ver_lt m G u 3 nf Lu En) as (_ & _ & y & Ey & Ly). rewrite Ey.
      destruct (dat_ex m y (live_lt m y Ly)) as (l & Ed). rewrite Ed. pose proof (good_dat m G _ _ Ed) as L4'.
      destruct l as [|q0 [|q1 [|q2 [|q3 [|]]]]]; try discriminate L4'. destruct (insphere_total o3 isp q0 q1 q2 q3 pid) as (s & ->). eauto.
    - exfalso. destruct Lu as (x & Ex & _). rewrite (nei_at_some m u 3 x Ex) in En. apply nth_error_None in En.
      destruct (g_size m G u x Ex). lia.
  Qed.
  Lemma nei_ex t k : live m t -> k < 4 -> exists g u, nei_at m (Some t) k = Some g /\ tet g = Some u /\ live m u.
  Proof.
    intros Lt K. destruct Lt as (x & Ex & Em). destruct (nth_error_ex (nei x) k) as (g & Eg); [destruct (g_size m G t x Ex); lia|].
    assert (En : nei_at m (Some t) k = Some g) by (rewrite (nei_at_some m t k x Ex); auto).
    destruct (nei_ver_lt m G t k g ltac:(exists x; auto) En) as (_ & _ & u & Eu & Lu). eauto 6.
  Qed.

  (** * The tetrahedra of the located point *)
  Record hot (m' : tetmesh) (cave : list nat) : Prop := Hot {
    ht_skin : skin m m'; ht_nd : NoDup cave; ht_live : forall t, In t cave -> live m t;
    ht_in : forall t, In t cave -> msk m' t = Some 1%N;
    ht_out : forall t, ~ In t cave -> msk m' t = msk m t }.
  Lemma hot_nil : hot m [].
  Proof. constructor; auto using skin_refl; [constructor|intros t []|intros t []]. Qed.
  Lemma infect_hot m' cave t : hot m' cave -> live m t -> ~ In t cave ->
    exists m'', infect m' (Some t) = Some m'' /\ hot m'' (cave ++ [t]).
  Proof.
    intros [S ND L I O] Lt N. pose proof (O t N) as E. apply live_msk in Lt. rewrite Lt in E.
    destruct (set_mask_view (fun k => N.lor k 1) m' t 0%N E) as (m'' & H & V). exists m''. split; [exact H|].
    constructor.
    - eapply skin_trans; eauto. eapply only_mask_skin; eauto.
    - apply nodup_snoc; auto.
    - intros s Hs. apply in_app_or in Hs. destruct Hs as [Hs|[<-|[]]]; auto. now apply live_msk.
    - intros s Hs. destruct (Nat.eq_dec s t) as [->|Ne]; [apply (om_eq _ _ _ _ V)|]. rewrite (om_neq _ _ _ _ V) by auto.
      apply in_app_or in Hs. destruct Hs as [Hs|[<-|[]]]; auto. congruence.
    - intros s Hs. assert (~ In s cave /\ s <> t) as (N1 & N2) by (split; intros X; apply Hs, in_or_app; [left|right; left]; auto).
      rewrite (om_neq _ _ _ _ V) by auto. auto.
  Qed.

  (** Turning around the edge. *)
  Definition nx (f : triface) : triface := match fnext m f with Some g => g | None => f end.
  Definition tid (f : triface) : nat := match tet f with Some t => t | None => 0 end.
  Definition code (f : triface) : nat := 12 * tid f + ver f.
  Lemma nx_ok f : lv m f -> fnext m f = Some (nx f) /\ lv m (nx f).
  Proof. intros H. destruct (fnext_lv m G f H) as (f' & g & _ & _ & E & Lg). unfold nx. rewrite E. auto. Qed.
  Lemma lv_tid f : lv m f -> tet f = Some (tid f) /\ live m (tid f).
  Proof. intros (t & E & Lt & _). unfold tid. rewrite E. auto. Qed.
  Lemma code_lt f : lv m f -> code f < 12 * length (tets m).
  Proof. intros (t & E & Lt & V). unfold code, tid. rewrite E. apply live_lt in Lt. lia. Qed.
  Lemma code_inj f g : lv m f -> lv m g -> code f = code g -> f = g.
  Proof.
    intros (t & E & _ & V) (u & F & _ & W) H. unfold code, tid in H. rewrite E, F in H. destruct f as [ft fv], g as [gt gv]. cbn in *. subst.
    assert (t = u) by lia. assert (fv = gv) by lia. now subst.
  Qed.
  Lemma nx_inj f g : lv m f -> lv m g -> nx f = nx g -> f = g.
  Proof. intros Lf Lg E. destruct (nx_ok f Lf) as (A & _), (nx_ok g Lg) as (B & _). eapply fnext_inj; eauto. congruence. Qed.
  Lemma it_lv k f : lv m f -> lv m (it nx k f).
  Proof. apply (it_X nx (lv m)). intros x Hx. now apply nx_ok. Qed.
  Lemma it_corners k f a b c d : lv m f -> corners m f a b c d -> exists c' d', corners m (it nx k f) a b c' d'.
  Proof.
    intros Lf K. induction k as [|k (c' & d' & IH)]; [eauto|]. cbn. pose proof (it_lv k f Lf) as Lk.
    destruct (fnext_corners m G _ _ _ _ _ _ Lk IH (proj1 (nx_ok _ Lk))) as (e & H). eauto.
  Qed.
  Lemma it_same_tet i j f : lv m f -> tid (it nx i f) = tid (it nx j f) -> it nx i f = it nx j f.
  Proof.
    intros Lf E. destruct (lv_face m G f Lf) as (a & b & c & d & _ & _ & K & _).
    destruct (it_corners i f _ _ _ _ Lf K) as (c1 & d1 & K1). destruct (it_corners j f _ _ _ _ Lf K) as (c2 & d2 & K2).
    destruct (lv_tid _ (it_lv i f Lf)) as (E1 & L1). destruct (lv_tid _ (it_lv j f Lf)) as (E2 & _).
    destruct (it nx i f) as [t1 w1], (it nx j f) as [t2 w2]. cbn in E1, E2. unfold tid in *. cbn in *.
    destruct t1 as [t1|]; [|discriminate]. destruct t2 as [t2|]; [|discriminate]. inversion E1; inversion E2; subst. f_equal; auto.
    symmetry. eapply version_unique; eauto.
  Qed.
  Lemma tri_eq_dec_tid (t : nat) (f : triface) : {tid f <> t} + {~ tid f <> t}.
  Proof. destruct (Nat.eq_dec (tid f) t); [right; tauto|left; auto]. Qed.
  Lemma return_ex s : lv m s -> exists K, 0 < K /\ it nx K s = s /\ (forall i, 0 < i < K -> tid (it nx i s) <> tid s).
  Proof.
    intros Ls. destruct (orbit_returns nx (lv m) code (12 * length (tets m))) with (x := s) as (k & K0 & _ & E); auto.
    { intros x Hx. now apply nx_ok. } { apply nx_inj. } { apply code_lt. } { apply code_inj. }
    destruct (first_bad nx (fun f => tid f <> tid s) (tri_eq_dec_tid (tid s)) (nx s) k) as [H|(i & Li & Hi & Ni)].
    - exfalso. assert (Sh : forall i x, it nx i (nx x) = it nx (S i) x) by (intros i x; induction i; cbn in *; congruence).
      specialize (H (k - 1) ltac:(lia)). rewrite Sh in H. replace (S (k - 1)) with k in H by lia. rewrite E in H. auto.
    - assert (Sh : forall i x, it nx i (nx x) = it nx (S i) x) by (intros j x; induction j; cbn in *; congruence).
      exists (S i). split; [lia|]. rewrite Sh in Ni. split.
      + assert (Q : tid (it nx (S i) s) = tid (it nx 0 s)) by (cbn [it] in *; destruct (Nat.eq_dec (tid (nx (it nx i s))) (tid s)); [auto|tauto]).
        apply it_same_tet in Q; auto.
      + intros j Hj. destruct j as [|j]; [lia|]. rewrite <- Sh. apply Hi. lia.
  Qed.

  Definition ring (s : triface) (k : nat) : list nat := map (fun i => tid (it nx i s)) (seq 0 k).
  Lemma ring_S s k : ring s (S k) = ring s k ++ [tid (it nx k s)].
  Proof. unfold ring. now rewrite seq_S, map_app. Qed.
  Lemma spin_ok s K : lv m s -> 0 < K -> it nx K s = s -> (forall i, 0 < i < K -> tid (it nx i s) <> tid s) ->
    forall r i m' fuel, i + r = K -> i < K -> r <= fuel -> hot m' (ring s i) ->
    exists m'', spin m' s (it nx i s) (ring s i) fuel = Some (m'', ring s K) /\ hot m'' (ring s K).
  Proof.
    intros Ls K0 EK NK. induction r as [|r IH]; intros i m' fuel Er Li Lf Hm; [lia|].
    destruct fuel as [|fuel]; [lia|]. cbn [spin]. pose proof (it_lv i s Ls) as Lvi. destruct (lv_tid _ Lvi) as (Et & Lt).
    assert (N : ~ In (tid (it nx i s)) (ring s i)).
    { intros H. apply in_map_iff in H. destruct H as (j & E & Hj). apply in_seq in Hj.
      apply it_same_tet in E; auto.
      assert (B : it nx (i - j) s = s).
      { apply (it_back nx (lv m)); auto; [intros x Hx; now apply nx_ok|apply nx_inj|lia]. }
      apply (NK (i - j)); [lia|]. now rewrite B. }
    destruct (infect_hot m' _ _ Hm Lt N) as (m1 & E1 & H1). rewrite Et, E1. rewrite (skin_fnext m m1 _ (ht_skin _ _ H1)).
    destruct (nx_ok _ Lvi) as (En & Ln). rewrite En. destruct (lv_tid _ Ln) as (Et' & _). rewrite Et'.
    destruct (lv_tid _ Ls) as (Es & _). rewrite Es. rewrite <- ring_S in *.
    destruct (Nat.eqb_spec (tid (nx (it nx i s))) (tid s)) as [Eq|Ne].
    - assert (S i = K). { destruct (Nat.eq_dec (S i) K); auto. exfalso. apply (NK (S i)); [lia|]. exact Eq. }
      rewrite <- H. eauto.
    - assert (S i < K). { destruct (Nat.eq_dec (S i) K) as [E|]; [|lia]. exfalso. apply Ne. change (nx (it nx i s)) with (it nx (S i) s). now rewrite E, EK. }
      apply (IH (S i)); auto; lia.
  Qed.
  Lemma around_ring s K g : lv m s -> 0 < K -> it nx K s = s -> around m s g -> exists i, i < K /\ g = it nx i s.
  Proof.
    intros Ls K0 EK H. induction H as [|g h _ (i & Li & ->) F]; [exists 0; auto|].
    destruct (nx_ok _ (it_lv i s Ls)) as (E & _). rewrite E in F. inversion F; subst.
    destruct (Nat.eq_dec (S i) K); [exists 0; split; [lia|]; subst K; exact EK|exists (S i); split; [lia|reflexivity]].
  Qed.
  Lemma ring_around s i : lv m s -> around m s (it nx i s).
  Proof. intros Ls. induction i; [constructor|]. cbn. eapply around_next; eauto. apply nx_ok, it_lv, Ls. Qed.

  Lemma neighbour_other t v g : live m t -> v < 12 -> fsym m (TF (Some t) v) = Some g -> tet g <> Some t.
  Proof.
    intros Lt V F E. destruct (lv_face m G _ (lv_intro m t v Lt V)) as (a & b & c & d & h & e & K & ND & F' & Lh & _ & Kh).
    rewrite F in F'. inversion F'; subst h. destruct g as [gt w]. cbn in E. subst gt.
    destruct (corners_moves _ _ _ _ _ _ K) as (_ & _ & (f & _ & Tf & Kf) & _). destruct f as [ft x]. cbn in Tf. subst ft.
    pose proof (version_unique m G t _ _ _ _ _ _ _ _ Lt Kf Kh) as E. subst w.
    destruct (corners_fun _ _ _ _ _ _ _ _ _ _ Kf Kh) as (_ & _ & E & _). subst. rewrite !NoDup_cons_iff in ND. cbn in ND. intuition.
  Qed.

  Lemma seed_ok loc s : lv m s -> loc <> ONVERTEX -> exists m' cave, seed_cavity m loc s = Some (m', cave) /\ hot m' cave /\
    forall t, In t cave <-> seed m loc s t.
  Proof.
    intros Ls NV. destruct (lv_tid s Ls) as (Es & Lt).
    assert (One : exists m', infect m (Some (tid s)) = Some m' /\ hot m' [tid s]).
    { destruct (infect_hot m [] (tid s) hot_nil Lt ltac:(intros [])) as (m' & E & H). eauto. }
    destruct One as (m1 & E1 & H1).
    destruct loc; try congruence; unfold seed_cavity, seed; rewrite ?Es, ?E1.
    - do 2 eexists. split; [reflexivity|]. split; auto. intros t. cbn. split; [intros [->|[]]; auto|intros E; inversion E; auto].
    - destruct (return_ex s Ls) as (K & K0 & EK & NK).
      destruct (spin_ok s K Ls K0 EK NK K 0 m (S (length (tets m)))) as (m' & E & H); auto; [|apply hot_nil|].
      { assert (NoDup (ring s K)).
        { unfold ring. apply (NoDup_nth _ 0). rewrite map_length, seq_length. intros i j Hi Hj E.
          rewrite !(nth_indep _ 0 (tid (it nx 0 s))) in E by (rewrite map_length, seq_length; auto).
          rewrite !(map_nth (fun i => tid (it nx i s)) (seq 0 K) 0), !seq_nth in E by auto. cbn [plus] in E.
          apply it_same_tet in E; auto.
          assert (Q : forall i j, i < j -> j < K -> it nx i s = it nx j s -> False).
          { clear i j Hi Hj E. intros i j Lij Lj E.
            assert (B : it nx (j - i) s = s) by (apply (it_back nx (lv m)); auto; [intros x Hx; now apply nx_ok|apply nx_inj|lia]).
            apply (NK (j - i)); [lia|]. now rewrite B. }
          destruct (lt_eq_lt_dec i j) as [[L|L]|L]; auto; exfalso; [apply (Q i j)|apply (Q j i)]; auto. }
        assert (I : incl (ring s K) (seq 0 (length (tets m)))).
        { intros t Ht. apply in_map_iff in Ht. destruct Ht as (i & <- & _). apply in_seq. split; [lia|].
          apply live_lt. now apply lv_tid, it_lv. }
        pose proof (NoDup_incl_length H I) as C. unfold ring in C. rewrite map_length, !seq_length in C. lia. }
      exists m', (ring s K). cbn [it] in E. split; [exact E|]. split; auto. intros t. split.
      + intros Ht. apply in_map_iff in Ht. destruct Ht as (i & <- & _). exists (it nx i s). split; [now apply ring_around|].
        now apply lv_tid, it_lv.
      + intros (g & Ag & Eg). destruct (around_ring s K g Ls K0 EK Ag) as (i & Li & ->). apply in_map_iff.
        exists i. split; [unfold tid; now rewrite Eg|]. apply in_seq. lia.
    - destruct s as [st v]. assert (V : v < 12) by (destruct Ls as (? & _ & _ & ?); auto). unfold tid in *. cbn [tet ver] in *.
      destruct st as [t|]; [|discriminate Es]. clear Es.
      rewrite (sk_nei _ _ (ht_skin _ _ H1)). destruct (nei_ex t (Nat.land v 3) Lt (face_lt v V)) as (g & u & En & Eg & Lu). rewrite En, Eg.
      destruct (lv_face m G _ (lv_intro m t v Lt V)) as (a & b & c & d & h & e & _ & _ & F & _).
      assert (Th : tet h = Some u).
      { unfold fsym in F. cbn [tet ver] in F. rewrite En in F. destruct (look2 FSYM_TBL v (ver g)); inversion F. cbn. auto. }
      assert (Nt : u <> t) by (pose proof (neighbour_other t v h Lt V F); congruence).
      destruct (infect_hot m1 [t] u H1 Lu) as (m2 & E2 & H2); [intros [X|[]]; auto|]. rewrite E2.
      do 2 eexists. split; [reflexivity|]. split; auto. intros x. rewrite F. cbn. split.
      + intros [->|[->|[]]]; auto. right. eauto.
      + intros [E|(h' & E & E')]; [inversion E; auto|]. inversion E; subst. right. left. congruence.
    - do 2 eexists. split; [reflexivity|]. split; auto. intros t. cbn. split; [intros [->|[]]; auto|intros E; inversion E; auto].
  Qed.

  (** * An edge of a border face is an edge of another, the other way round *)
  Lemma edge_match (R : nat -> Prop) (Rd : forall t, {R t} + {~ R t}) f g a b c d : lv m f -> R (tid f) -> fsym m f = Some g ->
    ~ R (tid g) -> corners m f a b c d ->
    exists f' g' c' d', lv m f' /\ R (tid f') /\ fsym m f' = Some g' /\ ~ R (tid g') /\ corners m f' b a c' d'.
  Proof.
    intros Lf Rf Fg Ng K. destruct (lv_face m G f Lf) as (? & ? & ? & ? & g0 & ? & _ & _ & F0 & Lg & Fb & _).
    rewrite Fg in F0. inversion F0; subst g0. destruct (esym_ex m g Lg) as (y & Ey & Ly & Ty).
    assert (Vg : ver g < 12) by (destruct Lg as (? & _ & _ & ?); auto).
    assert (Ny : nx y = f).
    { destruct (fnext_lv m G y Ly) as (y' & h & Ey' & Fh & Nh & _). unfold nx. rewrite Nh.
      rewrite (esym_esym _ _ Ey Vg) in Ey'. inversion Ey'; subst y'. congruence. }
    destruct (orbit_leaves nx (lv m) code (12 * length (tets m))) with (P := fun f => R (tid f)) (x := f) (y := y)
      as (k & _ & In & Out); auto.
    { intros z Hz. now apply nx_ok. } { apply nx_inj. } { apply code_lt. } { apply code_inj. }
    { unfold tid. rewrite Ty. exact Ng. }
    pose proof (it_lv k f Lf) as Lk. destruct (it_corners k f _ _ _ _ Lf K) as (c' & d' & Kk).
    destruct (fnext_lv m G _ Lk) as (f' & g' & E' & F' & N' & _).
    destruct (corners_moves _ _ _ _ _ _ Kk) as (_ & _ & (f1 & E1 & T1 & K1) & _). rewrite E' in E1. inversion E1; subst f1.
    exists f', g', d', c'. destruct (esym_ex m _ Lk) as (z & Ez & Lz & _). rewrite E' in Ez. inversion Ez; subst z.
    split; [exact Lz|]. split; [unfold tid; rewrite T1; apply (In k); lia|]. split; [exact F'|]. split; [|exact K1].
    cbn [it] in Out. destruct (nx_ok _ Lk) as (Q & _). rewrite N' in Q. inversion Q. subst g'. exact Out.
  Qed.

  (** * The growth of the cavity *)
  Definition conflict (u : nat) : Prop := enqueue o3 isp m pid (Some u) = Some true.
  Definition behind (c k u : nat) : Prop := exists g, nei_at m (Some c) k = Some g /\ tet g = Some u.
  Lemma behind_ex c k : live m c -> k < 4 -> exists u, behind c k u /\ live m u.
  Proof. intros L K. destruct (nei_ex c k L K) as (g & u & A & B & C). exists u. split; auto. exists g. auto. Qed.
  Lemma behind_fun c k u u' : behind c k u -> behind c k u' -> u' = u.
  Proof. intros (g & A & B) (g' & A' & B'). congruence. Qed.

  Variable start : nat -> Prop.
  Record ginv (m' : tetmesh) (cave : list nat) (bdry : list triface) (done : nat -> nat -> Prop) : Prop := Ginv {
    gi_skin : skin m m'; gi_nd : NoDup cave; gi_live : forall t, In t cave -> live m t;
    gi_reg : forall t, In t cave -> region m start conflict t;
    gi_in : forall t, In t cave -> msk m' t = Some 1%N \/ msk m' t = Some 3%N;
    gi_out : forall t, live m t -> ~ In t cave -> msk m' t = Some 0%N \/
      (msk m' t = Some 2%N /\ ~ conflict t /\ exists c k, In (TF (Some c) k) bdry /\ behind c k t);
    gi_dead : forall t, ~ live m t -> msk m' t = msk m t;
    gi_bnd : NoDup bdry;
    gi_b : forall f, In f bdry -> exists c k u, f = TF (Some c) k /\ done c k /\ In c cave /\ k < 4 /\ behind c k u /\
      ~ In u cave /\ msk m' u = Some 2%N;
    gi_done : forall c k u, done c k -> behind c k u -> In u cave \/ In (TF (Some c) k) bdry }.

  Lemma ginv_done m' cave bdry d d' : (forall c k, d c k <-> d' c k) -> ginv m' cave bdry d -> ginv m' cave bdry d'.
  Proof.
    intros E [A B C D F H I J K L]. constructor; auto.
    - intros f Hf. destruct (K f Hf) as (c & k & u & X & Y & Z). exists c, k, u. split; auto. split; [now apply E|auto].
    - intros c k u Hd. apply L. now apply E.
  Qed.
  Lemma tet_at_msk m' u k : msk m' u = Some k -> exists x, nth_error (tets m') u = Some x /\ mask x = k.
  Proof. unfold msk. destruct (nth_error (tets m') u); [|discriminate]. intros H. inversion H. eauto. Qed.
  Lemma infected_msk m' u k : msk m' u = Some k -> infected m' (Some u) = Some (negb (N.land k 1 =? 0)%N).
  Proof. intros H. destruct (tet_at_msk _ _ _ H) as (x & E & <-). unfold infected, tet_at. now rewrite E. Qed.
  Lemma mark_tested_msk m' u k : msk m' u = Some k -> mark_tested m' (Some u) = Some (negb (N.land k 2 =? 0)%N).
  Proof. intros H. destruct (tet_at_msk _ _ _ H) as (x & E & <-). unfold mark_tested, tet_at. now rewrite E. Qed.

  (** one more boundary face *)
  Lemma ginv_face m' cave bdry d c k u : ginv m' cave bdry d -> In c cave -> k < 4 -> ~ d c k -> behind c k u -> live m u -> ~ In u cave ->
    ~ conflict u -> forall m1, (m1 = m' /\ msk m' u = Some 2%N) \/ only_mask m' m1 u 2%N ->
    ginv m1 cave (bdry ++ [TF (Some c) k]) (fun c' k' => d c' k' \/ (c' = c /\ k' = k)).
  Proof.
    intros [A B C D F H I J K L] Hc Hk Nd Bh Lu Nu Nc m1 M.
    assert (M1 : skin m' m1 /\ msk m1 u = Some 2%N /\ forall s, s <> u -> msk m1 s = msk m' s).
    { destruct M as [(-> & E)|V]; [split; [apply skin_refl|auto]|]. split; [eapply only_mask_skin; eauto|].
      split; [apply (om_eq _ _ _ _ V)|apply (om_neq _ _ _ _ V)]. }
    destruct M1 as (S1 & Mu & Ms). constructor; auto.
    - eapply skin_trans; eauto.
    - intros t Ht. rewrite Ms by (intros ->; auto). auto.
    - intros t Lt Nt. destruct (Nat.eq_dec t u) as [->|Ne].
      + right. split; auto. split; auto. exists c, k. split; auto. apply in_or_app. right. left. reflexivity.
      + rewrite Ms by auto. destruct (H t Lt Nt) as [X|(X & Y & c' & k' & Z & W)]; auto. right. split; auto. split; auto.
        exists c', k'. split; auto. apply in_or_app. auto.
    - intros t Lt. rewrite Ms by (intros ->; auto). auto.
    - apply nodup_snoc; auto. intros X. destruct (K _ X) as (c' & k' & u' & E & Y & _). inversion E; subst. auto.
    - intros f Hf. apply in_app_or in Hf. destruct Hf as [Hf|[<-|[]]].
      + destruct (K f Hf) as (c' & k' & u' & E & Y & Z1 & Z2 & Z3 & Z4 & Z5). exists c', k', u'.
        do 6 (split; [solve [auto]|]). destruct (Nat.eq_dec u' u) as [->|]; [auto|rewrite Ms; auto].
      + exists c, k, u. do 6 (split; [solve [auto]|]). auto.
    - intros c' k' u' [Hd|(-> & ->)] Hb.
      + destruct (L c' k' u' Hd Hb); [auto|right; apply in_or_app; auto].
      + right. apply in_or_app. right. left. reflexivity.
  Qed.
  (** one more tetrahedron *)
  Lemma ginv_tet m' cave bdry d c k u : ginv m' cave bdry d -> In c cave -> behind c k u -> live m u -> ~ In u cave ->
    msk m' u = Some 0%N -> conflict u -> forall m1, skin m' m1 -> msk m1 u = Some 3%N -> (forall s, s <> u -> msk m1 s = msk m' s) ->
    ginv m1 (cave ++ [u]) bdry (fun c' k' => d c' k' \/ (c' = c /\ k' = k)).
  Proof.
    intros [A B C D F H I J K L] Hc Bh Lu Nu M0 Cu m1 S1 Mu Ms. constructor; auto.
    - eapply skin_trans; eauto.
    - apply nodup_snoc; auto.
    - intros t Ht. apply in_app_or in Ht. destruct Ht as [Ht|[<-|[]]]; auto.
    - intros t Ht. apply in_app_or in Ht. destruct Ht as [Ht|[<-|[]]]; auto. destruct Bh as (g & Eg & Tg). eapply region_next; eauto.
    - intros t Ht. destruct (Nat.eq_dec t u) as [->|Ne]; [auto|]. rewrite Ms by auto. apply in_app_or in Ht. destruct Ht as [Ht|[<-|[]]]; auto.
      congruence.
    - intros t Lt Nt. assert (~ In t cave /\ t <> u) as (N1 & N2) by (split; intros X; apply Nt, in_or_app; [left|right; left]; auto).
      rewrite Ms by auto. auto.
    - intros t Lt. rewrite Ms by (intros ->; auto). auto.
    - intros f Hf. destruct (K f Hf) as (c' & k' & u' & E & Y & Z1 & Z2 & Z3 & Z4 & Z5). exists c', k', u'.
      assert (Ne : u' <> u) by (intros ->; congruence).
      split; [auto|]. split; [auto|]. split; [apply in_or_app; auto|]. split; [auto|]. split; [auto|]. split.
      + intros X. apply in_app_or in X. destruct X as [X|[X|[]]]; auto.
      + rewrite Ms; auto.
    - intros c' k' u' [Hd|(-> & ->)] Hb.
      + destruct (L c' k' u' Hd Hb); [left; apply in_or_app; auto|auto].
      + left. rewrite (behind_fun _ _ _ _ Bh Hb). apply in_or_app. right. left. reflexivity.
  Qed.

  Lemma grow_faces_ok c n : forall k0 m' cave bdry d, ginv m' cave bdry d -> In c cave -> k0 + n = 4 ->
    (forall k, k0 <= k -> ~ d c k) ->
    exists m'' ext bdry', grow_faces o3 isp m' pid c (seq k0 n) cave bdry = Some (m'', cave ++ ext, bdry') /\
      ginv m'' (cave ++ ext) bdry' (fun c' k' => d c' k' \/ (c' = c /\ k0 <= k' < 4)).
  Proof.
    induction n as [|n IH]; intros k0 m' cave bdry d Hi Hc Ek Nd.
    - exists m', [], bdry. cbn. rewrite app_nil_r. split; auto. eapply ginv_done; [|exact Hi]. intros. split; [auto|]. intros [X|X]; auto. lia.
    - cbn [seq grow_faces]. pose proof (gi_live _ _ _ _ Hi c Hc) as Lc. destruct (nei_ex c k0 Lc ltac:(lia)) as (g & u & En & Eg & Lu).
      assert (Bh : behind c k0 u) by (exists g; auto).
      rewrite (sk_nei _ _ (gi_skin _ _ _ _ Hi)), En, Eg.
      assert (Step : forall m1 cave1 bdry1, ginv m1 cave1 bdry1 (fun c' k' => d c' k' \/ (c' = c /\ k' = k0)) -> In c cave1 ->
        exists m'' ext bdry', grow_faces o3 isp m1 pid c (seq (S k0) n) cave1 bdry1 = Some (m'', cave1 ++ ext, bdry') /\
          ginv m'' (cave1 ++ ext) bdry' (fun c' k' => d c' k' \/ (c' = c /\ k0 <= k' < 4))).
      { intros m1 cave1 bdry1 Hi1 Hc1. destruct (IH (S k0) m1 cave1 bdry1 _ Hi1 Hc1 ltac:(lia)) as (m2 & ext & b2 & E2 & H2).
        - intros k Hk [X|(_ & X)]; [apply (Nd k); auto; lia|lia].
        - exists m2, ext, b2. split; auto. eapply ginv_done; [|exact H2]. intros c' k'. cbn. split.
          + intros [[X|(X & Y)]|(X & Y)]; auto; right; split; auto; lia.
          + intros [X|(X & Y)]; auto. destruct (Nat.eq_dec k' k0); auto. right. split; auto. lia. }
      destruct (in_dec Nat.eq_dec u cave) as [Iu|Nu].
      + assert (Inf : infected m' (Some u) = Some true).
        { destruct (gi_in _ _ _ _ Hi u Iu) as [M|M]; rewrite (infected_msk _ _ _ M); reflexivity. }
        rewrite Inf. apply Step; auto.
        destruct Hi as [A B C D F H I J K L]. constructor; auto.
        * intros f Hf. destruct (K f Hf) as (c' & k' & u' & X & Y & Z). exists c', k', u'. auto.
        * intros c' k' u' [X|(-> & ->)] Hb; [eauto|]. left. now rewrite (behind_fun _ _ _ _ Bh Hb).
      + destruct (gi_out _ _ _ _ Hi u Lu Nu) as [M|(M & Nc & _)].
        * rewrite (infected_msk _ _ _ M), (mark_tested_msk _ _ _ M). cbn [N.land N.eqb negb].
          rewrite (enqueue_skin o3 isp m m' pid u (gi_skin _ _ _ _ Hi)). destruct (enqueue_total u Lu) as (e & Ee). rewrite Ee.
          destruct (set_mask_view (fun k => N.lor k 2) m' u _ M) as (m1 & E1 & V1). unfold mark_test. rewrite E1. cbn [N.lor] in V1.
          destruct e.
          -- destruct (set_mask_view (fun k => N.lor k 1) m1 u _ (om_eq _ _ _ _ V1)) as (m2 & E2 & V2). unfold infect. rewrite E2.
             cbn [N.lor Pos.lor] in V2.
             destruct (Step m2 (cave ++ [u]) bdry) as (m3 & ext & b3 & E3 & H3).
             { apply (ginv_tet m' cave bdry d c k0 u); auto.
               - eapply skin_trans; eapply only_mask_skin; eauto.
               - apply (om_eq _ _ _ _ V2).
               - intros s Hs. rewrite (om_neq _ _ _ _ V2), (om_neq _ _ _ _ V1); auto. }
             { apply in_or_app; auto. }
             exists m3, (u :: ext), b3. change (u :: ext) with ([u] ++ ext). rewrite app_assoc. auto.
          -- apply Step; auto. apply (ginv_face m' cave bdry d c k0 u); auto; [lia|]. unfold conflict. congruence.
        * rewrite (infected_msk _ _ _ M), (mark_tested_msk _ _ _ M). cbn [N.land N.eqb negb Pos.land].
          apply Step; auto. apply (ginv_face m' cave bdry d c k0 u); auto. lia.
  Qed.

  Definition upto (cave : list nat) (i : nat) (c k : nat) : Prop := k < 4 /\ In c (firstn i cave).
  Lemma firstn_nth {A} (l : list A) i x : nth_error l i = Some x -> firstn (S i) l = firstn i l ++ [x].
  Proof.
    revert i. induction l as [|a l IH]; intros [|i] H; cbn in H; try discriminate; [inversion H; reflexivity|].
    cbn [firstn app]. f_equal. now apply IH.
  Qed.
  Lemma grow_ok : forall fuel m' idx cave bdry, ginv m' cave bdry (upto cave idx) -> idx <= length cave ->
    length (tets m) < fuel + idx ->
    exists m'' ext bdry', grow o3 isp m' pid idx cave bdry fuel = Some (m'', cave ++ ext, bdry') /\
      ginv m'' (cave ++ ext) bdry' (fun c k => k < 4 /\ In c (cave ++ ext)).
  Proof.
    induction fuel as [|fuel IH]; intros m' idx cave bdry Hi Li Lf.
    - exfalso. assert (I : incl cave (seq 0 (length (tets m)))).
      { intros t Ht. apply in_seq. split; [lia|]. apply (live_lt m t), (gi_live _ _ _ _ Hi t Ht). }
      pose proof (NoDup_incl_length (gi_nd _ _ _ _ Hi) I) as C. rewrite seq_length in C. lia.
    - cbn [grow]. destruct (nth_error cave idx) as [c|] eqn:En.
      + assert (Hc : In c cave) by (eapply nth_error_In; eauto).
        destruct (grow_faces_ok c 4 0 m' cave bdry _ Hi Hc eq_refl) as (m1 & ext & b1 & E1 & H1).
        { intros k _ (_ & X). pose proof (gi_nd _ _ _ _ Hi) as ND. rewrite <- (firstn_skipn (S idx) cave) in ND.
          rewrite (firstn_nth _ _ _ En) in ND. rewrite <- app_assoc in ND. apply NoDup_remove_2 in ND. apply ND, in_or_app. auto. }
        rewrite E1. destruct (IH m1 (S idx) (cave ++ ext) b1) as (m2 & ext2 & b2 & E2 & H2).
        * assert (Fn : firstn (S idx) (cave ++ ext) = firstn idx cave ++ [c]).
          { assert (idx < length cave) by (apply nth_error_Some; congruence).
            rewrite firstn_app. replace (S idx - length cave) with 0 by lia. cbn [firstn]. rewrite app_nil_r. now apply firstn_nth. }
          eapply ginv_done; [|exact H1]. intros c' k'. unfold upto. rewrite Fn, in_app_iff. cbn. split.
          -- intros [(X & Y)|(-> & X)]; auto. split; [lia|]. auto.
          -- intros (X & [Y|[->|[]]]); auto. right. split; auto. lia.
        * rewrite app_length. assert (idx < length cave) by (apply nth_error_Some; congruence). lia.
        * lia.
        * exists m2, (ext ++ ext2), b2. rewrite !app_assoc. auto.
      + exists m', [], bdry. rewrite app_nil_r. split; auto. eapply ginv_done; [|exact Hi].
        intros c k. unfold upto. apply nth_error_None in En. rewrite firstn_all2 by lia. tauto.
  Qed.
  Lemma ginv_start m' cave : hot m' cave -> (forall t, In t cave -> start t) -> ginv m' cave [] (upto cave 0).
  Proof.
    intros [A B C D E] Hs. constructor; auto; try (intros; contradiction).
    - intros t Ht. apply region_start. auto.
    - intros t Lt Nt. left. rewrite E by auto. now apply live_msk.
    - constructor.
    - intros c k u (_ & X). contradiction.
  Qed.

  (** What the cavity is. *)
  Record cavity (m' : tetmesh) (cave : list nat) (bdry : list triface) : Prop := Cavity {
    cv_skin : skin m m'; cv_nd : NoDup cave; cv_live : forall t, In t cave -> live m t;
    cv_reg : forall t, In t cave <-> region m start conflict t;
    cv_in : forall t, In t cave -> msk m' t = Some 1%N \/ msk m' t = Some 3%N;
    cv_out : forall t, live m t -> ~ In t cave -> msk m' t = Some 0%N \/
      (msk m' t = Some 2%N /\ exists c k, In (TF (Some c) k) bdry /\ behind c k t);
    cv_dead : forall t, ~ live m t -> msk m' t = msk m t;
    cv_bnd : NoDup bdry;
    cv_b : forall c k, In (TF (Some c) k) bdry <-> In c cave /\ k < 4 /\ exists u, behind c k u /\ ~ In u cave;
    cv_some : forall f, In f bdry -> exists c k, f = TF (Some c) k }.
  Lemma cavity_ok loc s : lv m s -> loc <> ONVERTEX -> (forall t, seed m loc s t <-> start t) ->
    exists m1 cave0 m' cave bdry, seed_cavity m loc s = Some (m1, cave0) /\
      grow o3 isp m1 pid 0 cave0 [] (S (length (tets m1))) = Some (m', cave, bdry) /\ cavity m' cave bdry.
  Proof.
    intros Ls NV Hs. destruct (seed_ok loc s Ls NV) as (m1 & cave0 & E1 & H1 & S1).
    destruct (grow_ok (S (length (tets m1))) m1 0 cave0 []) as (m' & ext & bdry & E2 & H2).
    - apply ginv_start; auto. intros t Ht. apply Hs, S1, Ht.
    - lia.
    - rewrite (sk_l _ _ (ht_skin _ _ H1)). lia.
    - exists m1, cave0, m', (cave0 ++ ext), bdry. split; auto. split; auto.
      assert (Reg : forall t, region m start conflict t -> In t (cave0 ++ ext)).
      { induction 1 as [t Ht|t k g u _ IH Hn Hg Cu].
        - apply in_or_app. left. apply S1, Hs, Ht.
        - assert (K : k < 4) by (eapply nei_ver_lt; eauto; eapply gi_live; eauto).
          destruct (gi_done _ _ _ _ H2 t k u) as [X|X]; auto; [exists g; auto|].
          destruct (gi_b _ _ _ _ H2 _ X) as (c & k' & u' & E & _ & _ & _ & B & Nu & Mu). inversion E; subst c k'.
          assert (u' = u) by (eapply behind_fun; eauto; exists g; auto). subst u'.
          assert (Lu : live m u) by (destruct (nei_ver_lt m G t k g (gi_live _ _ _ _ H2 t IH) Hn) as (_ & _ & w & Ew & Lw); congruence).
          destruct (gi_out _ _ _ _ H2 u Lu Nu) as [Z|(_ & Z & _)]; [congruence|contradiction]. }
      constructor; try apply H2.
      + intros t. split; [apply H2|auto].
      + intros t Lt Nt. destruct (gi_out _ _ _ _ H2 t Lt Nt) as [X|(X & _ & Y)]; auto.
      + intros c k. split.
        * intros X. destruct (gi_b _ _ _ _ H2 _ X) as (c' & k' & u & E & _ & A & B & C & D & _). inversion E; subst c' k'. eauto.
        * intros (A & B & u & C & D). destruct (gi_done _ _ _ _ H2 c k u); auto. contradiction.
      + intros f Hf. destruct (gi_b _ _ _ _ H2 _ Hf) as (c & k & _ & E & _). eauto.
  Qed.
End Grow.
