(** Tetrahedra with different vertices: how many there are, and what lies behind a
    ghost tetrahedron. *)
From Coq Require Import List Arith Bool Lia.
From Verif Require Import Lib Tet TetSpec BwSpec BspNew.
Import ListNotations.

Section Count.
  Context (m : tetmesh) (L : linked m) (C : consistent m) (D : all_different m).

  Lemma behind t x i : nth_error (tets m) t = Some x -> i < 4 -> exists u w y, nth_error (nei x) i = Some (TF (Some u) w) /\ nth_error (tets m) u = Some y /\ u <> t /\
    forall j v, nth_error (data x) j = Some v -> j <> i -> In v (data y).
  Proof using L C.
    intros E Hi. destruct (glue m L C t x i E Hi) as (u & w & y & En & Ey & Nu & _). exists u, w, y. do 3 (split; [assumption|]).
    destruct (L t x E) as (_ & _ & _ & _ & _ & H). destruct (H i _ En) as (u' & y' & Eu & Ey' & Hv). cbn in Eu. injection Eu as <-. rewrite Ey in Ey'. injection Ey' as <-. exact Hv.
  Qed.
  Lemma behind_missing t x i u w y v : nth_error (tets m) t = Some x -> nth_error (nei x) i = Some (TF (Some u) w) -> nth_error (tets m) u = Some y -> u <> t ->
    (forall j v, nth_error (data x) j = Some v -> j <> i -> In v (data y)) -> nth_error (data x) i = Some v -> ~ In v (data y).
  Proof using D.
    intros E En Ey Nu H Ev Hin. apply (D t u x y); auto. intros q Hq. apply In_nth_error in Hq as (j & Hj).
    destruct (Nat.eq_dec j i) as [->|N]; [congruence|eauto].
  Qed.

  Lemma different_backed : backed m.
  Proof using L C D.
    intros t y (t0 & x0 & h & E0 & G0 & N0 & Th) Ey Gy.
    destruct (behind t0 x0 3 E0 ltac:(lia)) as (u & w & y' & En & Ey' & Nu & H). rewrite N0 in En. injection En as ->. cbn in Th. injection Th as ->.
    rewrite Ey in Ey'. injection Ey' as <-. destruct (L t0 x0 E0) as (L4 & _). destruct (L t y Ey) as (L4' & _).
    apply (behind_missing t0 x0 3 t w y (n_points m)) in H; auto; [|rewrite (nth_error_nth' _ 0) by lia; now f_equal].
    apply H. rewrite <- Gy. apply nth_In. lia.
  Qed.

  (** four tetrahedra about a vertex *)
  Lemma four_about v t x : nth_error (tets m) t = Some x -> In v (data x) ->
    exists l, length l = 4 /\ NoDup l /\ forall u, In u l -> exists y, nth_error (tets m) u = Some y /\ In v (data y).
  Proof using L C D.
    intros E Hv. destruct (L t x E) as (L4 & _). apply In_nth_error in Hv as (k & Hk). assert (K : k < 4) by (rewrite <- L4; apply nth_error_Some; congruence).
    assert (O : exists i1 i2 i3, i1 < 4 /\ i2 < 4 /\ i3 < 4 /\ NoDup [k; i1; i2; i3]).
    { do 4 (destruct k as [|k]; [first [exists 1, 2, 3; repeat split; try lia; repeat constructor; cbn; lia|exists 0, 2, 3; repeat split; try lia; repeat constructor; cbn; lia
        |exists 0, 1, 3; repeat split; try lia; repeat constructor; cbn; lia|exists 0, 1, 2; repeat split; try lia; repeat constructor; cbn; lia]|]). lia. }
    destruct O as (i1 & i2 & i3 & B1 & B2 & B3 & ND). rewrite !NoDup_cons_iff in ND. cbn in ND.
    assert (Dif : forall i j, i < 4 -> j < 4 -> i <> j -> forall u w y u' w' y', nth_error (nei x) i = Some (TF (Some u) w) -> nth_error (tets m) u = Some y -> u <> t ->
      (forall j v, nth_error (data x) j = Some v -> j <> i -> In v (data y)) -> nth_error (nei x) j = Some (TF (Some u') w') -> nth_error (tets m) u' = Some y' ->
      (forall j' v, nth_error (data x) j' = Some v -> j' <> j -> In v (data y')) -> u <> u').
    { intros i j Bi Bj N u w y u' w' y' En Ey Nu H En' Ey' H' <-. rewrite Ey in Ey'. injection Ey' as <-.
      destruct (nth_error_ex (data x) i) as (q & Eq); [lia|]. apply (behind_missing t x i u w y q E En Ey Nu H Eq). exact (H' i q Eq N). }
    destruct (behind t x i1 E B1) as (u1 & w1 & y1 & N1 & E1 & T1 & H1).
    destruct (behind t x i2 E B2) as (u2 & w2 & y2 & N2 & E2 & T2 & H2).
    destruct (behind t x i3 E B3) as (u3 & w3 & y3 & N3 & E3 & T3 & H3).
    exists [t; u1; u2; u3]. split; auto. split.
    - assert (u1 <> u2) by (apply (Dif i1 i2 B1 B2 ltac:(intuition) u1 w1 y1 u2 w2 y2); auto).
      assert (u1 <> u3) by (apply (Dif i1 i3 B1 B3 ltac:(intuition) u1 w1 y1 u3 w3 y3); auto).
      assert (u2 <> u3) by (apply (Dif i2 i3 B2 B3 ltac:(intuition) u2 w2 y2 u3 w3 y3); auto).
      repeat constructor; cbn; intuition congruence.
    - intros u [<-|[<-|[<-|[<-|[]]]]]; [exists x; split; auto; eapply nth_error_In; eauto|exists y1|exists y2|exists y3]; split; auto; [apply (H1 k)|apply (H2 k)|apply (H3 k)]; auto; intuition.
  Qed.

  Definition incidences : list (nat * nat) := flat_map (fun t => match nth_error (tets m) t with Some x => map (fun v => (t, v)) (data x) | None => [] end) (seq 0 (length (tets m))).
  Lemma flat_length {A B} (f : A -> list B) k l : (forall a, In a l -> length (f a) = k) -> length (flat_map f l) = length l * k.
  Proof. induction l as [|a l IH]; intros H; cbn; auto. rewrite app_length, (H a), IH; cbn; auto. intros; apply H; now right. Qed.
  Lemma incidences_length : length incidences = length (tets m) * 4.
  Proof using L.
    unfold incidences. rewrite (flat_length _ 4); [now rewrite seq_length|]. intros t Ht. apply in_seq in Ht. destruct (nth_error_ex (tets m) t) as (x & E); [lia|].
    rewrite E, map_length. apply (L t x E).
  Qed.
  Lemma few_points n : (forall v, v < n -> exists t x, nth_error (tets m) t = Some x /\ In v (data x)) -> n <= length (tets m).
  Proof using L C D.
    intros H. assert (Q : exists l, length l = n * 4 /\ NoDup l /\ incl l incidences /\ forall t v, In (t, v) l -> v < n).
    { induction n as [|n IH]; [exists []; repeat split; [constructor|intros ? []|intros ? ? []]|].
      destruct IH as (l & Ll & NDl & Il & Bl); [intros v Hv; apply H; lia|]. destruct (H n ltac:(lia)) as (t & x & E & Hv). destruct (four_about n t x E Hv) as (l4 & L4 & N4 & H4).
      exists (map (fun u => (u, n)) l4 ++ l). split; [rewrite app_length, map_length; lia|]. split; [|split].
      - clear -NDl N4 Bl. induction l4 as [|u l4 IH]; cbn; auto. inversion N4; subst. constructor; auto. rewrite in_app_iff, in_map_iff. intros [(u' & Q & Hu)|Hu]; [injection Q as ->; contradiction|].
        apply Bl in Hu. lia.
      - intros (u, v) Hu. apply in_app_or in Hu as [Hu|Hu]; [|auto]. apply in_map_iff in Hu as (u' & Q & Hu). injection Q as <- <-. destruct (H4 u' Hu) as (y & Ey & Hy).
        unfold incidences. apply in_flat_map. exists u'. split; [apply in_seq; apply nth_error_lt in Ey; lia|]. rewrite Ey. now apply in_map.
      - intros u v Hu. apply in_app_or in Hu as [Hu|Hu]; [apply in_map_iff in Hu as (u' & Q & _); injection Q as <- <-; lia|]. apply Bl in Hu. lia. }
    destruct Q as (l & Ll & NDl & Il & _). assert (A := NoDup_incl_length NDl Il). rewrite incidences_length in A. lia.
  Qed.
End Count.
