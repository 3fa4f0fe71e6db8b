(** Lemmas about the vertex map, the turning around a vertex and the marking of
    a segment. *)
From Coq Require Import List Arith Bool ZArith Lia.
From Verif Require Import Lib Flip Prop_Flip TriSegSpec TriSeg TriSegProofs.
Import ListNotations.

(** * Moves *)
Section Moves.
  Variable m : list triangle.
  Hypothesis W : wf m.

  Lemma next_corners h : inside m h -> org m (next h) = dest m h /\ dest m (next h) = apex m h /\ apex m (next h) = org m h.
  Proof. destruct h as (t & o). intros (_ & B). cbn [snd] in B. unfold org, dest, apex, next. cbn [fst snd]. destruct (three _ B) as [->|[->| ->]]; auto. Qed.
  Lemma prev_corners h : inside m h -> org m (prev h) = apex m h /\ dest m (prev h) = org m h /\ apex m (prev h) = dest m h.
  Proof. destruct h as (t & o). intros (_ & B). cbn [snd] in B. unfold org, dest, apex, prev. cbn [fst snd]. destruct (three _ B) as [->|[->| ->]]; auto. Qed.
  Lemma onext_ok h : inside m h -> exists g, onext m h = Some g /\ inside m g /\ org m g = org m h /\ dest m g = apex m h.
  Proof.
    intros H. destruct (wf_nei m W (prev h) (prev_inside m h H)) as (g & S & I & _ & O & D). destruct (prev_corners h H) as (P1 & P2 & _).
    exists g. unfold onext. split; auto. split; auto. split; congruence.
  Qed.
  Lemma oprev_ok h : inside m h -> exists g, oprev m h = Some g /\ inside m g /\ org m g = org m h /\ apex m g = dest m h.
  Proof.
    intros H. destruct (wf_nei m W h H) as (g & S & I & _ & O & D). destruct (next_corners g I) as (P1 & _ & P3).
    exists (next g). unfold oprev. rewrite S. split; auto. split; [now apply next_inside|]. split; congruence.
  Qed.
  Lemma corner_some h : inside m h -> exists a b c, org m h = Some a /\ dest m h = Some b /\ apex m h = Some c.
  Proof.
    intros (A & B). unfold org, dest, apex.
    assert (X : forall i, i < 3 -> exists v, get_data m (fst h) i = Some v).
    { intros i Hi. pose proof (wf_data m W (fst h) i A ltac:(lia)). destruct (get_data m (fst h) i); [eauto|contradiction]. }
    destruct (X ((snd h + 1) mod 3)) as (a & Ea); [apply Nat.mod_upper_bound; lia|]. destruct (X ((snd h + 2) mod 3)) as (b & Eb); [apply Nat.mod_upper_bound; lia|].
    destruct (X (snd h) B) as (c & Ec). exists a, b, c. auto.
  Qed.
End Moves.

(** * make_vertex_map *)
Section VertexMap.
  Variables (INV n : nat) (m : list triangle) (ghost : list bool).
  Hypothesis W : wf m.
  Hypothesis Lg : length ghost = length m.
  Hypothesis Linv : length m <= INV.
  Hypothesis Cn : forall t i v, nth_error ghost t = Some false -> i < 3 -> get_data m t i = Some v -> v < n.

  Definition good_entry (v : nat) (h : hedge) : Prop := inside m h /\ org m h = Some v /\ nth_error ghost (fst h) = Some false.
  Record vinv (parts : nat -> nat -> Prop) (vm : list hedge) : Prop := {
    vi_len : length vm = n;
    vi_at : forall v, v < n -> (nth_error vm v = Some (INV, 0) /\ forall t i, parts t i -> get_data m t i <> Some v) \/
      (exists h t i, nth_error vm v = Some h /\ good_entry v h /\ parts t i /\ get_data m t i = Some v) }.
  Lemma map_corner_ok parts vm t tr i : vinv parts vm -> nth_error ghost t = Some false -> nth_error m t = Some tr -> i < 3 ->
    exists vm', map_corner INV ghost t tr vm i = Some vm' /\ vinv (fun a b => parts a b \/ (a = t /\ b = i)) vm'.
  Proof.
    intros V G Et I. assert (Lt : t < length m) by (apply nth_error_Some; congruence).
    assert (D : exists v, nth_error (data tr) i = Some v /\ get_data m t i = Some v).
    { pose proof (wf_data m W t i Lt ltac:(lia)) as D. unfold get_data in *. rewrite Et in *. destruct (nth_error (data tr) i) as [v|]; [eauto|contradiction]. }
    destruct D as (v & Ed & Eg). pose proof (Cn t i v G I Eg) as Lv. unfold map_corner. rewrite Ed.
    assert (Other : forall x, x < n -> x <> v -> (nth_error vm x = Some (INV, 0) /\ forall a b, (parts a b \/ (a = t /\ b = i)) -> get_data m a b <> Some x) \/
      (exists h a b, nth_error vm x = Some h /\ good_entry x h /\ (parts a b \/ (a = t /\ b = i)) /\ get_data m a b = Some x)).
    { intros x Lx Nx. destruct (vi_at _ _ V x Lx) as [(E & H)|(h & a & b & E & H1 & H2 & H3)].
      - left. split; auto. intros a b [P|(-> & ->)]; [now apply H|congruence].
      - right. exists h, a, b. auto. }
    destruct (vi_at _ _ V v Lv) as [(E & H)|(h & a & b & E & H1 & H2 & H3)]; rewrite E; cbn [fst].
    - rewrite Nat.eqb_refl. cbn [negb].
      assert (I1 : (i + 1) mod 3 < 3) by (apply Nat.mod_upper_bound; lia).
      destruct (wf_nei m W (t, (i + 1) mod 3) (conj Lt I1)) as (g & S & Ig & _ & Og & _).
      assert (En : nth_error (nei tr) ((i + 1) mod 3) = Some g) by (unfold sym in S; cbn [fst snd] in S; rewrite Et in S; exact S). rewrite En.
      assert (Od : org m g = Some v). { rewrite Og. unfold dest. cbn [fst snd]. destruct (three _ I) as [->|[->| ->]]; exact Eg. }
      destruct (nth_error_ex ghost (fst g)) as (b & Eb); [rewrite Lg; apply Ig|]. rewrite Eb.
      set (e := if b then _ else _).
      assert (Ge : good_entry v e).
      { unfold e. destruct b.
        - split; [split; [exact Lt|apply Nat.mod_upper_bound; lia]|]. split; auto. unfold org. cbn [fst snd]. destruct (three _ I) as [->|[->| ->]]; exact Eg.
        - split; auto. }
      assert (Lv' : v < length vm) by (rewrite (vi_len _ _ V); auto).
      exists (upd vm v e). split; [now apply set_Some|]. constructor; [rewrite upd_length; apply (vi_len _ _ V)|].
      intros x Lx. rewrite nth_error_upd. destruct (Nat.ltb_spec v (length vm)); [|lia]. rewrite andb_true_r.
      destruct (Nat.eqb_spec v x) as [<-|Nx]; [right; exists e, t, i; split; [reflexivity|split; [exact Ge|split; [right; split; reflexivity|exact Eg]]]|]. apply Other; [exact Lx|]. intros ->. now apply Nx.
    - destruct H1 as (Ih & Oh & Gh). destruct (Nat.eqb_spec (fst h) INV) as [X|_]; [destruct Ih; lia|]. cbn [negb].
      exists vm. split; auto. constructor; [apply (vi_len _ _ V)|]. intros x Lx. destruct (Nat.eq_dec x v) as [->|Nx]; [|apply Other; auto].
      right. exists h, a, b. clear Other. split; [exact E|]. split; [split; auto|]. auto.
  Qed.
  Lemma vinv_ext p p' vm : (forall a b, p a b <-> p' a b) -> vinv p vm -> vinv p' vm.
  Proof.
    intros E [A B]. constructor; auto. intros v L. destruct (B v L) as [(X & Y)|(h & t & i & X & Y & Z & U)]; [left; split; auto; intros t i H; apply Y, E, H|].
    right. exists h, t, i. split; auto. split; auto. split; auto. now apply E.
  Qed.
  Lemma map_tris_ok l : forall parts vm, vinv parts vm -> (forall t, In t l -> t < length m) ->
    exists vm', map_tris INV m ghost vm l = Some vm' /\ vinv (fun a b => parts a b \/ (In a l /\ b < 3 /\ nth_error ghost a = Some false)) vm'.
  Proof.
    induction l as [|t l IH]; intros parts vm V Hl.
    { exists vm. split; [reflexivity|]. eapply vinv_ext; [|exact V]. intros; cbn; tauto. }
    cbn [map_tris]. assert (Lt : t < length m) by (apply Hl; now left).
    destruct (nth_error_ex ghost t) as (b & Eb); [lia|]. rewrite Eb. destruct b.
    - destruct (IH parts vm V) as (vm' & E & V'); [intros; apply Hl; now right|]. exists vm'. split; auto. eapply vinv_ext; [|exact V'].
      intros x y. cbn. split; [tauto|]. intros [H|([<-|H] & H1 & H2)]; auto. congruence.
    - destruct (nth_error_ex m t Lt) as (tr & Et). rewrite Et.
      destruct (map_corner_ok parts vm t tr 0 V Eb Et ltac:(lia)) as (vm1 & E1 & V1). rewrite E1.
      destruct (map_corner_ok _ vm1 t tr 1 V1 Eb Et ltac:(lia)) as (vm2 & E2 & V2). rewrite E2.
      destruct (map_corner_ok _ vm2 t tr 2 V2 Eb Et ltac:(lia)) as (vm3 & E3 & V3). rewrite E3.
      destruct (IH _ vm3 V3) as (vm' & E & V'); [intros; apply Hl; now right|]. exists vm'. split; [exact E|]. eapply vinv_ext; [|exact V'].
      intros x y. cbn [In]. split.
      + intros [[[[H|(-> & ->)]|(-> & ->)]|(-> & ->)]|(A & B & C)]; [tauto| | | |tauto]; right; (split; [now left|split; [lia|assumption]]).
      + intros [H|([<-|H] & H1 & H2)]; [tauto| |tauto]. destruct (three _ H1) as [->|[->| ->]]; tauto.
  Qed.
End VertexMap.

(** * find_direction *)
Section Direction.
  Variables (n : nat) (ccw : nat -> nat -> nat -> Z) (m : list triangle).
  Hypothesis W : wf m.
  Hypothesis anti : forall a b c, (ccw b a c = - ccw a b c)%Z.

  Lemma turn_some a b c z : turn n ccw a b c = Some z -> a < n /\ b < n /\ c < n /\ z = ccw a b c.
  Proof.
    unfold turn. destruct (Nat.ltb_spec a n), (Nat.ltb_spec b n), (Nat.ltb_spec c n); cbn; try discriminate. intros E. inversion E. auto.
  Qed.
  Section Around.
    Variables (sp st : nat).
    Definition turned (h : hedge) (left right : Z) : Prop := inside m h /\ org m h = Some st /\ exists d a, dest m h = Some d /\ apex m h = Some a /\ a < n /\ d < n /\
      left = ccw sp st a /\ right = ccw st sp d.
    (** values that have the same meaning: positive means strictly on the right side of it *)
    Definition fine (h : hedge) (left right : Z) : Prop := inside m h /\ org m h = Some st /\ exists d a, dest m h = Some d /\ apex m h = Some a /\ a < n /\ d < n /\
      (0 <= ccw st sp a)%Z /\ (ccw st sp d <= 0)%Z /\ (left = 0 <-> ccw st sp a = 0)%Z /\ (right = 0 <-> ccw st sp d = 0)%Z.
    Lemma turn_left_ok fuel : forall h left right h' l' r', inside m h -> org m h = Some st -> st < n -> sp < n ->
      (exists a, apex m h = Some a /\ a < n /\ left = ccw sp st a) ->
      (0 < left)%Z \/ ((left <= 0)%Z /\ exists d, dest m h = Some d /\ d < n /\ (ccw st sp d < 0)%Z /\ (right <> 0)%Z) ->
      turn_left n ccw m sp st h left right fuel = Some (h', l', r') -> fine h' l' r'.
    Proof.
      induction fuel as [|fuel IH]; intros h left right h' l' r' I O Ls Lp (a & Ea & La & El) C H; cbn [turn_left] in H; destruct (Z.ltb_spec 0 left) as [P|P]; try discriminate.
      - inversion H; subst. destruct C as [C|(C & d & Ed & Ld & Sd & Nr)]; [lia|]. split; auto. split; auto. exists d, a.
        rewrite (anti st sp a) in *. repeat (split; [solve [auto|lia]|]). lia.
      - destruct (onext_ok m W h I) as (g & Eg & Ig & Og & Dg). rewrite Eg in H. destruct (corner_some m W g Ig) as (a' & b' & c' & E1 & E2 & E3). rewrite E3 in H.
        destruct (turn n ccw sp st c') as [l|] eqn:T; [|discriminate]. apply turn_some in T. destruct T as (_ & _ & Lc & ->).
        eapply IH; try exact H; auto; [congruence|eauto|]. destruct (Z.ltb_spec 0 (ccw sp st c')); [now left|right]. split; auto. exists a. split; [congruence|]. split; auto.
        rewrite (anti sp st a). lia.
      - inversion H; subst. destruct C as [C|(C & d & Ed & Ld & Sd & Nr)]; [lia|]. split; auto. split; auto. exists d, a.
        rewrite (anti st sp a) in *. repeat (split; [solve [auto|lia]|]). lia.
    Qed.
    Lemma turn_right_ok fuel : forall h left right h' l' r', inside m h -> org m h = Some st -> st < n -> sp < n ->
      (exists d, dest m h = Some d /\ d < n /\ right = ccw st sp d) ->
      (0 < right)%Z \/ ((right <= 0)%Z /\ exists a, apex m h = Some a /\ a < n /\ (0 < ccw st sp a)%Z /\ (left <> 0)%Z) ->
      turn_right n ccw m sp st h left right fuel = Some (h', l', r') -> fine h' l' r'.
    Proof.
      induction fuel as [|fuel IH]; intros h left right h' l' r' I O Ls Lp (d & Ed & Ld & El) C H; cbn [turn_right] in H; destruct (Z.ltb_spec 0 right) as [P|P]; try discriminate.
      - inversion H; subst. destruct C as [C|(C & a & Ea & La & Sa & Nr)]; [lia|]. split; auto. split; auto. exists d, a.
        repeat (split; [solve [auto|lia]|]). lia.
      - destruct (oprev_ok m W h I) as (g & Eg & Ig & Og & Dg). rewrite Eg in H. destruct (corner_some m W g Ig) as (a' & b' & c' & E1 & E2 & E3). rewrite E2 in H.
        destruct (turn n ccw st sp b') as [l|] eqn:T; [|discriminate]. apply turn_some in T. destruct T as (_ & _ & Lc & ->).
        eapply IH; try exact H; auto; [congruence|eauto|]. destruct (Z.ltb_spec 0 (ccw st sp b')); [now left|right]. split; auto. exists d. split; [congruence|]. split; auto. lia.
      - inversion H; subst. destruct C as [C|(C & a & Ea & La & Sa & Nr)]; [lia|]. split; auto. split; auto. exists d, a.
        repeat (split; [solve [auto|lia]|]). lia.
    Qed.
  End Around.
  Lemma find_direction_ok ghost h sp fuel dir h' : inside m h -> find_direction n ccw m ghost h sp fuel = Some (dir, h') ->
    exists st d a, org m h = Some st /\ inside m h' /\ org m h' = Some st /\ dest m h' = Some d /\ apex m h' = Some a /\
      sp < n /\ st < n /\ d < n /\ a < n /\ (0 <= ccw st sp a)%Z /\ (ccw st sp d <= 0)%Z /\
      match dir with LEFTCOLLINEAR => ccw st sp a = 0%Z | RIGHTCOLLINEAR => (0 < ccw st sp a)%Z /\ ccw st sp d = 0%Z | WITHIN => (0 < ccw st sp a)%Z /\ (ccw st sp d < 0)%Z end.
  Proof.
    intros I H. unfold find_direction in H. destruct (corner_some m W h I) as (st & d & a & E1 & E2 & E3). rewrite E1, E2, E3 in H.
    destruct (turn n ccw sp st a) as [left|] eqn:T1; [|discriminate]. destruct (turn n ccw st sp d) as [right|] eqn:T2; [|discriminate].
    apply turn_some in T1, T2. destruct T1 as (Lp & Ls & La & El), T2 as (_ & _ & Ld & Er).
    match type of H with (match ?e with Some _ => _ | None => _ end = _) => destruct e as [lf|] eqn:El'; [|discriminate] end.
    match type of H with (match ?e with Some _ => _ | None => _ end = _) => destruct e as [[[h1 l1] r1]|] eqn:E; [|discriminate] end.
    assert (F : fine sp st h1 l1 r1).
    { destruct (Z.ltb_spec 0 left) as [P|P], (Z.ltb_spec 0 right) as [Q|Q]; cbn [andb] in El'.
      - destruct lf; [eapply turn_left_ok; eauto|eapply turn_right_ok; eauto].
      - inversion El'; subst lf. eapply turn_left_ok; eauto.
      - inversion El'; subst lf. eapply turn_right_ok; eauto.
      - inversion El'; subst lf. inversion E; subst h1 l1 r1. split; auto. split; auto. exists d, a. rewrite El, Er. rewrite (anti st sp a) in *.
        repeat (split; [solve [auto|lia]|]). lia. }
    inversion H; subst h1. destruct F as (I' & O' & d' & a' & Ed & Ea & La' & Ld' & Sa & Sd & Zl & Zr). exists st, d', a'. do 11 (split; [assumption|]).
    destruct (Z.eqb_spec l1 0) as [X|X]; [tauto|]. assert (ccw st sp a' <> 0%Z) by tauto. destruct (Z.eqb_spec r1 0) as [Y|Y]; [split; [lia|tauto]|].
    assert (ccw st sp d' <> 0%Z) by tauto. lia.
  Qed.
End Direction.

(** * scout_segment *)
Lemma shape_refl m : shape m m. Proof. split; auto. split; auto. split; auto. tauto. Qed.
Lemma shape_trans a b c : shape a b -> shape b c -> shape a c.
Proof.
  intros (A1 & A2 & A3 & A4) (B1 & B2 & B3 & B4). split; [congruence|]. split; [intros; now rewrite B2|]. split; [intros; rewrite B3; auto|intros; now rewrite A4, B4].
Qed.
Lemma shape_sym a b : shape a b -> shape b a.
Proof. intros (A & B & C & D). split; [congruence|]. split; [intros; now rewrite B|]. split; [intros; rewrite C; auto|intros; now rewrite D]. Qed.
Lemma shape_inside m m' h : shape m m' -> inside m h -> inside m' h.
Proof. intros (A & _) (B & C). split; auto. now rewrite A. Qed.
Lemma shape_corner m m' h : shape m m' -> inside m h -> org m' h = org m h /\ dest m' h = dest m h /\ apex m' h = apex m h.
Proof.
  intros (_ & _ & A & _) (_ & B). unfold org, dest, apex. rewrite !A; auto; apply Nat.mod_upper_bound; lia.
Qed.
Lemma shape_wf m m' : shape m m' -> wf m -> wf m'.
Proof.
  intros S W. pose proof S as (A & B & C & D). constructor.
  - intros t i Lt Li. apply D. apply (wf_data m W); auto. congruence.
  - intros h (I1 & I2). assert (I : inside m h) by (split; auto; congruence). destruct (wf_nei m W h I) as (g & E & Ig & Eb & O & De).
    exists g. rewrite !B. destruct (shape_corner m m' h S I) as (-> & -> & _), (shape_corner m m' g S Ig) as (-> & -> & _).
    split; auto. split; [eapply shape_inside; eauto|auto].
Qed.
Lemma twin_other k : other_mark k = twin k. Proof. reflexivity. Qed.
Lemma twin_twin k : twin (twin k) = k.
Proof.
  unfold twin. destruct (Nat.even k) eqn:E.
  - rewrite Nat.add_1_r, Nat.even_succ, <- Nat.negb_even, E. cbn. lia.
  - destruct k as [|k]; [discriminate|]. rewrite Nat.even_succ, <- Nat.negb_even in E. apply negb_false_iff in E. cbn. rewrite Nat.sub_0_r, E. lia.
Qed.
Lemma set_marks_ok INV m h g k : wf m -> inside m h -> sym m h = Some g -> h <> g -> length m <= INV ->
  exists m', set_marks INV m h k = Some m' /\ shape m m' /\ mark m' h = Some k /\ mark m' g = Some (twin k) /\
    forall e, inside m e -> e <> h -> e <> g -> mark m' e = mark m e.
Proof.
  intros W I S N L. destruct (wf_nei m W h I) as (g' & S' & Ig & _). rewrite S in S'. inversion S'; subst g'. clear S'.
  assert (X : forall e, inside m e -> get_data m (fst e) (snd e + 3) <> None) by (intros e (A & B); apply (wf_data m W); auto; lia).
  unfold set_marks, set_mark. destruct (put_data_ok m (fst h) (snd h + 3) k (X h I)) as (m1 & -> & L1 & D1 & S1). rewrite S1, S.
  destruct (Nat.eqb_spec (fst g) INV) as [Q|_]; [destruct Ig; lia|]. cbn [negb].
  destruct (put_data_ok m1 (fst g) (snd g + 3) (twin k)) as (m2 & -> & L2 & D2 & S2).
  { rewrite D1. destruct he_eqb; [discriminate|]. now apply X. }
  assert (Eq : forall a b : hedge, he_eqb (fst a, snd a + 3) (fst b, snd b + 3) = he_eqb a b).
  { intros (a1 & a2) (b1 & b2). unfold he_eqb. cbn [fst snd]. f_equal. destruct (Nat.eqb_spec (a2 + 3) (b2 + 3)), (Nat.eqb_spec a2 b2); auto; lia. }
  exists m2. split; [reflexivity|]. split; [|split; [|split]].
  - split; [congruence|]. split; [intros; now rewrite S2, S1|]. split.
    + intros t i Hi. rewrite D2, D1. unfold he_eqb. cbn [fst snd]. destruct (Nat.eqb_spec i (snd g + 3)); [lia|]. destruct (Nat.eqb_spec i (snd h + 3)); [lia|]. now rewrite !andb_false_r.
    + intros t i. rewrite D2, D1. destruct (he_eqb_spec (t, i) (fst g, snd g + 3)) as [Q|_]; [inversion Q; subst; split; [discriminate|intros _; now apply X]|].
      destruct (he_eqb_spec (t, i) (fst h, snd h + 3)) as [Q|_]; [inversion Q; subst; split; [discriminate|intros _; now apply X]|]. tauto.
  - unfold mark. rewrite D2, D1, !Eq. destruct (he_eqb_spec h g); [contradiction|]. destruct (he_eqb_spec h h); [reflexivity|congruence].
  - unfold mark. rewrite D2, Eq. destruct (he_eqb_spec g g); [reflexivity|congruence].
  - intros e _ Nh Ng. unfold mark. rewrite D2, D1, !Eq. destruct (he_eqb_spec e g); [contradiction|]. destruct (he_eqb_spec e h); [contradiction|reflexivity].
Qed.

Lemma walk_shape m m' es : shape m m' -> forall u w, walk m es u w -> walk m' es u w.
Proof.
  intros S. induction es as [|e es IH]; intros u w H; [exact H|]. destruct H as (I & O & v & D & H).
  destruct (shape_corner m m' e S I) as (A & B & _). split; [eapply shape_inside; eauto|]. split; [congruence|]. exists v. split; [congruence|auto].
Qed.

Section Scout.
  Variables (INV n : nat) (ccw : nat -> nat -> nat -> Z) (ghost : list bool) (ep k : nat).
  Hypothesis anti : forall a b c, (ccw b a c = - ccw a b c)%Z.

  (** one marking along the side [e] (seen from the vertex walked from) *)
  Lemma mark_step m h e kk : wf m -> (forall x, inside m x -> sym m x <> Some x) -> length m <= INV -> inside m h ->
    (e = h /\ kk = k) \/ (sym m h = Some e /\ kk = twin k) ->
    exists m', set_marks INV m h kk = Some m' /\ shape m m' /\ forward m' k e /\
      (forall x, inside m x -> carries m k x -> carries m' k x) /\
      (forall x, inside m x -> forward m k x -> sym m x <> Some e -> forward m' k x) /\
      (forall x, inside m x -> mark m' x <> mark m x -> carries m' k x).
  Proof.
    intros W Ns L I C. destruct (wf_nei m W h I) as (g & S & Ig & Sb & _). assert (N : h <> g) by (intros ->; now apply (Ns g)).
    destruct (set_marks_ok INV m h g kk W I S N L) as (m' & E & Sh & Mh & Mg & Mo). exists m'. split; auto. split; auto.
    pose proof Sh as (_ & Sy & _).
    assert (Fe : forward m' k e).
    { destruct C as [(-> & ->)|(Se & ->)].
      - exists g. rewrite Sy. auto.
      - rewrite S in Se. inversion Se; subst e. exists h. rewrite Sy. rewrite twin_twin in Mg. auto. }
    assert (Ch : carries m' k h /\ carries m' k g).
    { destruct C as [(-> & ->)|(Se & ->)]; split; [exists g|exists h|exists g|exists h]; rewrite Sy; (split; [assumption|]); rewrite ?twin_twin in Mg; auto. }
    split; auto. split; [|split].
    - intros x Ix (y & Ey & Hy). destruct (he_eqb_spec x h) as [->|Nh]; [apply Ch|]. destruct (he_eqb_spec x g) as [->|Ng]; [apply Ch|].
      destruct (wf_nei m W x Ix) as (y' & Ey' & Iy & Eb & _). rewrite Ey in Ey'. inversion Ey'; subst y'.
      exists y. rewrite Sy. split; auto. rewrite !Mo; auto; congruence.
    - intros x Ix (y & Ey & H1 & H2) Nx. destruct (he_eqb_spec x e) as [->|Nxe]; [exact Fe|].
      destruct (wf_nei m W x Ix) as (y' & Ey' & Iy & Eb & _). rewrite Ey in Ey'. inversion Ey'; subst y'.
      assert (x <> h /\ x <> g /\ y <> h /\ y <> g) as (A1 & A2 & A3 & A4).
      { destruct C as [(-> & ->)|(Se & ->)]; repeat split; intros ->; congruence. }
      exists y. rewrite Sy. split; auto. rewrite !Mo; auto.
    - intros x Ix Nx. destruct (he_eqb_spec x h) as [->|Nh]; [apply Ch|]. destruct (he_eqb_spec x g) as [->|Ng]; [apply Ch|]. exfalso. apply Nx. now apply Mo.
  Qed.

  Lemma scout_ok turns fuel : forall m h m' h' b, wf m -> (forall x, inside m x -> sym m x <> Some x) -> length m <= INV -> inside m h ->
    scout_segment INV n ccw m ghost h ep k turns fuel = Some (m', h', b) ->
    exists st es w, org m h = Some st /\ shape m m' /\ walk m es st w /\
      (forall x, inside m x -> mark m' x <> mark m x -> carries m' k x) /\
      (forall x, inside m x -> carries m k x -> carries m' k x) /\
      (forall x, inside m x -> forward m k x -> (forall e, In e es -> sym m x <> Some e) -> forward m' k x) /\
      (forall e, In e es -> carries m' k e) /\
      (forall e, In e es -> (forall e', In e' es -> sym m e <> Some e') -> forward m' k e) /\
      (forall e u v, In e es -> org m e = Some u -> dest m e = Some v -> v = ep \/ ccw u ep v = 0%Z) /\
      (forall e u, In e es -> org m e = Some u -> u = st \/ u <> ep) /\
      (if b then w = ep else exists d a, inside m h' /\ org m h' = Some w /\ dest m h' = Some d /\ apex m h' = Some a /\ d <> ep /\ a <> ep /\
         (0 < ccw w ep a)%Z /\ (ccw w ep d < 0)%Z).
  Proof.
    induction fuel as [|fuel IH]; intros m h m' h' b W Ns L I H; [discriminate|]. cbn [scout_segment] in H.
    destruct (find_direction n ccw m ghost h ep turns) as [[dir h1]|] eqn:Ef; [|discriminate].
    destruct (find_direction_ok n ccw m W anti ghost h ep turns dir h1 I Ef) as (st & d & a & O & I1 & O1 & D1 & A1 & _ & _ & _ & _ & Sa & Sd & Dir).
    rewrite D1, A1 in H. destruct (prev_corners m h1 I1) as (P1 & P2 & _). destruct (next_corners m h1 I1) as (N1 & _ & _).
    destruct (wf_nei m W (prev h1) (prev_inside m h1 I1)) as (g & Sg & Ig & Sgb & Og & Dg).
    assert (Og' : org m g = Some st) by congruence. assert (Dg' : dest m g = Some a) by congruence.
    (* one side, then the rest *)
    assert (Step : forall m1 e v h2, inside m e -> org m e = Some st -> dest m e = Some v -> v <> ep -> v = ep \/ ccw st ep v = 0%Z -> shape m m1 -> forward m1 k e ->
      (forall x, inside m x -> carries m k x -> carries m1 k x) ->
      (forall x, inside m x -> forward m k x -> sym m x <> Some e -> forward m1 k x) ->
      (forall x, inside m x -> mark m1 x <> mark m x -> carries m1 k x) -> inside m h2 -> org m h2 = Some v ->
      scout_segment INV n ccw m1 ghost h2 ep k turns fuel = Some (m', h', b) ->
      exists st0 es w, org m h = Some st0 /\ shape m m' /\ walk m es st0 w /\
        (forall x, inside m x -> mark m' x <> mark m x -> carries m' k x) /\
        (forall x, inside m x -> carries m k x -> carries m' k x) /\
        (forall x, inside m x -> forward m k x -> (forall e, In e es -> sym m x <> Some e) -> forward m' k x) /\
        (forall e, In e es -> carries m' k e) /\
        (forall e, In e es -> (forall e', In e' es -> sym m e <> Some e') -> forward m' k e) /\
        (forall e u v, In e es -> org m e = Some u -> dest m e = Some v -> v = ep \/ ccw u ep v = 0%Z) /\
        (forall e u, In e es -> org m e = Some u -> u = st0 \/ u <> ep) /\
        (if b then w = ep else exists d a, inside m h' /\ org m h' = Some w /\ dest m h' = Some d /\ apex m h' = Some a /\ d <> ep /\ a <> ep /\
           (0 < ccw w ep a)%Z /\ (ccw w ep d < 0)%Z)).
    { intros m1 e v h2 Ie Oe De Nv Ve Sh Fe C1 F1 M1 I2 O2 R. pose proof Sh as (Ln & Sy & _).
      assert (W1 : wf m1) by (eapply shape_wf; eauto). assert (Back : forall x, inside m1 x -> inside m x) by (intros x (X1 & X2); split; auto; congruence).
      destruct (IH m1 h2 m' h' b W1) as (v' & es & w & A2 & A3 & A4 & A5 & A6 & A7 & A8 & A9 & A10 & A12 & A11); auto.
      { intros x Ix. rewrite Sy. auto. } { lia. } { eapply shape_inside; eauto. }
      assert (v' = v). { destruct (shape_corner m m1 h2 Sh I2) as (X & _). congruence. } subst v'.
      assert (Sh' : shape m m') by (eapply shape_trans; eauto).
      assert (Sh1 : shape m1 m) by now apply shape_sym.
      assert (Wk : walk m es v w) by (eapply walk_shape; eauto).
      exists st, (e :: es), w. split; auto. split; auto. split; [cbn; eauto|]. split.
      { intros x Ix Nx. destruct (Nat.eq_dec 0 0) as [_|]; [|lia].
        assert (Dc : mark m1 x = mark m x \/ mark m1 x <> mark m x).
        { destruct (mark m1 x) as [p|], (mark m x) as [q|]; try (right; discriminate); auto. destruct (Nat.eq_dec p q); [left|right]; congruence. }
        destruct Dc as [Dc|Dc]; [apply A5; [eapply shape_inside; eauto|congruence]|]. apply A6; [eapply shape_inside; eauto|]. apply M1; auto. }
      split; [intros x Ix Cx; apply A6; [eapply shape_inside; eauto|auto]|]. split.
      { intros x Ix Fx Hx. apply A7; [eapply shape_inside; eauto| |intros y Hy; rewrite Sy; apply Hx; now right]. apply F1; auto. apply Hx. now left. }
      assert (Ce : carries m1 k e) by (destruct Fe as (y & Y1 & Y2 & Y3); exists y; auto).
      split; [intros x [<-|Hx]; [apply A6; [eapply shape_inside; eauto|exact Ce]|auto]|]. split.
      { intros x [<-|Hx] Hs.
        - apply A7; [eapply shape_inside; eauto|exact Fe|]. intros y Hy. rewrite Sy. apply Hs. now right.
        - apply A9; auto. intros y Hy. rewrite Sy. apply Hs. now right. }
      assert (Ix : forall x, In x es -> inside m x).
      { clear -Wk. revert v Wk. induction es as [|z es IHe]; intros v Wk x Hx; [contradiction|]. destruct Wk as (Q1 & _ & v' & _ & Q2). destruct Hx as [<-|Hx]; eauto. }
      split.
      { intros x u y [<-|Hx] Ou Dy.
        - assert (u = st) by congruence. assert (y = v) by congruence. subst. exact Ve.
        - destruct (shape_corner m m1 x Sh (Ix x Hx)) as (X1 & X2 & _). apply (A10 x); auto; congruence. }
      split.
      { intros x u [<-|Hx] Ou; [left; congruence|]. destruct (shape_corner m m1 x Sh (Ix x Hx)) as (X1 & X2 & _).
        destruct (A12 x u Hx) as [->|Nu]; auto. congruence. }
      destruct b; auto. destruct A11 as (d2 & a2 & B1 & B2 & B3 & B4 & B5). exists d2, a2. pose proof (Back _ B1) as B1'. destruct (shape_corner m m1 h' Sh B1') as (X1 & X2 & X3).
      split; auto. split; [congruence|]. split; [congruence|]. split; [congruence|auto]. }
    destruct (Nat.eqb_spec a ep) as [Ea|Na].
    - destruct (mark_step m (prev h1) g (twin k) W Ns L (prev_inside m h1 I1)) as (m1 & E1 & Sh & Fe & C1 & F1 & M1); [auto|].
      rewrite E1 in H. inversion H; subst m1 h' b. exists st, [g], ep. split; auto. split; auto. split; [cbn; eauto 10|]. split; auto. split; auto.
      split; [intros x Ix Fx Hx; apply F1; auto; apply Hx; now left|].
      split; [intros e [<-|[]]; destruct Fe as (y & Y1 & Y2 & Y3); exists y; auto|]. split; [intros e [<-|[]] _; exact Fe|].
      split; [intros e u v [<-|[]] Ou Dv; left; congruence|]. split; auto. intros e u [<-|[]] Ou. left. congruence.
    - destruct (Nat.eqb_spec d ep) as [Ed|Nd].
      + destruct (mark_step m h1 h1 k W Ns L I1) as (m1 & E1 & Sh & Fe & C1 & F1 & M1); [auto|].
        rewrite E1 in H. inversion H; subst m1 h' b. exists st, [h1], ep. split; auto. split; auto. split; [cbn; eauto 10|]. split; auto. split; auto.
        split; [intros x Ix Fx Hx; apply F1; auto; apply Hx; now left|].
        split; [intros e [<-|[]]; destruct Fe as (y & Y1 & Y2 & Y3); exists y; auto|]. split; [intros e [<-|[]] _; exact Fe|].
        split; [intros e u v [<-|[]] Ou Dv; left; congruence|]. split; auto. intros e u [<-|[]] Ou. left. congruence.
      + destruct dir.
        * inversion H; subst m' h' b. exists st, [], st. split; auto. split; [apply shape_refl|]. split; [reflexivity|]. split; [intros; congruence|].
          split; auto. split; auto. split; [intros e []|]. split; [intros e []|]. split; [intros e u v []|]. split; [intros e u []|]. exists d, a. auto 10.
        * destruct (mark_step m (prev h1) g (twin k) W Ns L (prev_inside m h1 I1)) as (m1 & E1 & Sh & Fe & C1 & F1 & M1); [auto|].
          rewrite E1 in H. apply (Step m1 g a (prev h1)); auto. now apply prev_inside. congruence.
        * destruct (mark_step m h1 h1 k W Ns L I1) as (m1 & E1 & Sh & Fe & C1 & F1 & M1); [auto|].
          rewrite E1 in H. apply (Step m1 h1 d (next h1)); auto. right. apply Dir. now apply next_inside. congruence.
  Qed.
End Scout.
