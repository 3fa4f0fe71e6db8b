(** make_loop orders the pieces of the cut around the polygon; the ends of the pieces are the starts. *)
From Coq Require Import List Arith Bool Lia Permutation Relations.
From Verif Require Import Lib Dispatch Tet Bsp BspSpec BspCut BwBase.
Import ListNotations.

(** * The walk *)
Lemma gid_eqb_spec a b : reflect (a = b) (gid_eqb a b).
Proof. destruct a as [x|x], b as [y|y]; cbn; try (constructor; congruence); destruct (Nat.eqb_spec x y); constructor; congruence. Qed.
Lemma find_start_in k l : forall n j, find_start k l n = Some j -> In k l.
Proof.
  induction l as [|a t IH]; intros n j F; [discriminate|]. cbn in F.
  destruct (find_start k t (S n)) eqn:E; [right; now apply (IH (S n) n0)|]. destruct (gid_eqb_spec a k); [left; auto|discriminate].
Qed.
Lemma find_start_some k l : forall i, In k l -> exists j, find_start k l i = Some (i + j) /\ nth_error l j = Some k.
Proof.
  induction l as [|s t IH]; intros i H; [easy|]. cbn [find_start].
  destruct (find_start k t (S i)) as [j|] eqn:F.
  - assert (H0 := find_start_in _ _ _ _ F).
    destruct (IH (S i) H0) as (j' & E & E'). rewrite F in E. injection E as ->. exists (S j'). split; [f_equal; lia|exact E'].
  - assert (~ In k t) by (intros Hk; destruct (IH (S i) Hk) as (j & E & _); congruence).
    destruct H as [->|H]; [|easy]. destruct (gid_eqb_spec k k); [|easy]. exists 0. split; [f_equal; lia|reflexivity].
Qed.

Section Walk.
  Variables (starts ends : list gid) (n : nat).
  Hypothesis (LS : length starts = n) (LE : length ends = n) (NS : NoDup starts) (PM : Permutation starts ends) (N0 : 0 < n).
  Definition next (i : nat) : nat := match nth_error ends i with Some e => match find_start e starts 0 with Some j => j | None => 0 end | None => 0 end.
  Lemma next_spec i : i < n -> exists e, nth_error ends i = Some e /\ find_start e starts 0 = Some (next i) /\ nth_error starts (next i) = Some e /\ next i < n.
  Proof using All.
    intros Hi. unfold next. destruct (nth_error_ex ends i) as (e & E); [lia|]. rewrite E. exists e. split; auto.
    destruct (find_start_some e starts 0) as (j & F & J).
    { apply (Permutation_in _ (Permutation_sym PM)). now apply nth_error_In in E. }
    rewrite F. cbn. split; auto. split; auto. rewrite <- LS. now apply nth_error_lt in J.
  Qed.
  Lemma next_inj i j : i < n -> j < n -> next i = next j -> i = j.
  Proof using All.
    intros Hi Hj E. destruct (next_spec i Hi) as (e & E1 & _ & E2 & _). destruct (next_spec j Hj) as (e' & E1' & _ & E2' & _).
    rewrite E, E2' in E2. injection E2 as ->. assert (NE : NoDup ends) by now apply (Permutation_NoDup PM).
    apply (NoDup_nth_error ends); auto; [now apply nth_error_lt in E1|congruence].
  Qed.
  (** the first return to 0 *)
  Lemma returns : exists m, 0 < m /\ m <= n /\ it next m 0 = 0 /\ forall k, 0 < k -> k < m -> it next k 0 <> 0.
  Proof using All.
    destruct (orbit_returns next (fun i => i < n) (fun i => i) n) with (x := 0) as (k & K0 & Kn & Ek); auto.
    { intros x Hx. now destruct (next_spec x Hx) as (_ & _ & _ & _ & H). }
    { intros. now apply next_inj. }
    assert (G : forall k, 0 < k -> it next k 0 = 0 -> exists m, 0 < m /\ m <= k /\ it next m 0 = 0 /\ forall j, 0 < j -> j < m -> it next j 0 <> 0).
    { clear -N0. induction k as [k IH] using lt_wf_ind. intros K E.
      assert (D : (exists j, j < k /\ 0 < j /\ it next j 0 = 0) \/ forall j, 0 < j -> j < k -> it next j 0 <> 0).
      { clear -N0. induction k as [|k [(j & L & J)|H]]; [right; intros; lia|left; exists j; split; auto|].
        destruct (Nat.eq_dec (it next k 0) 0) as [E|E].
        - destruct k; [right; intros; lia|]. left. exists (S k). split; auto. split; [lia|auto].
        - right. intros j J L. destruct (Nat.eq_dec j k); [subst; auto|apply H; lia]. }
      destruct D as [(j & L & J & Ej)|H]; [|exists k; auto]. destruct (IH j L J Ej) as (m & M & Mj & Em & Hm). exists m. split; auto. split; [lia|auto]. }
    destruct (G k K0 Ek) as (m & M0 & Mk & Em & Hm). exists m. split; auto. split; [lia|auto].
  Qed.
  Lemma it_lt k : it next k 0 < n.
  Proof using All. induction k; cbn; auto. now destruct (next_spec _ IHk) as (_ & _ & _ & _ & H). Qed.
  Lemma loop_from_ok : exists m, 0 < m /\ it next m 0 = 0 /\ loop_from starts ends 0 (S n) = Some (map (fun k => it next k 0) (seq 1 (m - 1))) /\
    NoDup (map (fun k => it next k 0) (seq 0 m)) /\ forall k, exists j, j < m /\ it next k 0 = it next j 0.
  Proof using All.
    destruct returns as (m & M0 & Mn & Em & Hm). exists m. split; auto. split; auto. split; [|split].
    - assert (G : forall fuel k, k < m -> m <= k + fuel -> loop_from starts ends (it next k 0) fuel = Some (map (fun k => it next k 0) (seq (S k) (m - 1 - k)))).
      { induction fuel as [|fuel IH]; intros k Hk Hf; [lia|]. cbn [loop_from].
        destruct (next_spec _ (it_lt k)) as (e & E1 & E2 & _ & _). rewrite E1, E2.
        change (next (it next k 0)) with (it next (S k) 0).
        destruct (Nat.eqb_spec (it next (S k) 0) 0) as [Z|Z].
        - destruct (Nat.eq_dec (S k) m); [subst m; now replace (S k - 1 - k) with 0 by lia|]. exfalso. apply (Hm (S k)); auto; lia.
        - destruct (Nat.eq_dec (S k) m); [subst m; congruence|]. rewrite IH by lia.
          replace (m - 1 - k) with (S (m - 1 - S k)) by lia. reflexivity. }
      specialize (G (S n) 0 M0 ltac:(lia)). cbn [it] in G. rewrite Nat.sub_0_r in G. exact G.
    - assert (I : forall i j, i < m -> j < m -> i <= j -> it next i 0 = it next j 0 -> i = j).
      { intros i j Hi Hj L E. destruct (Nat.eq_dec i j); auto. exfalso.
        apply (Hm (j - i)); [lia|lia|]. apply (it_back next (fun i => i < n)) with (i := i) (j := j); auto.
        - intros x Hx. now destruct (next_spec x Hx) as (_ & _ & _ & _ & H).
        - intros. now apply next_inj. }
      assert (ND : forall a b, a + b <= m -> NoDup (map (fun k => it next k 0) (seq a b))).
      { intros a b. revert a. induction b as [|b IH]; intros a L; [constructor|]. cbn. constructor; [|apply IH; lia].
        intros H. apply in_map_iff in H as (k & E & Hk). apply in_seq in Hk. assert (a = k) by (apply I; [lia|lia|lia|congruence]). lia. }
      apply ND. lia.
    - induction k as [|k (j & J & E)]; [exists 0; auto|]. cbn. rewrite E.
      destruct (Nat.eq_dec (S j) m); [exists 0; split; auto; subst m; exact Em|exists (S j); split; [lia|reflexivity]].
  Qed.
End Walk.

Lemma omap_map {A B} (f : A -> option B) (g : A -> B) l : (forall x, In x l -> f x = Some (g x)) -> omap f l = Some (map g l).
Proof.
  induction l as [|x t IH]; intros H; [reflexivity|]. cbn. rewrite (H x) by (cbn; auto). rewrite IH; auto. intros y Hy. apply H. now right.
Qed.
Lemma omap_some {A B} (f : A -> option B) l l' : omap f l = Some l' -> Forall2 (fun x y => f x = Some y) l l'.
Proof.
  revert l'; induction l as [|x t IH]; intros l' E; cbn in E; [injection E as <-; constructor|].
  destruct (f x) as [y|] eqn:Ef; [|discriminate]. destruct (omap f t) as [r|]; [|discriminate]. injection E as <-. constructor; auto.
Qed.
Lemma omap_ex {A B} (f : A -> option B) l : (forall x, In x l -> exists y, f x = Some y) -> exists l', omap f l = Some l'.
Proof.
  induction l as [|x t IH]; intros H; [now exists []|]. cbn. destruct (H x) as (y & ->); [cbn; auto|].
  destruct IH as (r & ->); eauto. intros z Hz. apply H. now right.
Qed.

(** A closed chain: the end of each element is the start of the next one. *)
Fixpoint chained {A} (e f : A -> gid) (x : A) (l : list A) (z : gid) : Prop :=
  match l with [] => e x = z | y :: t => e x = f y /\ chained e f y t z end.
(** make_loop, when the starts are distinct, the ends are the starts and the pieces are connected. *)
Theorem make_loop_ok cross rs (sf ef : nat * split_result -> gid) : rs <> [] ->
  (forall r, In r rs -> split_start cross (snd r) = Some (sf r)) -> (forall r, In r rs -> split_end cross (snd r) = Some (ef r)) ->
  NoDup (map sf rs) -> Permutation (map sf rs) (map ef rs) ->
  (forall p q, In p rs -> In q rs -> clos_refl_trans _ (fun a b => In a rs /\ In b rs /\ ef a = sf b) p q) ->
  exists x t, make_loop cross rs = Some (x :: t) /\ Permutation rs (x :: t) /\ chained ef sf x t (sf x).
Proof.
  intros NE HS HE ND PM CN. unfold make_loop. rewrite (omap_map _ sf), (omap_map _ ef) by auto.
  set (n := length rs). assert (N0 : 0 < n) by (unfold n; destruct rs; [easy|cbn; lia]).
  assert (LS : length (map sf rs) = n) by apply map_length. assert (LE : length (map ef rs) = n) by apply map_length.
  destruct (loop_from_ok (map sf rs) (map ef rs) n LS LE ND PM N0) as (m & M0 & Em & LF & NDm & CL).
  fold n. rewrite LF. set (nx := next (map sf rs) (map ef rs)) in *.
  assert (NX : forall i, i < n -> exists r r', nth_error rs i = Some r /\ nth_error rs (nx i) = Some r' /\ ef r = sf r' /\ nx i < n).
  { intros i Hi. destruct (next_spec _ _ _ LS LE ND PM N0 i Hi) as (e & E1 & _ & E2 & L). destruct (nth_error_ex rs i Hi) as (r & R).
    destruct (nth_error_ex rs (nx i) L) as (r' & R'). exists r, r'. rewrite (map_nth_error ef _ _ R) in E1. fold nx in E2.
    rewrite (map_nth_error sf _ _ R') in E2. do 2 (split; auto). split; auto. congruence. }
  assert (IL : forall k, it nx k 0 < n) by (intros k; apply (it_lt _ _ _ LS LE ND PM N0)).
  assert (E0 : 0 :: map (fun k => it nx k 0) (seq 1 (m - 1)) = map (fun k => it nx k 0) (seq 0 m)).
  { destruct m as [|m]; [lia|]. cbn [seq map]. f_equal. f_equal. f_equal. lia. }
  rewrite E0. set (d := match rs with r :: _ => r | [] => (0, IsPos false) end).
  rewrite (omap_map _ (fun i => nth i rs d)).
  2:{ intros i Hi. apply in_map_iff in Hi as (k & <- & _). apply nth_error_nth'. apply IL. }
  set (is := map (fun k => it nx k 0) (seq 0 m)) in *.
  (* every piece is reached *)
  assert (RE : forall i r, nth_error rs i = Some r -> In i is).
  { intros i r R. destruct (nth_error_ex rs 0 N0) as (r0 & R0).
    assert (C := CN r0 r (nth_error_In _ _ R0) (nth_error_In _ _ R)). apply clos_rt_rtn1 in C.
    assert (G : exists j, nth_error rs j = Some r /\ In j is).
    { clear i R. induction C as [|a b (Ha & Hb & E) _ (i & Ri & Ii)].
      - exists 0. split; auto. unfold is. apply in_map_iff. exists 0. split; auto. apply in_seq. lia.
      - assert (Hi : i < n) by now apply nth_error_lt in Ri. destruct (NX i Hi) as (r & r' & R & R' & Er & L).
        assert (r = a) by congruence. subst r. assert (r' = b).
        { assert (sf r' = sf b) by congruence. apply In_nth_error in Hb as (jb & Rb).
          assert (nx i = jb); [|congruence]. apply (NoDup_nth_error (map sf rs)); auto; [now rewrite map_length|].
          rewrite (map_nth_error sf _ _ R'), (map_nth_error sf _ _ Rb). congruence. }
        subst r'. exists (nx i). split; auto.
        unfold is in Ii. apply in_map_iff in Ii as (k & <- & _). destruct (CL (S k)) as (j & J & EJ). cbn [it] in EJ.
        rewrite EJ. unfold is. apply in_map_iff. exists j. split; auto. apply in_seq. lia. }
    destruct G as (j & Rj & Ij). assert (i = j); [|now subst].
    apply (NoDup_nth_error (map sf rs)); auto; [rewrite map_length; now apply nth_error_lt in R|].
    now rewrite (map_nth_error sf _ _ R), (map_nth_error sf _ _ Rj). }
  assert (PI : Permutation (seq 0 n) is).
  { apply NoDup_Permutation; [apply seq_NoDup|exact NDm|]. intros i. rewrite in_seq. split.
    - intros (_ & Hi). destruct (nth_error_ex rs i Hi) as (r & R). eauto.
    - intros Hi. unfold is in Hi. apply in_map_iff in Hi as (k & <- & _). specialize (IL k). lia. }
  assert (PR : Permutation rs (map (fun i => nth i rs d) is)).
  { rewrite <- PI. assert (E : map (fun i => nth i rs d) (seq 0 n) = rs); [|now rewrite E].
    unfold n. clearbody d. clear. induction rs as [|a l IH]; [reflexivity|]. cbn. f_equal.
    rewrite <- seq_shift, map_map. exact IH. }
  rewrite <- E0 in PR |- *. cbn [map] in PR |- *. eexists _, _. split; [reflexivity|]. split; [exact PR|].
  rewrite map_map.
  assert (CH : forall b a, a + b = m -> 0 < a -> chained ef sf (nth (it nx (a - 1) 0) rs d) (map (fun k => nth (it nx k 0) rs d) (seq a b)) (sf (nth 0 rs d))).
  { assert (ST : forall a, ef (nth (it nx a 0) rs d) = sf (nth (it nx (S a) 0) rs d)).
    { intros a. destruct (NX _ (IL a)) as (r & r' & R & R' & E & _). cbn [it].
      rewrite (nth_error_nth _ _ d R), (nth_error_nth _ _ d R'). exact E. }
    induction b as [|b IH]; intros a E A.
    - cbn. rewrite ST. replace (S (a - 1)) with m by lia. now rewrite Em.
    - cbn [seq map chained]. split.
      + rewrite ST. now replace (S (a - 1)) with a by lia.
      + specialize (IH (S a) ltac:(lia) ltac:(lia)). now replace (S a - 1) with a in IH by lia. }
  apply (CH (m - 1) 1); lia.
Qed.

(** * The ends of the paths are their starts *)
Lemma balanced_perm E : balanced E <-> Permutation E (map swap E).
Proof.
  assert (S : forall E u v, times (map swap E) (u, v) = times E (v, u)).
  { clear. induction E as [|(a, b) E IH]; intros u v; auto. unfold times in *. cbn [map count_occ]. rewrite IH.
    change (swap (a, b)) with (b, a). destruct (he_dec (b, a) (u, v)) as [e|n], (he_dec (a, b) (v, u)) as [e'|n']; auto; exfalso; congruence. }
  rewrite (Permutation_count_occ he_dec). split.
  - intros B (u, v). change (times E (u, v) = times (map swap E) (u, v)). now rewrite S, B.
  - intros H u v. specialize (H (u, v)). change (times E (u, v) = times (map swap E) (u, v)) in H. now rewrite S in H.
Qed.

Section Cut.
  Variable s : nat -> Orientation.
  Definition outs (h : nat * nat) : list point :=
    match s (fst h), s (snd h) with
    | Zero, Positive => [PV (fst h)]
    | Negative, Positive => [PX (fst h) (snd h)]
    | _, _ => []
    end.
  Definition ins (h : nat * nat) : list point := outs (swap h).
  Lemma outs_run g x t y : all s g (x :: t) -> flat_map outs (path_edges x t y) = outs (last (x :: t) 0, y).
  Proof.
    revert x; induction t as [|b t IH]; intros x H; [cbn; now rewrite app_nil_r|].
    cbn [path_edges flat_map]. rewrite IH by (intros v Hv; apply H; now right).
    assert (E : outs (x, b) = []). { unfold outs. cbn. rewrite (H x), (H b) by (cbn; auto). now destruct g. }
    rewrite E. now rewrite (last_cons x), !(last_cons b).
  Qed.
  Lemma ins_run g x t y : all s g (x :: t) -> flat_map ins (path_edges x t y) = ins (last (x :: t) 0, y).
  Proof.
    revert x; induction t as [|b t IH]; intros x H; [cbn; now rewrite app_nil_r|].
    cbn [path_edges flat_map]. rewrite IH by (intros v Hv; apply H; now right).
    assert (E : ins (x, b) = []). { unfold ins, outs. cbn. rewrite (H x), (H b) by (cbn; auto). now destruct g. }
    rewrite E. now rewrite (last_cons x), !(last_cons b).
  Qed.
  Definition starts_of (r : option (list point)) : list point := match r with Some p => [hd (PV 0) p] | None => [] end.
  Definition ends_of (r : option (list point)) : list point := match r with Some p => [last p (PV 0)] | None => [] end.
  Lemma last_in {A} (x : A) t d : In (last (x :: t) d) (x :: t).
  Proof. revert x; induction t as [|b t IH]; intros x; [cbn; auto|]. right. apply (IH b). Qed.
  Lemma cut_balance o r : cut_face s o r ->
    Permutation (starts_of r ++ flat_map ins (hes o)) (ends_of r ++ flat_map outs (hes o)).
  Proof.
    assert (T : forall r l l', turned l l' -> Permutation (starts_of r ++ flat_map ins (hes l')) (ends_of r ++ flat_map outs (hes l')) ->
      Permutation (starts_of r ++ flat_map ins (hes l)) (ends_of r ++ flat_map outs (hes l))).
    { clear. intros r l l' T H. rewrite (turned_perm _ _ (turned_flat_map ins _ _ (hes_turned _ _ T))).
      now rewrite (turned_perm _ _ (turned_flat_map outs _ _ (hes_turned _ _ T))). }
    intros [NE A|z P TU NP SZ AP|Z N TU NN AZ AN|Z P TU LZ NP AZ AP|a P b N x y TU NP NN AP AN HX HY].
    - destruct o as [|x t]; [easy|]. cbn [hes]. rewrite (outs_run _ _ _ _ A), (ins_run _ _ _ _ A).
      unfold ins, outs. cbn [fst snd swap]. rewrite (A x), (A (last (x :: t) 0)) by (try apply last_in; cbn; auto). constructor.
    - apply (T _ _ _ TU). destruct P as [|p P]; [easy|]. cbn [hes path_edges flat_map].
      rewrite (outs_run _ _ _ _ AP), (ins_run _ _ _ _ AP). unfold ins, outs. cbn [fst snd swap].
      rewrite SZ, (AP p), (AP (last (p :: P) 0)) by (try apply last_in; cbn; auto). apply Permutation_refl.
    - apply (T _ _ _ TU). destruct N as [|n N]; [easy|]. destruct Z as [|z Z]; cbn [hes app].
      + rewrite (outs_run _ _ _ _ AN), (ins_run _ _ _ _ AN). unfold ins, outs. cbn [fst snd swap].
        rewrite (AN n), (AN (last (n :: N) 0)) by (try apply last_in; cbn; auto). constructor.
      + rewrite path_edges_app, !flat_map_app, (outs_run _ _ _ _ AN), (ins_run _ _ _ _ AN), (outs_run _ _ _ _ AZ), (ins_run _ _ _ _ AZ).
        unfold ins, outs. cbn [fst snd swap].
        rewrite (AN n), (AN (last (n :: N) 0)), (AZ z), (AZ (last (z :: Z) 0)) by (try apply last_in; cbn; auto). constructor.
    - apply (T _ _ _ TU). destruct P as [|p P]; [easy|]. destruct Z as [|z Z]; [cbn in LZ; lia|]. cbn [hes app].
      rewrite path_edges_app, !flat_map_app, (outs_run _ _ _ _ AP), (ins_run _ _ _ _ AP), (outs_run _ _ _ _ AZ), (ins_run _ _ _ _ AZ).
      unfold ins, outs. cbn [fst snd swap].
      rewrite (AP p), (AP (last (p :: P) 0)), (AZ z), (AZ (last (z :: Z) 0)) by (try apply last_in; cbn; auto).
      unfold starts_of, ends_of.
      assert (H : hd (PV 0) (map PV (rev (z :: Z))) = PV (last (z :: Z) 0)).
      { rewrite <- hd_rev. cbn [rev]. destruct (rev Z); reflexivity. }
      assert (H' : last (map PV (rev (z :: Z))) (PV 0) = PV z) by (cbn [rev]; rewrite map_app; apply last_last).
      rewrite H, H'. apply perm_swap.
    - apply (T _ _ _ TU). destruct P as [|p P]; [easy|]. destruct N as [|n N]; [easy|].
      assert (Sp : s p = Positive) by (apply AP; cbn; auto). assert (Sn : s n = Negative) by (apply AN; cbn; auto).
      assert (Sp' : s (last (p :: P) 0) = Positive) by (apply AP, last_in). assert (Sn' : s (last (n :: N) 0) = Negative) by (apply AN, last_in).
      destruct HX as [(z & -> & SZ & ->)|(-> & ->)], HY as [(z' & -> & SZ' & ->)|(-> & ->)]; cbn [app hes path_edges flat_map];
        rewrite ?path_edges_app, !flat_map_app; cbn [app hes path_edges flat_map];
        rewrite !(outs_run _ _ _ _ AP), !(ins_run _ _ _ _ AP), !(outs_run _ _ _ _ AN), !(ins_run _ _ _ _ AN);
        unfold ins, outs; cbn [fst snd swap]; rewrite ?Sp, ?Sn, ?Sp', ?Sn', ?SZ, ?SZ'; cbn [app starts_of ends_of hd last];
        try apply Permutation_refl; try apply perm_swap.
  Qed.
  Definition path_start (p : list point) := hd (PV 0) p.
  Definition path_end (p : list point) := last p (PV 0).
  Lemma cut_ends (ols : list (list nat)) rs : Forall2 (cut_face s) ols rs -> balanced (concat (map hes ols)) ->
    Permutation (map path_start (somes rs)) (map path_end (somes rs)).
  Proof.
    intros F B.
    assert (G : Permutation (map path_start (somes rs) ++ flat_map ins (concat (map hes ols))) (map path_end (somes rs) ++ flat_map outs (concat (map hes ols)))).
    { clear B. induction F as [|o r ols rs C F IH]; [constructor|]. cbn [map concat]. rewrite !flat_map_app.
      assert (ES : map path_start (somes (r :: rs)) = starts_of r ++ map path_start (somes rs)) by (destruct r; reflexivity).
      assert (EE : map path_end (somes (r :: rs)) = ends_of r ++ map path_end (somes rs)) by (destruct r; reflexivity).
      rewrite ES, EE. apply cut_balance in C.
      assert (SW : forall a b c d : list point, Permutation ((a ++ b) ++ c ++ d) ((a ++ c) ++ b ++ d)).
      { intros a b c d. rewrite <- !app_assoc. apply Permutation_app_head. rewrite !app_assoc. apply Permutation_app_tail. apply Permutation_app_comm. }
      rewrite SW, (SW (ends_of r)). now apply Permutation_app. }
    apply balanced_perm in B.
    assert (I : Permutation (flat_map ins (concat (map hes ols))) (flat_map outs (concat (map hes ols)))).
    { rewrite (Permutation_flat_map outs B). unfold ins. clear. induction (concat (map hes ols)) as [|h t IH]; [constructor|]. cbn. now apply Permutation_app_head. }
    rewrite I in G. now apply Permutation_app_inv_r in G.
  Qed.
End Cut.
