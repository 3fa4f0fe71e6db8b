(** Lemmas on merge_hulls (C82): the mesh as two functions, and what holds of it while
    the two triangulations are knit together. *)
From Coq Require Import List Arith Bool ZArith Reals Lia Lra Permutation.
From Verif Require Import Lib Flip Prop_Flip TriSeg TriSegSpec Prop_TriSeg DivConq DivConqSpec MergeHulls MergeSpec.
Import ListNotations.
Local Open Scope opt_scope.

(** * Sides of a triangle *)
Lemma nn h : snd h < 3 -> next (next h) = prev h.
Proof. destruct h as (t & o). cbn [snd]. intros A. unfold next, prev. cbn [fst snd]. destruct (three _ A) as [->|[->| ->]]; reflexivity. Qed.
Lemma np h : snd h < 3 -> next (prev h) = h.
Proof. destruct h as (t & o). cbn [snd]. intros A. unfold next, prev. cbn [fst snd]. destruct (three _ A) as [->|[->| ->]]; reflexivity. Qed.
Lemma pn h : snd h < 3 -> prev (next h) = h.
Proof. destruct h as (t & o). cbn [snd]. intros A. unfold next, prev. cbn [fst snd]. destruct (three _ A) as [->|[->| ->]]; reflexivity. Qed.
Lemma pp h : snd h < 3 -> prev (prev h) = next h.
Proof. destruct h as (t & o). cbn [snd]. intros A. unfold next, prev. cbn [fst snd]. destruct (three _ A) as [->|[->| ->]]; reflexivity. Qed.
Lemma snd_next h : snd (next h) < 3. Proof. apply Nat.mod_upper_bound. lia. Qed.
Lemma snd_prev h : snd (prev h) < 3. Proof. apply Nat.mod_upper_bound. lia. Qed.

(** * Writing *)
Definition up {A} (f : hedge -> option A) (h : hedge) (v : A) : hedge -> option A := fun x => if he_eqb x h then Some v else f x.
Lemma up_eq {A} (f : hedge -> option A) h v : up f h v h = Some v.
Proof. unfold up. destruct (he_eqb_spec h h); congruence. Qed.
Lemma up_ne {A} (f : hedge -> option A) h v x : x <> h -> up f h v x = f x.
Proof. unfold up. destruct (he_eqb_spec x h); congruence. Qed.
Lemma up_some {A} (f : hedge -> option A) h v x : f x <> None -> up f h v x <> None.
Proof. unfold up. destruct (he_eqb x h); congruence. Qed.

(** The mesh has [N] triangles, the first of which are [m0], and reads as [D] and [S]. *)
Definition rep (m0 : list triangle) (N : nat) (D : hedge -> option nat) (S : hedge -> option hedge) (m : list triangle) : Prop :=
  length m = N /\ firstn (length m0) m = m0 /\ (forall t i, get_data m t i = D (t, i)) /\ (forall h, sym m h = S h).
Lemma firstn_upd {A} (l : list A) n t v : n <= t -> firstn n (upd l t v) = firstn n l.
Proof. revert l t. induction n as [|n IH]; intros [|x l] [|t] H; cbn [firstn upd]; auto; try lia. f_equal. apply IH. lia. Qed.
Lemma put_data_rep m0 N D S m h v : rep m0 N D S m -> length m0 <= fst h -> D h <> None ->
  exists m', put_data m (fst h) (snd h) v = Some m' /\ rep m0 N (up D h v) S m'.
Proof.
  intros (L & F & Rd & Rs) Hl Hd. destruct (put_data_ok m (fst h) (snd h) v) as (m' & E & L' & D' & S'); [rewrite Rd; now destruct h|].
  exists m'. split; [exact E|]. split; [congruence|]. split; [|split].
  - unfold put_data in E. destruct (nth_error m (fst h)) as [tr|]; [|discriminate]. destruct (set (data tr) (snd h) v) as [d|]; [|discriminate].
    unfold set in E. destruct (fst h <? length m); [|discriminate]. injection E as <-. now rewrite firstn_upd.
  - intros t i. rewrite D', Rd. unfold up. now destruct h.
  - intros x. now rewrite S'.
Qed.
Lemma put_nei_rep m0 N D S m h g : rep m0 N D S m -> length m0 <= fst h -> S h <> None ->
  exists m', put_nei m h g = Some m' /\ rep m0 N D (up S h g) m'.
Proof.
  intros (L & F & Rd & Rs) Hl Hd. destruct (put_nei_ok m h g) as (m' & E & L' & D' & S'); [now rewrite Rs|].
  exists m'. split; [exact E|]. split; [congruence|]. split; [|split].
  - unfold put_nei in E. destruct (nth_error m (fst h)) as [tr|]; [|discriminate]. destruct (set (nei tr) (snd h) g) as [d|]; [|discriminate].
    unfold set in E. destruct (fst h <? length m); [|discriminate]. injection E as <-. now rewrite firstn_upd.
  - intros t i. now rewrite D', Rd.
  - intros x. rewrite S', Rs. reflexivity.
Qed.
Lemma bond_rep m0 N D S m h g : rep m0 N D S m -> length m0 <= fst h -> length m0 <= fst g -> S h <> None -> S g <> None ->
  exists m', bond m h g = Some m' /\ rep m0 N D (up (up S h g) g h) m'.
Proof.
  intros R Hh Hg Sh Sg. unfold bond. destruct (put_nei_rep _ _ _ _ _ h g R Hh Sh) as (m1 & -> & R1).
  apply (put_nei_rep _ _ _ _ _ g h R1 Hg). now apply up_some.
Qed.
(** A new triangle. *)
Definition newD (INV N : nat) (D : hedge -> option nat) : hedge -> option nat := fun h => if fst h =? N then (if snd h <? 6 then Some INV else None) else D h.
Definition newS (INV N : nat) (S : hedge -> option hedge) : hedge -> option hedge := fun h => if fst h =? N then (if snd h <? 3 then Some (INV, 0) else None) else S h.
Lemma make_rep INV m0 N D S m : length m0 <= N -> rep m0 N D S m -> exists m', make_triangle INV m = (m', (N, 0)) /\ rep m0 (N + 1) (newD INV N D) (newS INV N S) m'.
Proof.
  intros Hl (L & F & Rd & Rs). unfold make_triangle. eexists. split; [rewrite L; reflexivity|]. split; [rewrite app_length; cbn; lia|]. split; [|split].
  - rewrite firstn_app. replace (length m0 - length m) with 0 by lia. cbn [firstn]. rewrite app_nil_r. exact F.
  - intros t i. unfold newD. cbn [fst snd]. destruct (Nat.eqb_spec t N) as [->|Q].
    + unfold get_data. rewrite nth_error_app2 by lia. rewrite L, Nat.sub_diag. cbn [nth_error default_tri data]. do 6 (destruct i as [|i]; [reflexivity|]). destruct i; reflexivity.
    + rewrite <- Rd. unfold get_data. destruct (Nat.lt_ge_cases t (length m)); [now rewrite nth_error_app1 by lia|].
      rewrite nth_error_app2 by lia. destruct (t - length m) as [|k] eqn:Qk; [lia|]. cbn [nth_error]. replace (nth_error m t) with (@None triangle) by (symmetry; apply nth_error_None; lia). destruct k; reflexivity.
  - intros (t & i). unfold newS. cbn [fst snd]. destruct (Nat.eqb_spec t N) as [->|Q].
    + unfold sym. cbn [fst snd]. rewrite nth_error_app2 by lia. rewrite L, Nat.sub_diag. cbn [nth_error default_tri nei]. do 3 (destruct i as [|i]; [reflexivity|]). destruct i; reflexivity.
    + rewrite <- Rs. unfold sym. cbn [fst snd]. destruct (Nat.lt_ge_cases t (length m)); [now rewrite nth_error_app1 by lia|].
      rewrite nth_error_app2 by lia. destruct (t - length m) as [|k] eqn:Qk; [lia|]. cbn [nth_error]. replace (nth_error m t) with (@None triangle) by (symmetry; apply nth_error_None; lia). destruct k; reflexivity.
Qed.

(** * While knitting *)
Section Knit.
Variables (INV : nat) (ccw : nat -> nat -> nat -> Z) (inc : nat -> nat -> nat -> nat -> Z) (m0 : list triangle) (pts : list nat).
Let n := length m0.
Hypothesis Cyc : forall a b c, ccw a b c = ccw b c a.
Hypothesis Anti : forall a b c, (ccw b a c = - ccw a b c)%Z.
Hypothesis Fl : forall a b c d, (0 < ccw c a b)%Z -> (0 < ccw a c d)%Z -> (0 < inc a b c d)%Z -> (0 < ccw d a b)%Z.
Hypothesis Fr : forall a b c d, (0 < ccw c a b)%Z -> (0 < ccw c b d)%Z -> (0 < inc a b c d)%Z -> (0 < ccw d a b)%Z.
Hypothesis Ninv : ~ In INV pts.

Definition ins (N : nat) (h : hedge) : Prop := n <= fst h < N /\ snd h < 3.
(** [base], [lc] and [rc] are the sides without a neighbour; [L] are the ghosts after
    that of [lc], up to that of [rc]. *)
Record knitting (N : nat) (D : hedge -> option nat) (S : hedge -> option hedge) (base lc rc : hedge) (ll lr ul ur : nat) (L : list hedge) : Prop := {
  k_b : ins N base; k_l : ins N lc; k_r : ins N rc;
  k_data : forall t i, n <= t < N -> i < 6 -> D (t, i) <> None;
  k_sym : forall h, ins N h -> S h <> None;
  k_mark : forall t i, n <= t < N -> 3 <= i < 6 -> D (t, i) = Some INV;
  k_nei : forall h, ins N h -> h <> base -> h <> lc -> h <> rc -> exists g, S h = Some g /\ ins N g /\ S g = Some h /\ g <> h /\ g <> base /\ g <> lc /\ g <> rc /\
    D (next g) = D (prev h) /\ D (prev g) = D (next h);
  k_base : D (next base) = Some lr /\ D (prev base) = Some ll;
  k_lc : D (next lc) = Some ll /\ D (prev lc) = Some INV /\ D lc = Some ul;
  k_rc : D (next rc) = Some INV /\ D (prev rc) = Some lr /\ D rc = Some ur;
  k_once : forall h, ins N h -> D h = Some INV -> D (next h) <> Some INV /\ D (prev h) <> Some INV;
  k_corner : forall h v, ins N h -> D h = Some v -> v = INV \/ In v pts;
  k_point : forall v, In v pts -> exists h, ins N h /\ D h = Some v;
  k_real : forall h a b c, ins N h -> D h = Some a -> D (next h) = Some b -> D (prev h) = Some c -> a <> INV -> b <> INV -> c <> INV -> (0 < ccw a b c)%Z;
  k_path : path S lc L;
  k_last : last L lc = prev rc;
  k_nodup : NoDup (map fst (lc :: L));
  k_dest : forall g, In g (lc :: L) -> ins N g /\ D (prev g) = Some INV;
  k_ghost : forall h, ins N h -> D h = Some INV -> In (fst h) (map fst (lc :: L)) }.

Lemma deg1 a b : ccw a a b = 0%Z. Proof. pose proof (Anti a a b). lia. Qed.
Lemma deg2 a b : ccw a b b = 0%Z. Proof. rewrite Cyc. apply deg1. Qed.
Lemma deg3 a b : ccw a b a = 0%Z. Proof. rewrite <- Cyc. apply deg1. Qed.
Lemma ccw_ne a b c : (0 < ccw a b c)%Z -> a <> b /\ b <> c /\ a <> c.
Proof. intros H. repeat split; intros <-; rewrite ?deg1, ?deg2, ?deg3 in H; lia. Qed.
Lemma ins_next N h : ins N h -> ins N (next h). Proof. intros (A & B). split; [exact A|apply snd_next]. Qed.
Lemma ins_prev N h : ins N h -> ins N (prev h). Proof. intros (A & B). split; [exact A|apply snd_prev]. Qed.
Lemma fst_ne (a b : hedge) : fst a <> fst b -> a <> b. Proof. congruence. Qed.
Lemma path_ext S S' : forall L h, (forall x, In x (removelast (h :: L)) -> S' (next x) = S (next x)) -> path S h L -> path S' h L.
Proof.
  induction L as [|g L IH]; intros h H Hp; cbn [path] in *; [exact I|]. destruct Hp as (E & Hp). split.
  - rewrite H; [exact E|]. cbn. auto.
  - apply IH; auto. intros x Hx. apply H. change (removelast (h :: g :: L)) with (h :: removelast (g :: L)). right. exact Hx.
Qed.

Section State.
Variables (N : nat) (D : hedge -> option nat) (S : hedge -> option hedge) (base lc rc : hedge) (ll lr ul ur : nat) (L : list hedge).
Hypothesis K : knitting N D S base lc rc ll lr ul ur L.
Lemma k_ll : ll <> INV. Proof. destruct K. intros ->. destruct (k_once0 (prev lc)) as (_ & A); [now apply ins_prev|tauto|]. apply A. rewrite pp by apply k_l0. tauto. Qed.
Lemma k_lr : lr <> INV. Proof. destruct K. intros ->. destruct (k_once0 (next rc)) as (A & _); [now apply ins_next|tauto|]. apply A. rewrite nn by apply k_r0. tauto. Qed.
Lemma k_ul : ul <> INV. Proof. destruct K. intros ->. destruct (k_once0 lc) as (_ & A); [auto|tauto|]. tauto. Qed.
Lemma k_ur : ur <> INV. Proof. destruct K. intros ->. destruct (k_once0 rc) as (A & _); [auto|tauto|]. tauto. Qed.
Lemma k_own h : In h (lc :: L) -> forall g, ins N g -> fst g = fst h -> D (prev g) = Some INV -> g = h.
Proof.
  intros Hh g Ig E Dg. destruct (k_dest _ _ _ _ _ _ _ _ _ _ _ K h Hh) as (Ih & Dh).
  destruct (sides h g (proj2 Ih) (proj2 Ig) E) as [Q|[Q|Q]]; auto; exfalso; subst g.
  - rewrite pn in Dg by apply Ih. destruct (k_once _ _ _ _ _ _ _ _ _ _ _ K h Ih Dg) as (_ & X). auto.
  - rewrite pp in Dg by apply Ih. destruct (k_once _ _ _ _ _ _ _ _ _ _ _ K (next h) (ins_next _ _ Ih) Dg) as (X & _). rewrite nn in X by apply Ih. auto.
Qed.
(** Sides with given ends differ. *)
Lemma by_org h g a b : D (next h) = Some a -> D (next g) = Some b -> a <> b -> h <> g. Proof. congruence. Qed.
Lemma by_dest h g a b : D (prev h) = Some a -> D (prev g) = Some b -> a <> b -> h <> g. Proof. congruence. Qed.
End State.
Lemma last_first {A} (x d : A) l : last (x :: l) d = last l x.
Proof. revert x d. induction l as [|y l IH]; intros x d; [reflexivity|]. change (last (x :: y :: l) d) with (last (y :: l) d). rewrite IH. symmetry. apply IH. Qed.
Lemma in_removelast {A} (x : A) l : In x (removelast l) -> In x l.
Proof. induction l as [|y l IH]; [auto|]. destruct l as [|z l]; [intros []|]. change (removelast (y :: z :: l)) with (y :: removelast (z :: l)). intros [->|H]; [left; auto|right; auto]. Qed.
Lemma third {A} (f : hedge -> A) (e h : hedge) (Q : hedge -> Prop) : snd e < 3 -> snd h < 3 -> fst h = fst e -> Q e -> Q (next e) -> Q (prev e) -> Q h.
Proof. intros A1 A2 E X Y Z. destruct (sides e h A1 A2 E) as [->|[->| ->]]; auto. Qed.
Lemma snd_ne (a b : hedge) : 3 <= snd a -> snd b < 3 -> a <> b. Proof. intros A B ->. lia. Qed.

Ltac neq := first [assumption|apply not_eq_sym; assumption|
  apply fst_ne; unfold next, prev; cbn [fst]; first [assumption|apply not_eq_sym; assumption]|
  apply snd_ne; cbn [snd]; first [assumption|apply snd_next|apply snd_prev]].
Ltac ups := repeat first [rewrite up_eq|rewrite up_ne by neq].
Ltac tri3 := repeat first [rewrite nn by assumption|rewrite np by assumption|rewrite pn by assumption|rewrite pp by assumption].
Ltac sides_of h e H := let Q := fresh "Q" in let A := fresh in let B := fresh in
  assert (A : snd h < 3) by assumption; assert (B : snd e < 3) by assumption; destruct (sides e h B A H) as [Q|[Q|Q]]; clear A B.

Section EatLeft.
Variables (N : nat) (D : hedge -> option nat) (S : hedge -> option hedge) (base lc rc : hedge) (ll lr ul ur : nat) (L : list hedge).
Hypothesis K : knitting N D S base lc rc ll lr ul ur L.
Variables (ne : hedge) (na : nat).
Hypotheses (Pos : (0 < ccw ul ll lr)%Z) (Sne : S (prev lc) = Some ne) (Dne : D ne = Some na) (Nna : na <> INV) (In4 : (0 < inc ll lr ul na)%Z).
Lemma eat_left_step : exists top side outer, S (next ne) = Some top /\ S (prev ne) = Some side /\ S (next lc) = Some outer /\
  ins N ne /\ ins N top /\ ins N side /\ ins N outer /\ (forall x y, up (up (up (up S (prev ne) top) top (prev ne)) lc x) side y (next lc) = Some outer) /\
  let S3 := up (up (up (up (up (up S (prev ne) top) top (prev ne)) lc side) side lc) (next ne) outer) outer (next ne) in
  let D3 := up (up (up (up (up (up D (prev lc) ll) lc INV) (next lc) na) (prev ne) INV) ne ul) (next ne) na in
  knitting N D3 S3 base (next lc) rc ll lr na ur (ne :: L) /\ (0 < ccw na ll lr)%Z /\ S3 lc = Some side.
Proof.
  pose proof (k_ll _ _ _ _ _ _ _ _ _ _ _ K) as Nll. pose proof (k_lr _ _ _ _ _ _ _ _ _ _ _ K) as Nlr.
  pose proof (k_ul _ _ _ _ _ _ _ _ _ _ _ K) as Nul. pose proof (k_ur _ _ _ _ _ _ _ _ _ _ _ K) as Nur.
  destruct (ccw_ne _ _ _ Pos) as (Ne1 & Ne2 & Ne3).
  destruct K as [Kb Kl Kr Kd Ks Km Kn (B1 & B2) (L1 & L2 & L3) (R1 & R2 & R3) Ko Kc Kp Kre Kpa Kla Knd Kde Kg].
  assert (Sb : snd base < 3) by apply Kb. assert (Sl : snd lc < 3) by apply Kl. assert (Sr : snd rc < 3) by apply Kr.
  destruct (sides_neq lc Sl) as (Gl1 & Gl2 & Gl3 & _).
  assert (Lr : lc <> rc) by (intros Q; subst; congruence).
  assert (Lb : lc <> base) by (intros Q; subst; congruence).
  (* next_edge *)
  destruct (Kn (prev lc)) as (g & E1 & I1 & E2 & N1 & N2 & N3 & N4 & O1 & O2); [now apply ins_prev|intros Q; rewrite <- Q, np in B1 by auto; congruence|auto|intros Q; rewrite <- Q, np in R1 by auto; congruence|].
  assert (g = ne) by congruence. subst g. clear E1. rewrite pp, L1 in O1 by auto. rewrite np, L3 in O2 by auto.
  assert (Sn : snd ne < 3) by apply I1. destruct (sides_neq ne Sn) as (Ge1 & Ge2 & Ge3 & _).
  assert (Tl : fst ne <> fst lc).
  { intros E. sides_of ne lc E; [congruence| |congruence]. rewrite Q, nn in O1 by auto. congruence. }
  assert (Re : (0 < ccw na ll ul)%Z) by (apply (Kre ne); auto).
  destruct (ccw_ne _ _ _ Re) as (Ne4 & Ne5 & Ne6).
  assert (Na : (0 < ccw na ll lr)%Z) by (apply (Fl ll lr ul na); auto; rewrite <- Cyc; auto).
  destruct (ccw_ne _ _ _ Na) as (_ & _ & Ne7).
  assert (Bl : fst base <> fst lc).
  { intros E. sides_of base lc E; [congruence| |]; subst base; [rewrite nn in B1 by auto|rewrite np in B1 by auto]; congruence. }
  assert (Rl : fst rc <> fst lc).
  { intros E. sides_of rc lc E; [congruence| |]; subst rc; [rewrite pn in R2 by auto|rewrite np in R1 by auto]; congruence. }
  assert (Bn : fst base <> fst ne).
  { intros E. sides_of base ne E; [congruence| |]; subst base; [rewrite nn in B1 by auto|rewrite np in B1 by auto]; congruence. }
  assert (Rn : fst rc <> fst ne).
  { intros E. sides_of rc ne E; [congruence| |]; subst rc; [rewrite nn in R1 by auto|rewrite np in R1 by auto]; congruence. }
  destruct (Kn (next ne)) as (top & T1 & T2 & T3 & T4 & T5 & T6 & T7 & T8 & T9); [now apply ins_next|neq|neq|neq|].
  destruct (Kn (prev ne)) as (side & S1 & S2 & S3 & S4 & S5 & S6 & S7 & S8 & S9); [now apply ins_prev|neq|neq|neq|].
  destruct (Kn (next lc)) as (outer & U1 & U2 & U3 & U4 & U5 & U6 & U7 & U8 & U9); [now apply ins_next|neq|neq|neq|].
  rewrite pn, Dne in T8 by auto. rewrite nn, O2 in T9 by auto. rewrite pp, O1 in S8 by auto. rewrite np, Dne in S9 by auto.
  rewrite pn, L3 in U8 by auto. rewrite nn, L2 in U9 by auto.
  assert (St : snd top < 3) by apply T2. assert (Ss : snd side < 3) by apply S2. assert (Su : snd outer < 3) by apply U2.
  assert (Ft1 : fst top <> fst lc).
  { intros E. sides_of top lc E; [congruence| |]; subst top; [rewrite nn in T8 by auto|]; congruence. }
  assert (Ft2 : fst top <> fst ne).
  { intros E. sides_of top ne E; [|congruence|]; subst top; [congruence|rewrite pp in T9 by auto; congruence]. }
  assert (Fs1 : fst side <> fst lc).
  { intros E. sides_of side lc E; [congruence| |]; subst side; [rewrite nn in S8 by auto|]; congruence. }
  assert (Fs2 : fst side <> fst ne).
  { intros E. sides_of side ne E; [| |congruence]; subst side; [congruence|rewrite nn in S8 by auto; congruence]. }
  assert (Fu1 : fst outer <> fst lc).
  { intros E. sides_of outer lc E; [congruence|congruence|]; subst outer; rewrite pp in U9 by auto; congruence. }
  assert (Fu2 : fst outer <> fst ne).
  { intros E. sides_of outer ne E; subst outer; [congruence|rewrite pn in U9 by auto; congruence|rewrite pp in U9 by auto; congruence]. }
  assert (Ts : top <> side) by congruence. assert (Tu : top <> outer) by congruence. assert (Su' : side <> outer) by congruence.
  exists top, side, outer. split; [exact T1|]. split; [exact S1|]. split; [exact U1|]. do 4 (split; [assumption|]). split; [intros; ups; exact U1|].
  intros S' D'.
  assert (Dl : D' lc = Some INV) by (subst D'; ups; reflexivity). assert (Dln : D' (next lc) = Some na) by (subst D'; ups; reflexivity).
  assert (Dlp : D' (prev lc) = Some ll) by (subst D'; ups; reflexivity). assert (De : D' ne = Some ul) by (subst D'; ups; reflexivity).
  assert (Den : D' (next ne) = Some na) by (subst D'; ups; reflexivity). assert (Dep : D' (prev ne) = Some INV) by (subst D'; ups; reflexivity).
  assert (Do : forall x, fst x <> fst lc -> fst x <> fst ne -> D' x = D x) by (intros x A B; subst D'; ups; reflexivity).
  assert (Dm : forall t i, 3 <= i -> D' (t, i) = D (t, i)) by (intros t i A; subst D'; ups; reflexivity).
  assert (So : forall x, x <> lc -> x <> side -> x <> next ne -> x <> outer -> x <> prev ne -> x <> top -> S' x = S x) by (intros; subst S'; ups; reflexivity).
  assert (Sl' : S' lc = Some side) by (subst S'; ups; reflexivity). assert (Ss' : S' side = Some lc) by (subst S'; ups; reflexivity).
  assert (Sn' : S' (next ne) = Some outer) by (subst S'; ups; reflexivity). assert (Suu : S' outer = Some (next ne)) by (subst S'; ups; reflexivity).
  assert (Sp' : S' (prev ne) = Some top) by (subst S'; ups; reflexivity). assert (St' : S' top = Some (prev ne)) by (subst S'; ups; reflexivity).
  assert (Slp : S' (prev lc) = Some ne) by (rewrite So by neq; exact Sne). assert (Se' : S' ne = Some (prev lc)) by (rewrite So by neq; exact E2).
  assert (Kd' : forall t i, n <= t < N -> i < 6 -> D' (t, i) <> None) by (intros; subst D'; repeat apply up_some; auto).
  assert (Ks' : forall h, ins N h -> S' h <> None) by (intros; subst S'; repeat apply up_some; auto).
  clearbody D' S'.
  (* the ghosts *)
  destruct L as [|x M]; [exfalso; cbn in Kla; apply Rl; rewrite Kla; reflexivity|].
  cbn [path] in Kpa. destruct Kpa as (X1 & Kpa). assert (x = outer) by congruence. subst x. clear X1.
  assert (Gh : forall g, In g (lc :: outer :: M) -> fst g <> fst ne).
  { intros g Hg E. destruct (Kde g Hg) as (Ig & Dg). destruct (sides ne g Sn (proj2 Ig) E) as [->|[->| ->]]; [|rewrite pn in Dg by auto|rewrite pp in Dg by auto]; congruence. }
  assert (Gl : forall g, In g (outer :: M) -> fst g <> fst lc).
  { intros g Hg E. inversion Knd as [|? ? X _]. apply X. rewrite <- E. exact (in_map fst _ _ Hg). }
  split; [|split; [exact Na|exact Sl']]. constructor; auto.
  - now apply ins_next.
  - intros t i A B. rewrite Dm by lia. auto.
  - intros h Hh A B C. destruct (Nat.eq_dec (fst h) (fst lc)) as [E|E]; [|destruct (Nat.eq_dec (fst h) (fst ne)) as [E'|E']].
    + destruct (sides lc h Sl (proj2 Hh) E) as [->|[->| ->]]; [|congruence|].
      * exists side. rewrite (Do (next side)), (Do (prev side)) by assumption. rewrite Dln, Dlp. do 8 (split; [first [assumption|neq]|]). assumption.
      * exists ne. rewrite pp, np, De || rewrite pp, np by auto. rewrite Den, Dep, Dln, Dl. do 8 (split; [first [assumption|neq|reflexivity]|]). reflexivity.
    + destruct (sides ne h Sn (proj2 Hh) E') as [->|[->| ->]].
      * exists (prev lc). rewrite pp, np by auto. rewrite Den, Dep, Dln, Dl. do 8 (split; [first [assumption|neq|reflexivity|now apply ins_prev]|]). reflexivity.
      * exists outer. rewrite nn, pn by auto. rewrite (Do (next outer)), (Do (prev outer)) by assumption. rewrite De, Dep. do 8 (split; [first [assumption|neq]|]). assumption.
      * exists top. rewrite np, pp by auto. rewrite (Do (next top)), (Do (prev top)) by assumption. rewrite De, Den. do 8 (split; [first [assumption|neq]|]). assumption.
    + destruct (he_eqb_spec h side) as [->|Q1]; [|destruct (he_eqb_spec h outer) as [->|Q2]; [|destruct (he_eqb_spec h top) as [->|Q3]]].
      * exists lc. rewrite (Do (next side)), (Do (prev side)) by assumption. rewrite Dln, Dlp, S8, S9. do 8 (split; [first [assumption|neq|reflexivity]|]). reflexivity.
      * exists (next ne). rewrite nn, pn by auto. rewrite (Do (next outer)), (Do (prev outer)) by assumption. rewrite De, Dep, U8, U9. do 8 (split; [first [assumption|neq|reflexivity|now apply ins_next]|]). reflexivity.
      * exists (prev ne). rewrite np, pp by auto. rewrite (Do (next top)), (Do (prev top)) by assumption. rewrite De, Den, T8, T9. do 8 (split; [first [assumption|neq|reflexivity|now apply ins_prev]|]). reflexivity.
      * destruct (Kn h Hh A) as (g & Y1 & Y2 & Y3 & Y4 & Y5 & Y6 & Y7 & Y8 & Y9); [neq|auto|].
        assert (G1 : fst g <> fst lc).
        { intros Q. destruct (sides lc g Sl (proj2 Y2) Q) as [->|[->| ->]]; [congruence|congruence|]. assert (h = ne) by congruence. subst h. auto. }
        assert (G2 : fst g <> fst ne).
        { intros Q. destruct (sides ne g Sn (proj2 Y2) Q) as [->|[->| ->]]; [|congruence|congruence]. assert (h = prev lc) by congruence. subst h. auto. }
        assert (g <> side /\ g <> outer /\ g <> top) as (G3 & G4 & G5).
        { repeat split; intros ->; [assert (h = prev ne) by congruence|assert (h = next lc) by congruence|assert (h = next ne) by congruence]; subst h; auto. }
        exists g. rewrite !So by neq. rewrite !Do by (first [assumption|exact G1|exact G2|exact E|exact E']). do 8 (split; [first [assumption|neq]|]). assumption.
  - split; [rewrite Do by assumption; assumption|rewrite Do by assumption; assumption].
  - rewrite nn, pn by auto. auto.
  - split; [rewrite Do by assumption; assumption|split; [rewrite Do by assumption; assumption|rewrite Do by assumption; assumption]].
  - intros h Hh Dh. destruct (Nat.eq_dec (fst h) (fst lc)) as [E|E]; [|destruct (Nat.eq_dec (fst h) (fst ne)) as [E'|E']].
    + destruct (sides lc h Sl (proj2 Hh) E) as [->|[->| ->]]; try congruence. rewrite Dln, Dlp. split; congruence.
    + destruct (sides ne h Sn (proj2 Hh) E') as [->|[->| ->]]; try congruence. rewrite np, pp, De, Den by auto. split; congruence.
    + rewrite !Do by (first [exact E|exact E']). apply Ko; auto. rewrite Do in Dh by assumption. exact Dh.
  - assert (forall v, v = ll \/ v = ul \/ v = na -> v = INV \/ In v pts) as Ok.
    { intros v [->|[->| ->]]; [apply (Kc (next lc)); auto; now apply ins_next|apply (Kc lc); auto|apply (Kc ne); auto]. }
    intros h v Hh Dh. destruct (Nat.eq_dec (fst h) (fst lc)) as [E|E]; [|destruct (Nat.eq_dec (fst h) (fst ne)) as [E'|E']].
    + destruct (sides lc h Sl (proj2 Hh) E) as [->|[->| ->]]; [left; congruence| |]; apply Ok; [right; right; congruence|left; congruence].
    + destruct (sides ne h Sn (proj2 Hh) E') as [->|[->| ->]]; [| |left; congruence]; apply Ok; [right; left; congruence|right; right; congruence].
    + rewrite Do in Dh by assumption. eauto.
  - intros v Hv. assert (v <> INV) as Nv by congruence. assert (v = ll \/ v = ul \/ v = na \/ exists h, ins N h /\ D' h = Some v) as [->|[->|[->|W]]]; [| | | |exact W].
    + destruct (Kp v Hv) as (h & Ih & Dh). destruct (Nat.eq_dec (fst h) (fst lc)) as [E|E]; [|destruct (Nat.eq_dec (fst h) (fst ne)) as [E'|E']].
      * destruct (sides lc h Sl (proj2 Ih) E) as [->|[->| ->]]; [right; left; congruence|left; congruence|congruence].
      * destruct (sides ne h Sn (proj2 Ih) E') as [->|[->| ->]]; [right; right; left; congruence|left; congruence|right; left; congruence].
      * do 3 right. exists h. rewrite Do by assumption. auto.
    + exists (prev lc). split; [now apply ins_prev|exact Dlp].
    + exists ne. auto.
    + exists (next lc). split; [now apply ins_next|exact Dln].
  - intros h a b c Hh Da Db Dc Xa Xb Xc. destruct (Nat.eq_dec (fst h) (fst lc)) as [E|E]; [|destruct (Nat.eq_dec (fst h) (fst ne)) as [E'|E']].
    + exfalso. destruct (sides lc h Sl (proj2 Hh) E) as [->|[->| ->]]; [|rewrite pn in Dc by auto|rewrite np in Db by auto]; congruence.
    + exfalso. destruct (sides ne h Sn (proj2 Hh) E') as [->|[->| ->]]; [|rewrite nn in Db by auto|]; congruence.
    + rewrite Do in Da, Db, Dc by (first [exact E|exact E']). eauto.
  - cbn [path]. rewrite nn by auto. split; [exact Slp|]. split; [exact Sn'|]. eapply path_ext; [|exact Kpa]. intros x Hx. apply in_removelast in Hx.
    assert (Hx' : In x (lc :: outer :: M)) by (right; exact Hx). pose proof (Gh x Hx') as A1. pose proof (Gl x Hx) as A2. destruct (Kde x Hx') as (Ix & Dx).
    rewrite So; [reflexivity|neq| |neq| |neq|]; intros Q; [assert (W : D (next side) = Some INV)|assert (W : D (next outer) = Some INV)|assert (W : D (next top) = Some INV)]; try congruence; rewrite <- Q, nn by apply Ix; exact Dx.
  - rewrite !last_first. rewrite last_first in Kla. exact Kla.
  - cbn [map]. change (fst (next lc)) with (fst lc). inversion Knd as [|? ? X Y]; subst. constructor; [|constructor; [|exact Y]].
    + intros [Q|Q]; [congruence|]. auto.
    + intros Q. apply (in_map_iff fst (outer :: M)) in Q. destruct Q as (g & Eg & Hg). apply (Gh g); [right; exact Hg|exact Eg].
  - intros g [<-|[<-|Hg]]; [rewrite pn by auto; split; [now apply ins_next|exact Dl]|split; [assumption|exact Dep]|].
    destruct (Kde g (or_intror Hg)) as (Ig & Dg). split; [exact Ig|]. rewrite Do; [exact Dg|apply (Gl g Hg)|apply (Gh g (or_intror Hg))].
  - intros h Hh Dh. destruct (Nat.eq_dec (fst h) (fst lc)) as [E|E]; [left; symmetry; exact E|destruct (Nat.eq_dec (fst h) (fst ne)) as [E'|E']; [right; left; symmetry; exact E'|]].
    rewrite Do in Dh by assumption. destruct (Kg h Hh Dh) as [Q|Q]; [congruence|]. right. right. exact Q.
Qed.
End EatLeft.
Lemma sides2 h g : snd h < 3 -> snd g < 3 -> fst g = fst h -> g = h \/ g = prev h \/ g = next h.
Proof. intros A B C. destruct (sides h g A B C) as [->|[->| ->]]; auto. Qed.
Ltac sides_of2 h e H := let Q := fresh "Q" in let A := fresh in let B := fresh in
  assert (A : snd h < 3) by assumption; assert (B : snd e < 3) by assumption; destruct (sides2 e h B A H) as [Q|[Q|Q]]; clear A B.
Lemma path_app S A B h : path S h (A ++ B) <-> path S h A /\ path S (last A h) B.
Proof.
  revert h. induction A as [|x A IH]; intros h; [cbn; tauto|]. rewrite last_first. cbn [app path]. rewrite IH. tauto.
Qed.
Lemma last_in {A} (l : list A) d : l <> [] -> In (last l d) l.
Proof. induction l as [|x l IH]; [congruence|]. intros _. destruct l as [|y l]; [left; reflexivity|]. right. apply IH. discriminate. Qed.
Lemma removelast_ne (l : list hedge) d x : NoDup (map fst l) -> In x (removelast l) -> x <> last l d.
Proof.
  induction l as [|y l IH]; intros Nd H; [destruct H|]. destruct l as [|z l]; [destruct H|]. inversion Nd as [|? ? X Y]. subst.
  change (removelast (y :: z :: l)) with (y :: removelast (z :: l)) in H. change (last (y :: z :: l) d) with (last (z :: l) d). destruct H as [<-|H]; [|auto].
  intros Q. apply X. rewrite Q. apply (in_map fst (z :: l)). apply last_in. discriminate.
Qed.
Section EatRight.
Variables (N : nat) (D : hedge -> option nat) (S : hedge -> option hedge) (base lc rc : hedge) (ll lr ul ur : nat) (L : list hedge).
Hypothesis K : knitting N D S base lc rc ll lr ul ur L.
Variables (ne : hedge) (na : nat).
Hypotheses (Pos : (0 < ccw ur ll lr)%Z) (Sne : S (next rc) = Some ne) (Dne : D ne = Some na) (Nna : na <> INV) (In4 : (0 < inc ll lr ur na)%Z).
Lemma eat_right_step : exists top side outer, S (prev ne) = Some top /\ S (next ne) = Some side /\ S (prev rc) = Some outer /\
  ins N ne /\ ins N top /\ ins N side /\ ins N outer /\ (forall x y, up (up (up (up S (next ne) top) top (next ne)) rc x) side y (prev rc) = Some outer) /\
  let S3 := up (up (up (up (up (up S (next ne) top) top (next ne)) rc side) side rc) (prev ne) outer) outer (prev ne) in
  let D3 := up (up (up (up (up (up D rc INV) (next rc) lr) (prev rc) na) ne ur) (next ne) INV) (prev ne) na in
  knitting N D3 S3 base lc (prev rc) ll lr ul na (removelast L ++ [prev ne; next rc]) /\ (0 < ccw na ll lr)%Z /\ S3 rc = Some side.
Proof.
  pose proof (k_lr _ _ _ _ _ _ _ _ _ _ _ K) as Nll. pose proof (k_ll _ _ _ _ _ _ _ _ _ _ _ K) as Nlr.
  pose proof (k_ur _ _ _ _ _ _ _ _ _ _ _ K) as Nul. pose proof (k_ul _ _ _ _ _ _ _ _ _ _ _ K) as Nur.
  destruct (ccw_ne _ _ _ Pos) as (Ne3 & Ne2 & Ne1).
  destruct K as [Kb Kr Kl Kd Ks Km Kn (B2 & B1) (R2 & R1 & R3) (L2 & L1 & L3) Ko Kc Kp Kre Kpa Kla Knd Kde Kg].
  assert (Sb : snd base < 3) by apply Kb. assert (Sl : snd rc < 3) by apply Kl. assert (Sr : snd lc < 3) by apply Kr.
  destruct (sides_neq rc Sl) as (Gl1 & Gl2 & Gl3 & _).
  assert (Lr : rc <> lc) by (intros Q; subst; congruence).
  assert (Lb : rc <> base) by (intros Q; subst; congruence).
  (* next_edge *)
  destruct (Kn (next rc)) as (g & E1 & I1 & E2 & N1 & N2 & N3 & N4 & O2 & O1); [now apply ins_next|intros Q; rewrite <- Q, pn in B1 by auto; congruence|intros Q; rewrite <- Q, pn in R1 by auto; congruence|auto|].
  assert (g = ne) by congruence. subst g. clear E1. rewrite nn, L1 in O1 by auto. rewrite pn, L3 in O2 by auto.
  assert (Sn : snd ne < 3) by apply I1. destruct (sides_neq ne Sn) as (Ge1 & Ge2 & Ge3 & _).
  assert (Tl : fst ne <> fst rc).
  { intros E. sides_of2 ne rc E; [congruence| |congruence]. rewrite Q, pp in O1 by auto. congruence. }
  assert (Re : (0 < ccw na ur lr)%Z) by (apply (Kre ne); auto).
  destruct (ccw_ne _ _ _ Re) as (Ne6 & Ne5 & Ne4).
  assert (Na : (0 < ccw na ll lr)%Z) by (apply (Fr ll lr ur na); auto; rewrite <- Cyc; auto).
  destruct (ccw_ne _ _ _ Na) as (Ne7 & _ & _).
  assert (Bl : fst base <> fst rc).
  { intros E. sides_of2 base rc E; [congruence| |]; subst base; [rewrite pp in B1 by auto|rewrite pn in B1 by auto]; congruence. }
  assert (Rl : fst lc <> fst rc).
  { intros E. sides_of2 lc rc E; [congruence| |]; subst lc; [rewrite np in R2 by auto|rewrite pn in R1 by auto]; congruence. }
  assert (Bn : fst base <> fst ne).
  { intros E. sides_of2 base ne E; [congruence| |]; subst base; [rewrite pp in B1 by auto|rewrite pn in B1 by auto]; congruence. }
  assert (Rn : fst lc <> fst ne).
  { intros E. sides_of2 lc ne E; [congruence| |]; subst lc; [rewrite pp in R1 by auto|rewrite pn in R1 by auto]; congruence. }
  destruct (Kn (prev ne)) as (top & T1 & T2 & T3 & T4 & T5 & T6 & T7 & T9 & T8); [now apply ins_prev|neq|neq|neq|].
  destruct (Kn (next ne)) as (side & S1 & S2 & S3 & S4 & S5 & S6 & S7 & S9 & S8); [now apply ins_next|neq|neq|neq|].
  destruct (Kn (prev rc)) as (outer & U1 & U2 & U3 & U4 & U5 & U6 & U7 & U9 & U8); [now apply ins_prev|neq|neq|neq|].
  rewrite np, Dne in T8 by auto. rewrite pp, O2 in T9 by auto. rewrite nn, O1 in S8 by auto. rewrite pn, Dne in S9 by auto.
  rewrite np, L3 in U8 by auto. rewrite pp, L2 in U9 by auto.
  assert (St : snd top < 3) by apply T2. assert (Ss : snd side < 3) by apply S2. assert (Su : snd outer < 3) by apply U2.
  assert (Ft1 : fst top <> fst rc).
  { intros E. sides_of2 top rc E; [congruence| |]; subst top; [rewrite pp in T8 by auto|]; congruence. }
  assert (Ft2 : fst top <> fst ne).
  { intros E. sides_of2 top ne E; [|congruence|]; subst top; [congruence|rewrite nn in T9 by auto; congruence]. }
  assert (Fs1 : fst side <> fst rc).
  { intros E. sides_of2 side rc E; [congruence| |]; subst side; [rewrite pp in S8 by auto|]; congruence. }
  assert (Fs2 : fst side <> fst ne).
  { intros E. sides_of2 side ne E; [| |congruence]; subst side; [congruence|rewrite pp in S8 by auto; congruence]. }
  assert (Fu1 : fst outer <> fst rc).
  { intros E. sides_of2 outer rc E; [congruence|congruence|]; subst outer; rewrite nn in U9 by auto; congruence. }
  assert (Fu2 : fst outer <> fst ne).
  { intros E. sides_of2 outer ne E; subst outer; [congruence|rewrite np in U9 by auto; congruence|rewrite nn in U9 by auto; congruence]. }
  assert (Ts : top <> side) by congruence. assert (Tu : top <> outer) by congruence. assert (Su' : side <> outer) by congruence.
  exists top, side, outer. split; [exact T1|]. split; [exact S1|]. split; [exact U1|]. do 4 (split; [assumption|]). split; [intros; ups; exact U1|].
  intros S' D'.
  assert (Dl : D' rc = Some INV) by (subst D'; ups; reflexivity). assert (Dln : D' (prev rc) = Some na) by (subst D'; ups; reflexivity).
  assert (Dlp : D' (next rc) = Some lr) by (subst D'; ups; reflexivity). assert (De : D' ne = Some ur) by (subst D'; ups; reflexivity).
  assert (Den : D' (prev ne) = Some na) by (subst D'; ups; reflexivity). assert (Dep : D' (next ne) = Some INV) by (subst D'; ups; reflexivity).
  assert (Do : forall x, fst x <> fst rc -> fst x <> fst ne -> D' x = D x) by (intros x A B; subst D'; ups; reflexivity).
  assert (Dm : forall t i, 3 <= i -> D' (t, i) = D (t, i)) by (intros t i A; subst D'; ups; reflexivity).
  assert (So : forall x, x <> rc -> x <> side -> x <> prev ne -> x <> outer -> x <> next ne -> x <> top -> S' x = S x) by (intros; subst S'; ups; reflexivity).
  assert (Sl' : S' rc = Some side) by (subst S'; ups; reflexivity). assert (Ss' : S' side = Some rc) by (subst S'; ups; reflexivity).
  assert (Sn' : S' (prev ne) = Some outer) by (subst S'; ups; reflexivity). assert (Suu : S' outer = Some (prev ne)) by (subst S'; ups; reflexivity).
  assert (Sp' : S' (next ne) = Some top) by (subst S'; ups; reflexivity). assert (St' : S' top = Some (next ne)) by (subst S'; ups; reflexivity).
  assert (Slp : S' (next rc) = Some ne) by (rewrite So by neq; exact Sne). assert (Se' : S' ne = Some (next rc)) by (rewrite So by neq; exact E2).
  assert (Kd' : forall t i, n <= t < N -> i < 6 -> D' (t, i) <> None) by (intros; subst D'; repeat apply up_some; auto).
  assert (Ks' : forall h, ins N h -> S' h <> None) by (intros; subst S'; repeat apply up_some; auto).
  clearbody D' S'.
  (* the ghosts *)
  destruct L as [|x0 M0]; [exfalso; cbn in Kla; apply Rl; rewrite Kla; reflexivity|].
  destruct (@exists_last _ (x0 :: M0)) as (M & x & EL); [discriminate|]. rewrite EL in *. clear x0 M0 EL. rewrite last_last in Kla. subst x. rewrite removelast_last.
  apply path_app in Kpa. destruct Kpa as (Kpa & X1). cbn [path] in X1. destruct X1 as (X1 & _).
  assert (Gh : forall g, In g (lc :: M ++ [prev rc]) -> fst g <> fst ne).
  { intros g Hg E. destruct (Kde g Hg) as (Ig & Dg). destruct (sides ne g Sn (proj2 Ig) E) as [->|[->| ->]]; [|rewrite pn in Dg by auto|rewrite pp in Dg by auto]; congruence. }
  assert (NdM : NoDup (map fst (lc :: M)) /\ ~ In (fst rc) (map fst (lc :: M))).
  { change (lc :: M ++ [prev rc]) with ((lc :: M) ++ [prev rc]) in Knd. rewrite map_app in Knd. cbn [map] in Knd. change (fst (prev rc)) with (fst rc) in Knd.
    pose proof (Permutation_NoDup (Permutation_sym (Permutation_cons_append _ _)) Knd) as W. inversion W; auto. }
  destruct NdM as (NdM & NrM).
  assert (Gl : forall g, In g (lc :: M) -> fst g <> fst rc) by (intros g Hg E; apply NrM; rewrite <- E; exact (in_map fst _ _ Hg)).
  assert (InM : forall g, In g (lc :: M) -> In g (lc :: M ++ [prev rc])) by (intros g [Q|Q]; [left; exact Q|right; apply in_or_app; auto]).
  assert (Hz : In (last M lc) (lc :: M)) by (rewrite <- (last_first lc lc); apply last_in; discriminate).
  assert (Zo : next (last M lc) = outer).
  { destruct (Kde _ (InM _ Hz)) as (Iz & Dz). destruct (Kn (next (last M lc))) as (g & Y1 & _ & Y3 & _).
    - now apply ins_next.
    - intros Q. assert (W : D (next base) = Some INV) by (rewrite <- Q, nn by apply Iz; exact Dz). congruence.
    - intros Q. assert (W : D (next lc) = Some INV) by (rewrite <- Q, nn by apply Iz; exact Dz). congruence.
    - intros Q. apply (Gl _ Hz). rewrite <- Q. reflexivity.
    - congruence. }
  split; [|split; [exact Na|exact Sl']]. constructor; auto.
  - now apply ins_prev.
  - intros t i A B. rewrite Dm by lia. auto.
  - intros h Hh A B C. destruct (Nat.eq_dec (fst h) (fst rc)) as [E|E]; [|destruct (Nat.eq_dec (fst h) (fst ne)) as [E'|E']].
    + destruct (sides2 rc h Sl (proj2 Hh) E) as [->|[->| ->]]; [|congruence|].
      * exists side. rewrite (Do (prev side)), (Do (next side)) by assumption. rewrite Dln, Dlp. do 8 (split; [first [assumption|neq]|]). assumption.
      * exists ne. rewrite nn, pn, De || rewrite nn, pn by auto. rewrite Den, Dep, Dln, Dl. do 8 (split; [first [assumption|neq|reflexivity]|]). reflexivity.
    + destruct (sides2 ne h Sn (proj2 Hh) E') as [->|[->| ->]].
      * exists (next rc). rewrite nn, pn by auto. rewrite Den, Dep, Dln, Dl. do 8 (split; [first [assumption|neq|reflexivity|now apply ins_next]|]). reflexivity.
      * exists outer. rewrite pp, np by auto. rewrite (Do (prev outer)), (Do (next outer)) by assumption. rewrite De, Dep. do 8 (split; [first [assumption|neq]|]). assumption.
      * exists top. rewrite pn, nn by auto. rewrite (Do (prev top)), (Do (next top)) by assumption. rewrite De, Den. do 8 (split; [first [assumption|neq]|]). assumption.
    + destruct (he_eqb_spec h side) as [->|Q1]; [|destruct (he_eqb_spec h outer) as [->|Q2]; [|destruct (he_eqb_spec h top) as [->|Q3]]].
      * exists rc. rewrite (Do (prev side)), (Do (next side)) by assumption. rewrite Dln, Dlp, S8, S9. do 8 (split; [first [assumption|neq|reflexivity]|]). reflexivity.
      * exists (prev ne). rewrite pp, np by auto. rewrite (Do (prev outer)), (Do (next outer)) by assumption. rewrite De, Dep, U8, U9. do 8 (split; [first [assumption|neq|reflexivity|now apply ins_prev]|]). reflexivity.
      * exists (next ne). rewrite pn, nn by auto. rewrite (Do (prev top)), (Do (next top)) by assumption. rewrite De, Den, T8, T9. do 8 (split; [first [assumption|neq|reflexivity|now apply ins_next]|]). reflexivity.
      * destruct (Kn h Hh A) as (g & Y1 & Y2 & Y3 & Y4 & Y5 & Y6 & Y7 & Y9 & Y8); [first [assumption|neq]|first [assumption|neq]|].
        assert (G1 : fst g <> fst rc).
        { intros Q. destruct (sides2 rc g Sl (proj2 Y2) Q) as [->|[->| ->]]; [congruence|congruence|]. assert (h = ne) by congruence. subst h. auto. }
        assert (G2 : fst g <> fst ne).
        { intros Q. destruct (sides2 ne g Sn (proj2 Y2) Q) as [->|[->| ->]]; [|congruence|congruence]. assert (h = next rc) by congruence. subst h. auto. }
        assert (g <> side /\ g <> outer /\ g <> top) as (G3 & G4 & G5).
        { repeat split; intros ->; [assert (h = next ne) by congruence|assert (h = prev rc) by congruence|assert (h = prev ne) by congruence]; subst h; auto. }
        exists g. rewrite !So by neq. rewrite !Do by (first [assumption|exact G1|exact G2|exact E|exact E']). do 8 (split; [first [assumption|neq]|]). assumption.
  - split; [rewrite Do by assumption; assumption|rewrite Do by assumption; assumption].
  - split; [rewrite Do by assumption; assumption|split; [rewrite Do by assumption; assumption|rewrite Do by assumption; assumption]].
  - rewrite pp, np by auto. auto.
  - intros h Hh Dh. destruct (Nat.eq_dec (fst h) (fst rc)) as [E|E]; [|destruct (Nat.eq_dec (fst h) (fst ne)) as [E'|E']].
    + destruct (sides2 rc h Sl (proj2 Hh) E) as [->|[->| ->]]; try congruence. rewrite Dln, Dlp. split; congruence.
    + destruct (sides2 ne h Sn (proj2 Hh) E') as [->|[->| ->]]; try congruence. rewrite pn, nn, De, Den by auto. split; congruence.
    + rewrite !Do by (first [exact E|exact E']). apply Ko; auto. rewrite Do in Dh by assumption. exact Dh.
  - assert (forall v, v = lr \/ v = ur \/ v = na -> v = INV \/ In v pts) as Ok.
    { intros v [->|[->| ->]]; [apply (Kc (prev rc)); auto; now apply ins_prev|apply (Kc rc); auto|apply (Kc ne); auto]. }
    intros h v Hh Dh. destruct (Nat.eq_dec (fst h) (fst rc)) as [E|E]; [|destruct (Nat.eq_dec (fst h) (fst ne)) as [E'|E']].
    + destruct (sides2 rc h Sl (proj2 Hh) E) as [->|[->| ->]]; [left; congruence| |]; apply Ok; [right; right; congruence|left; congruence].
    + destruct (sides2 ne h Sn (proj2 Hh) E') as [->|[->| ->]]; [| |left; congruence]; apply Ok; [right; left; congruence|right; right; congruence].
    + rewrite Do in Dh by assumption. eauto.
  - intros v Hv. assert (v <> INV) as Nv by congruence. assert (v = lr \/ v = ur \/ v = na \/ exists h, ins N h /\ D' h = Some v) as [->|[->|[->|W]]]; [| | | |exact W].
    + destruct (Kp v Hv) as (h & Ih & Dh). destruct (Nat.eq_dec (fst h) (fst rc)) as [E|E]; [|destruct (Nat.eq_dec (fst h) (fst ne)) as [E'|E']].
      * destruct (sides2 rc h Sl (proj2 Ih) E) as [->|[->| ->]]; [right; left; congruence|left; congruence|congruence].
      * destruct (sides2 ne h Sn (proj2 Ih) E') as [->|[->| ->]]; [right; right; left; congruence|left; congruence|right; left; congruence].
      * do 3 right. exists h. rewrite Do by assumption. auto.
    + exists (next rc). split; [now apply ins_next|exact Dlp].
    + exists ne. auto.
    + exists (prev rc). split; [now apply ins_prev|exact Dln].
  - intros h a b c Hh Da Db Dc Xa Xb Xc. destruct (Nat.eq_dec (fst h) (fst rc)) as [E|E]; [|destruct (Nat.eq_dec (fst h) (fst ne)) as [E'|E']].
    + exfalso. destruct (sides2 rc h Sl (proj2 Hh) E) as [->|[->| ->]]; [|rewrite np in Db by auto|rewrite pn in Dc by auto]; congruence.
    + exfalso. destruct (sides2 ne h Sn (proj2 Hh) E') as [->|[->| ->]]; [|rewrite pp in Dc by auto|]; congruence.
    + rewrite Do in Da, Db, Dc by (first [exact E|exact E']). eauto.
  - apply path_app. split; [|cbn [path]; rewrite Zo; split; [exact Suu|]; rewrite np by auto; auto]. eapply path_ext; [|exact Kpa]. intros x Hx.
    assert (Nz : x <> last M lc) by (rewrite <- (last_first lc lc M); apply removelast_ne; auto). apply in_removelast in Hx.
    pose proof (Gh x (InM _ Hx)) as A1. pose proof (Gl x Hx) as A2. destruct (Kde x (InM _ Hx)) as (Ix & Dx).
    rewrite So; [reflexivity|neq| |neq| |neq|]; intros Q.
    + assert (W : D (next side) = Some INV) by (rewrite <- Q, nn by apply Ix; exact Dx). congruence.
    + apply Nz. rewrite <- Zo in Q. apply (f_equal prev) in Q. rewrite !pn in Q by first [apply Ix|apply (Kde _ (InM _ Hz))]. exact Q.
    + assert (W : D (next top) = Some INV) by (rewrite <- Q, nn by apply Ix; exact Dx). congruence.
  - rewrite pp by auto. change [prev ne; next rc] with ([prev ne] ++ [next rc]). rewrite app_assoc. apply last_last.
  - change (lc :: M ++ [prev ne; next rc]) with ((lc :: M) ++ [prev ne; next rc]). rewrite map_app. cbn [map]. change (fst (prev ne)) with (fst ne). change (fst (next rc)) with (fst rc).
    apply (Permutation_NoDup (l := fst ne :: map fst (lc :: M) ++ [fst rc])); [apply Permutation_middle|]. constructor.
    + intros Q. apply in_app_or in Q. destruct Q as [Q|[Q|[]]]; [|congruence]. apply in_map_iff in Q. destruct Q as (g & Eg & Hg). apply (Gh g); auto.
    + change (lc :: M ++ [prev rc]) with ((lc :: M) ++ [prev rc]) in Knd. rewrite map_app in Knd. exact Knd.
  - intros g Hg. change (lc :: M ++ [prev ne; next rc]) with ((lc :: M) ++ [prev ne; next rc]) in Hg. apply in_app_or in Hg. destruct Hg as [Hg|[<-|[<-|[]]]].
    + destruct (Kde g (InM _ Hg)) as (Ig & Dg). split; [exact Ig|]. rewrite Do; [exact Dg|apply (Gl g Hg)|apply (Gh g (InM _ Hg))].
    + rewrite pp by auto. split; [now apply ins_prev|exact Dep].
    + rewrite pn by auto. split; [now apply ins_next|exact Dl].
  - intros h Hh Dh. change (lc :: M ++ [prev ne; next rc]) with ((lc :: M) ++ [prev ne; next rc]). rewrite map_app. apply in_or_app.
    destruct (Nat.eq_dec (fst h) (fst rc)) as [E|E]; [right; right; left; symmetry; exact E|destruct (Nat.eq_dec (fst h) (fst ne)) as [E'|E']; [right; left; symmetry; exact E'|]].
    rewrite Do in Dh by assumption. left. pose proof (Kg h Hh Dh) as Q. change (lc :: M ++ [prev rc]) with ((lc :: M) ++ [prev rc]) in Q. rewrite map_app in Q. apply in_app_or in Q.
    destruct Q as [Q|[Q|[]]]; [exact Q|exfalso; apply E; symmetry; exact Q].
Qed.
End EatRight.

Lemma next_inj a b : snd a < 3 -> snd b < 3 -> next a = next b -> a = b.
Proof. intros A B E. apply (f_equal prev) in E. now rewrite !pn in E. Qed.
Lemma prev_inj a b : snd a < 3 -> snd b < 3 -> prev a = prev b -> a = b.
Proof. intros A B E. apply (f_equal next) in E. now rewrite !np in E. Qed.
Section KnitRight.
Variables (N : nat) (D : hedge -> option nat) (S : hedge -> option hedge) (base lc rc : hedge) (ll lr ul ur : nat) (L : list hedge).
Hypothesis K : knitting N D S base lc rc ll lr ul ur L.
Hypothesis Pos : (0 < ccw ur ll lr)%Z.
Lemma knit_right_step : let S1 := up (up S base rc) rc base in let D1 := up D (next rc) ll in
  exists g ur' L', S1 (prev rc) = Some g /\ D1 g = Some ur' /\ knitting N D1 S1 (prev rc) lc g ll ur ul ur' L'.
Proof.
  pose proof (k_ll _ _ _ _ _ _ _ _ _ _ _ K) as Nll. pose proof (k_lr _ _ _ _ _ _ _ _ _ _ _ K) as Nlr.
  pose proof (k_ul _ _ _ _ _ _ _ _ _ _ _ K) as Nul. pose proof (k_ur _ _ _ _ _ _ _ _ _ _ _ K) as Nur.
  destruct (ccw_ne _ _ _ Pos) as (Ne1 & Ne2 & Ne3).
  destruct K as [Kb Kl Kr Kd Ks Km Kn (B1 & B2) (L1 & L2 & L3) (R1 & R2 & R3) Ko Kc Kp Kre Kpa Kla Knd Kde Kg].
  assert (Sb : snd base < 3) by apply Kb. assert (Sl : snd lc < 3) by apply Kl. assert (Sr : snd rc < 3) by apply Kr.
  destruct (sides_neq rc Sr) as (Gr1 & Gr2 & Gr3 & _).
  assert (Lr : lc <> rc) by (intros Q; subst; congruence).
  assert (Lb : lc <> base) by (intros Q; subst; congruence).
  assert (Br : base <> rc) by (intros Q; subst; congruence).
  assert (Fb : fst base <> fst rc).
  { intros E. sides_of base rc E; [congruence| |]; subst base; [rewrite pn in B2 by auto|rewrite pp in B2 by auto]; congruence. }
  assert (Fc : fst lc <> fst rc).
  { intros E. sides_of lc rc E; [congruence| |]; subst lc; [rewrite nn in L1 by auto|rewrite np in L1 by auto]; congruence. }
  destruct (Kn (prev rc)) as (g & E1 & I1 & E2 & N1 & N2 & N3 & N4 & O1 & O2); [now apply ins_prev|neq|neq|neq|].
  rewrite pp, R1 in O1 by auto. rewrite np, R3 in O2 by auto. assert (Sg : snd g < 3) by apply I1.
  assert (Fg : fst g <> fst rc).
  { intros E. sides_of g rc E; [congruence| |congruence]; subst g; rewrite nn in O1 by auto; congruence. }
  destruct (D g) as [ur'|] eqn:Dg; [|exfalso; destruct g as (t & i); cbn [fst snd] in *; revert Dg; apply Kd; [apply I1|lia]].
  intros S' D'.
  assert (Do : forall x, x <> next rc -> D' x = D x) by (intros x A; subst D'; ups; reflexivity).
  assert (Dr : D' (next rc) = Some ll) by (subst D'; ups; reflexivity).
  assert (So : forall x, x <> base -> x <> rc -> S' x = S x) by (intros; subst S'; ups; reflexivity).
  assert (Sb' : S' base = Some rc) by (subst S'; ups; reflexivity). assert (Sr' : S' rc = Some base) by (subst S'; ups; reflexivity).
  assert (Kd' : forall t i, n <= t < N -> i < 6 -> D' (t, i) <> None) by (intros; subst D'; repeat apply up_some; auto).
  assert (Ks' : forall h, ins N h -> S' h <> None) by (intros; subst S'; repeat apply up_some; auto).
  clearbody D' S'.
  destruct L as [|x0 M0]; [exfalso; cbn in Kla; apply Fc; rewrite Kla; reflexivity|].
  destruct (@exists_last _ (x0 :: M0)) as (M & x & EL); [discriminate|]. rewrite EL in *. clear x0 M0 EL. rewrite last_last in Kla. subst x.
  apply path_app in Kpa. destruct Kpa as (Kpa & X1). cbn [path] in X1. destruct X1 as (X1 & _).
  assert (NdM : NoDup (map fst (lc :: M)) /\ ~ In (fst rc) (map fst (lc :: M))).
  { change (lc :: M ++ [prev rc]) with ((lc :: M) ++ [prev rc]) in Knd. rewrite map_app in Knd. cbn [map] in Knd. change (fst (prev rc)) with (fst rc) in Knd.
    pose proof (Permutation_NoDup (Permutation_sym (Permutation_cons_append _ _)) Knd) as W. inversion W; auto. }
  destruct NdM as (NdM & NrM).
  assert (Gl : forall g, In g (lc :: M) -> fst g <> fst rc) by (intros h Hg E; apply NrM; rewrite <- E; exact (in_map fst _ _ Hg)).
  assert (InM : forall g, In g (lc :: M) -> In g (lc :: M ++ [prev rc])) by (intros h [Q|Q]; [left; exact Q|right; apply in_or_app; auto]).
  assert (Hz : In (last M lc) (lc :: M)) by (rewrite <- (last_first lc lc); apply last_in; discriminate).
  assert (Zo : next (last M lc) = g).
  { destruct (Kde _ (InM _ Hz)) as (Iz & Dz). destruct (Kn (next (last M lc))) as (k & Y1 & _ & Y3 & _).
    - now apply ins_next.
    - intros Q. assert (W : D (next base) = Some INV) by (rewrite <- Q, nn by apply Iz; exact Dz). congruence.
    - intros Q. assert (W : D (next lc) = Some INV) by (rewrite <- Q, nn by apply Iz; exact Dz). congruence.
    - intros Q. apply (Gl _ Hz). rewrite <- Q. reflexivity.
    - congruence. }
  assert (Bg : base <> g) by (intros ->; congruence).
  exists g, ur', M. split; [rewrite So by neq; exact E1|]. split; [rewrite Do by neq; exact Dg|]. constructor; auto.
  - now apply ins_prev.
  - intros t i A B. rewrite Do; auto. apply snd_ne; [cbn; lia|apply snd_next].
  - intros h Hh A B C. destruct (he_eqb_spec h rc) as [->|Q1]; [|destruct (he_eqb_spec h base) as [->|Q2]].
    + exists base. rewrite Dr, !Do by neq. rewrite B1, B2, R2. do 8 (split; [first [assumption|neq|reflexivity]|]). reflexivity.
    + exists rc. rewrite Dr, !Do by neq. rewrite B1, B2, R2. do 8 (split; [first [assumption|neq|reflexivity]|]). reflexivity.
    + destruct (Kn h Hh) as (k & Y1 & Y2 & Y3 & Y4 & Y5 & Y6 & Y7 & Y8 & Y9); [assumption|assumption|assumption|].
      assert (Sh : snd h < 3) by apply Hh. assert (Sk : snd k < 3) by apply Y2.
      assert (Z1 : k <> prev rc) by congruence. assert (Z2 : k <> g) by congruence.
      assert (Z : forall x, snd x < 3 -> x <> rc -> x <> prev rc -> next x <> next rc /\ prev x <> next rc).
      { intros x Sx V1 V2. split; intros Q; [apply V1; now apply next_inj|apply V2]. rewrite <- (np x) by auto. rewrite Q. now apply nn. }
      destruct (Z h Sh) as (H1 & H2); [assumption|assumption|]. destruct (Z k Sk) as (H3 & H4); [assumption|assumption|].
      exists k. rewrite !So by neq. rewrite !Do by neq. do 8 (split; [first [assumption|neq]|]). assumption.
  - rewrite np, pp by auto. rewrite (Do rc) by neq. auto.
  - rewrite !Do by neq. auto.
  - rewrite !Do by neq. auto.
  - intros h Hh Dh. assert (h <> next rc) by (intros ->; congruence). rewrite Do in Dh by assumption. destruct (Ko h Hh Dh) as (A & B).
    destruct (he_eqb_spec (next h) (next rc)) as [Q1|Q1]; [rewrite Q1, Dr|rewrite (Do (next h)) by auto]; (destruct (he_eqb_spec (prev h) (next rc)) as [Q2|Q2]; [rewrite Q2, Dr|rewrite (Do (prev h)) by auto]); split; congruence.
  - intros h v Hh Dh. destruct (he_eqb_spec h (next rc)) as [->|Q]; [|rewrite Do in Dh by auto; eauto].
    assert (v = ll) as -> by congruence. apply (Kc (next lc)); [now apply ins_next|exact L1].
  - intros v Hv. destruct (Kp v Hv) as (h & Ih & Dh). exists h. split; [exact Ih|]. rewrite Do; [exact Dh|]. intros ->. congruence.
  - intros h a b c Hh Da Db Dc Xa Xb Xc. destruct (Nat.eq_dec (fst h) (fst rc)) as [E|E]; [|rewrite Do in Da, Db, Dc by neq; eauto].
    destruct (sides rc h Sr (proj2 Hh) E) as [->|[->| ->]].
    + rewrite Do in Da, Dc by neq. replace a with ur by congruence. replace b with ll by congruence. replace c with lr by congruence. exact Pos.
    + rewrite nn in Db by auto. rewrite pn in Dc by auto. rewrite Do in Db, Dc by neq. rewrite <- Cyc. replace a with ll by congruence. replace b with lr by congruence. replace c with ur by congruence. exact Pos.
    + rewrite np in Db by auto. rewrite pp in Dc by auto. rewrite Do in Da, Db by neq. rewrite Cyc. replace a with lr by congruence. replace b with ur by congruence. replace c with ll by congruence. exact Pos.
  - eapply path_ext; [|exact Kpa]. intros x Hx. apply in_removelast in Hx. destruct (Kde x (InM _ Hx)) as (Ix & Dx). pose proof (Gl x Hx) as A1.
    apply So; [|neq]. intros Q. assert (W : D (next base) = Some INV) by (rewrite <- Q, nn by apply Ix; exact Dx). congruence.
  - rewrite <- Zo. rewrite pn; [reflexivity|]. apply (Kde _ (InM _ Hz)).
  - intros x Hx. destruct (Kde x (InM _ Hx)) as (Ix & Dx). pose proof (Gl x Hx) as A1. split; [exact Ix|]. rewrite Do by neq. exact Dx.
  - intros h Hh Dh. assert (h <> next rc) as Nh by (intros ->; congruence). rewrite Do in Dh by assumption.
    pose proof (Kg h Hh Dh) as Q. change (lc :: M ++ [prev rc]) with ((lc :: M) ++ [prev rc]) in Q. rewrite map_app in Q. apply in_app_or in Q.
    destruct Q as [Q|[Q|[]]]; [exact Q|]. exfalso. change (fst (prev rc)) with (fst rc) in Q. destruct (sides rc h Sr (proj2 Hh) (eq_sym Q)) as [->|[->| ->]]; congruence.
Qed.
End KnitRight.
Section KnitLeft.
Variables (N : nat) (D : hedge -> option nat) (S : hedge -> option hedge) (base lc rc : hedge) (ll lr ul ur : nat) (L : list hedge).
Hypothesis K : knitting N D S base lc rc ll lr ul ur L.
Hypothesis Pos : (0 < ccw ul ll lr)%Z.
Lemma knit_left_step : let S1 := up (up S base lc) lc base in let D1 := up D (prev lc) lr in
  exists g ul' L', S1 (next lc) = Some g /\ D1 g = Some ul' /\ knitting N D1 S1 (next lc) g rc ul lr ul' ur L'.
Proof.
  pose proof (k_lr _ _ _ _ _ _ _ _ _ _ _ K) as Nll. pose proof (k_ll _ _ _ _ _ _ _ _ _ _ _ K) as Nlr.
  pose proof (k_ur _ _ _ _ _ _ _ _ _ _ _ K) as Nul. pose proof (k_ul _ _ _ _ _ _ _ _ _ _ _ K) as Nur.
  destruct (ccw_ne _ _ _ Pos) as (Ne3 & Ne2 & Ne1).
  destruct K as [Kb Kr Kl Kd Ks Km Kn (B2 & B1) (R2 & R1 & R3) (L2 & L1 & L3) Ko Kc Kp Kre Kpa Kla Knd Kde Kg].
  assert (Sb : snd base < 3) by apply Kb. assert (Sr : snd rc < 3) by apply Kl. assert (Sl : snd lc < 3) by apply Kr.
  destruct (sides_neq lc Sl) as (Gr1 & Gr2 & Gr3 & _).
  assert (Lr : rc <> lc) by (intros Q; subst; congruence).
  assert (Lb : rc <> base) by (intros Q; subst; congruence).
  assert (Br : base <> lc) by (intros Q; subst; congruence).
  assert (Fb : fst base <> fst lc).
  { intros E. sides_of2 base lc E; [congruence| |]; subst base; [rewrite np in B2 by auto|rewrite nn in B2 by auto]; congruence. }
  assert (Fc : fst rc <> fst lc).
  { intros E. sides_of2 rc lc E; [congruence| |]; subst rc; [rewrite pp in L1 by auto|rewrite pn in L1 by auto]; congruence. }
  destruct (Kn (next lc)) as (g & E1 & I1 & E2 & N1 & N2 & N3 & N4 & O2 & O1); [now apply ins_next|neq|neq|neq|].
  rewrite nn, R1 in O1 by auto. rewrite pn, R3 in O2 by auto. assert (Sg : snd g < 3) by apply I1.
  assert (Fg : fst g <> fst lc).
  { intros E. sides_of2 g lc E; [congruence| |congruence]; subst g; rewrite pp in O1 by auto; congruence. }
  destruct (D g) as [ul'|] eqn:Dg; [|exfalso; destruct g as (t & i); cbn [fst snd] in *; revert Dg; apply Kd; [apply I1|lia]].
  intros S' D'.
  assert (Do : forall x, x <> prev lc -> D' x = D x) by (intros x A; subst D'; ups; reflexivity).
  assert (Dr : D' (prev lc) = Some lr) by (subst D'; ups; reflexivity).
  assert (So : forall x, x <> base -> x <> lc -> S' x = S x) by (intros; subst S'; ups; reflexivity).
  assert (Sb' : S' base = Some lc) by (subst S'; ups; reflexivity). assert (Sr' : S' lc = Some base) by (subst S'; ups; reflexivity).
  assert (Kd' : forall t i, n <= t < N -> i < 6 -> D' (t, i) <> None) by (intros; subst D'; repeat apply up_some; auto).
  assert (Ks' : forall h, ins N h -> S' h <> None) by (intros; subst S'; repeat apply up_some; auto).
  clearbody D' S'.
  destruct L as [|x M]; [exfalso; cbn in Kla; apply Fc; rewrite Kla; reflexivity|].
  cbn [path] in Kpa. destruct Kpa as (X1 & Kpa). assert (x = g) by congruence. subst x. clear X1.
  assert (Gl : forall h, In h (g :: M) -> fst h <> fst lc).
  { intros h Hg E. inversion Knd as [|? ? X _]. apply X. rewrite <- E. exact (in_map fst _ _ Hg). }
  assert (Bg : base <> g) by (intros ->; congruence).
  exists g, ul', M. split; [rewrite So by neq; exact E1|]. split; [rewrite Do by neq; exact Dg|]. constructor; auto.
  - now apply ins_next.
  - intros t i A B. rewrite Do; auto. apply snd_ne; [cbn; lia|apply snd_prev].
  - intros h Hh A B C. destruct (he_eqb_spec h lc) as [->|Q1]; [|destruct (he_eqb_spec h base) as [->|Q2]].
    + exists base. rewrite Dr, !Do by neq. rewrite B1, B2, R2. do 8 (split; [first [assumption|neq|reflexivity]|]). reflexivity.
    + exists lc. rewrite Dr, !Do by neq. rewrite B1, B2, R2. do 8 (split; [first [assumption|neq|reflexivity]|]). reflexivity.
    + destruct (Kn h Hh) as (k & Y1 & Y2 & Y3 & Y4 & Y5 & Y6 & Y7 & Y9 & Y8); [assumption|assumption|assumption|].
      assert (Sh : snd h < 3) by apply Hh. assert (Sk : snd k < 3) by apply Y2.
      assert (Z1 : k <> next lc) by congruence. assert (Z2 : k <> g) by congruence.
      assert (Z : forall x, snd x < 3 -> x <> lc -> x <> next lc -> prev x <> prev lc /\ next x <> prev lc).
      { intros x Sx V1 V2. split; intros Q; [apply V1; now apply prev_inj|apply V2]. rewrite <- (pn x) by auto. rewrite Q. now apply pp. }
      destruct (Z h Sh) as (H1 & H2); [assumption|assumption|]. destruct (Z k Sk) as (H3 & H4); [assumption|assumption|].
      exists k. rewrite !So by neq. rewrite !Do by neq. do 8 (split; [first [assumption|neq]|]). assumption.
  - rewrite pn, nn by auto. rewrite (Do lc) by neq. auto.
  - rewrite !Do by neq. auto.
  - rewrite !Do by neq. auto.
  - intros h Hh Dh. assert (h <> prev lc) by (intros ->; congruence). rewrite Do in Dh by assumption. destruct (Ko h Hh Dh) as (A & B).
    destruct (he_eqb_spec (prev h) (prev lc)) as [Q1|Q1]; [rewrite Q1, Dr|rewrite (Do (prev h)) by auto]; (destruct (he_eqb_spec (next h) (prev lc)) as [Q2|Q2]; [rewrite Q2, Dr|rewrite (Do (next h)) by auto]); split; congruence.
  - intros h v Hh Dh. destruct (he_eqb_spec h (prev lc)) as [->|Q]; [|rewrite Do in Dh by auto; eauto].
    assert (v = lr) as -> by congruence. apply (Kc (prev rc)); [now apply ins_prev|exact L1].
  - intros v Hv. destruct (Kp v Hv) as (h & Ih & Dh). exists h. split; [exact Ih|]. rewrite Do; [exact Dh|]. intros ->. congruence.
  - intros h a b c Hh Da Db Dc Xa Xb Xc. destruct (Nat.eq_dec (fst h) (fst lc)) as [E|E]; [|rewrite Do in Da, Db, Dc by neq; eauto].
    destruct (sides2 lc h Sl (proj2 Hh) E) as [->|[->| ->]].
    + rewrite Do in Da, Db by neq. replace a with ul by congruence. replace b with ll by congruence. replace c with lr by congruence. exact Pos.
    + rewrite np in Db by auto. rewrite pp in Dc by auto. rewrite Do in Db, Dc by neq. rewrite Cyc. replace a with lr by congruence. replace b with ul by congruence. replace c with ll by congruence. exact Pos.
    + rewrite nn in Db by auto. rewrite pn in Dc by auto. rewrite Do in Da, Dc by neq. rewrite <- Cyc. replace a with ll by congruence. replace b with lr by congruence. replace c with ul by congruence. exact Pos.
  - eapply path_ext; [|exact Kpa]. intros x Hx. apply in_removelast in Hx. destruct (Kde x (or_intror Hx)) as (Ix & Dx). pose proof (Gl x Hx) as A1.
    apply So; [|neq]. intros Q. assert (W : D (next base) = Some INV) by (rewrite <- Q, nn by apply Ix; exact Dx). congruence.
  - rewrite last_first in Kla. exact Kla.
  - inversion Knd; assumption.
  - intros x Hx. destruct (Kde x (or_intror Hx)) as (Ix & Dx). pose proof (Gl x Hx) as A1. split; [exact Ix|]. rewrite Do by neq. exact Dx.
  - intros h Hh Dh. assert (h <> prev lc) as Nh by (intros ->; congruence). rewrite Do in Dh by assumption.
    destruct (Kg h Hh Dh) as [Q|Q]; [|exact Q]. exfalso. destruct (sides lc h Sl (proj2 Hh) (eq_sym Q)) as [->|[->| ->]]; congruence.
Qed.
End KnitLeft.

(** * Running *)
Section Run.
Variables (N : nat) (D : hedge -> option nat) (S : hedge -> option hedge) (m : list triangle).
Hypothesis R : rep m0 N D S m.
Lemma rep_apex h : apex m h = D h. Proof. destruct R as (_ & _ & X & _). unfold apex. rewrite X. now destruct h. Qed.
Lemma rep_org h : org m h = D (next h). Proof. destruct R as (_ & _ & X & _). unfold org. now rewrite X. Qed.
Lemma rep_dest h : dest m h = D (prev h). Proof. destruct R as (_ & _ & X & _). unfold dest. now rewrite X. Qed.
Lemma rep_sym h : sym m h = S h. Proof. apply R. Qed.
End Run.
Lemma data_some N D S base lc rc ll lr ul ur L h : knitting N D S base lc rc ll lr ul ur L -> ins N h -> D h <> None.
Proof. intros K (A & B). destruct h as (t & i). cbn [fst snd] in *. apply K; [exact A|lia]. Qed.

Lemma eat_left_ok : forall fuel N D S base lc rc ll lr ul ur L m ne m' lc' ul', rep m0 N D S m -> knitting N D S base lc rc ll lr ul ur L ->
  (0 < ccw ul ll lr)%Z -> S (prev lc) = Some ne -> eat_left INV inc ll lr m lc ne ul fuel = Some (m', lc', ul') ->
  exists D' S' L', rep m0 N D' S' m' /\ knitting N D' S' base lc' rc ll lr ul' ur L' /\ (0 < ccw ul' ll lr)%Z.
Proof.
  induction fuel as [|k IH]; intros N D S base lc rc ll lr ul ur L m ne m' lc' ul' R K Pos Sne E; [discriminate|]. cbn [eat_left] in E.
  rewrite (rep_apex _ _ _ _ R) in E. destruct (D ne) as [na|] eqn:Dne; [|discriminate].
  destruct (negb (na =? INV) && (0 <? inc ll lr ul na)%Z) eqn:C; [|injection E as <- <- <-; eauto 6].
  apply andb_true_iff in C. destruct C as (C1 & C2). apply negb_true_iff, Nat.eqb_neq in C1. apply Z.ltb_lt in C2.
  destruct (eat_left_step _ _ _ _ _ _ _ _ _ _ _ K ne na Pos Sne Dne C1 C2) as (top & side & outer & T1 & S1 & U1 & In1 & In2 & In3 & In4 & Uo & K' & P' & Sl).
  pose proof (k_l _ _ _ _ _ _ _ _ _ _ _ K) as Il. assert (Sn : snd ne < 3) by apply In1. assert (Sc : snd lc < 3) by apply Il.
  pose proof (k_sym _ _ _ _ _ _ _ _ _ _ _ K) as Ks.
  assert (Kd : forall h, ins N h -> D h <> None) by (intros h Hh; eapply data_some; eauto).
  rewrite !nn in E by auto. rewrite !pp in E by auto. rewrite !(rep_sym _ _ _ _ R), T1, S1 in E.
  destruct (bond_rep _ _ _ _ _ (prev ne) top R) as (m1 & Q1 & R1); [apply In1|apply In2|apply Ks, ins_prev, In1|apply Ks, In2|]. rewrite Q1 in E. clear Q1.
  destruct (bond_rep _ _ _ _ _ lc side R1) as (m2 & Q1 & R2); [apply Il|apply In3|repeat apply up_some; auto|repeat apply up_some; auto|]. rewrite Q1 in E. clear Q1.
  rewrite (rep_sym _ _ _ _ R2), Uo in E.
  destruct (bond_rep _ _ _ _ _ (next ne) outer R2) as (m3 & Q1 & R3); [apply In1|apply In4|repeat apply up_some; apply Ks, ins_next, In1|repeat apply up_some; auto|]. rewrite Q1 in E. clear Q1.
  unfold set_org, set_dest, set_apex in E.
  destruct (put_data_rep _ _ _ _ _ (prev lc) ll R3) as (m4 & Q1 & R4); [apply Il|apply Kd, ins_prev, Il|].
  change (put_data m3 (fst (next lc)) ((snd (next lc) + 1) mod 3) ll) with (put_data m3 (fst (next (next lc))) (snd (next (next lc))) ll) in E. rewrite nn, Q1 in E by auto. clear Q1.
  destruct (put_data_rep _ _ _ _ _ lc INV R4) as (m5 & Q1 & R5); [apply Il|repeat apply up_some; apply Kd, Il|].
  change (put_data m4 (fst (next lc)) ((snd (next lc) + 2) mod 3) INV) with (put_data m4 (fst (prev (next lc))) (snd (prev (next lc))) INV) in E. rewrite pn, Q1 in E by auto. clear Q1.
  destruct (put_data_rep _ _ _ _ _ (next lc) na R5) as (m6 & Q1 & R6); [apply Il|repeat apply up_some; apply Kd, ins_next, Il|]. rewrite Q1 in E. clear Q1.
  destruct (put_data_rep _ _ _ _ _ (prev ne) INV R6) as (m7 & Q1 & R7); [apply In1|repeat apply up_some; apply Kd, ins_prev, In1|].
  change (put_data m6 (fst (next ne)) ((snd (next ne) + 1) mod 3) INV) with (put_data m6 (fst (next (next ne))) (snd (next (next ne))) INV) in E. rewrite nn, Q1 in E by auto. clear Q1.
  destruct (put_data_rep _ _ _ _ _ ne ul R7) as (m8 & Q1 & R8); [apply In1|repeat apply up_some; apply Kd, In1|].
  change (put_data m7 (fst (next ne)) ((snd (next ne) + 2) mod 3) ul) with (put_data m7 (fst (prev (next ne))) (snd (prev (next ne))) ul) in E. rewrite pn, Q1 in E by auto. clear Q1.
  destruct (put_data_rep _ _ _ _ _ (next ne) na R8) as (m9 & Q1 & R9); [apply In1|repeat apply up_some; apply Kd, ins_next, In1|]. rewrite Q1 in E. clear Q1.
  eapply IH; [exact R9|exact K'|exact P'| |exact E]. rewrite pn by auto. exact Sl.
Qed.
Lemma eat_right_ok : forall fuel N D S base lc rc ll lr ul ur L m ne m' rc' ur', rep m0 N D S m -> knitting N D S base lc rc ll lr ul ur L ->
  (0 < ccw ur ll lr)%Z -> S (next rc) = Some ne -> eat_right INV inc ll lr m rc ne ur fuel = Some (m', rc', ur') ->
  exists D' S' L', rep m0 N D' S' m' /\ knitting N D' S' base lc rc' ll lr ul ur' L' /\ (0 < ccw ur' ll lr)%Z.
Proof.
  induction fuel as [|k IH]; intros N D S base lc rc ll lr ul ur L m ne m' rc' ur' R K Pos Sne E; [discriminate|]. cbn [eat_right] in E.
  rewrite (rep_apex _ _ _ _ R) in E. destruct (D ne) as [na|] eqn:Dne; [|discriminate].
  destruct (negb (na =? INV) && (0 <? inc ll lr ur na)%Z) eqn:C; [|injection E as <- <- <-; eauto 6].
  apply andb_true_iff in C. destruct C as (C1 & C2). apply negb_true_iff, Nat.eqb_neq in C1. apply Z.ltb_lt in C2.
  destruct (eat_right_step _ _ _ _ _ _ _ _ _ _ _ K ne na Pos Sne Dne C1 C2) as (top & side & outer & T1 & S1 & U1 & In1 & In2 & In3 & In4 & Uo & K' & P' & Sl).
  pose proof (k_r _ _ _ _ _ _ _ _ _ _ _ K) as Il. assert (Sn : snd ne < 3) by apply In1. assert (Sc : snd rc < 3) by apply Il.
  pose proof (k_sym _ _ _ _ _ _ _ _ _ _ _ K) as Ks.
  assert (Kd : forall h, ins N h -> D h <> None) by (intros h Hh; eapply data_some; eauto).
  rewrite !pp in E by auto. rewrite !nn in E by auto. rewrite !(rep_sym _ _ _ _ R), T1, S1 in E.
  destruct (bond_rep _ _ _ _ _ (next ne) top R) as (m1 & Q1 & R1); [apply In1|apply In2|apply Ks, ins_next, In1|apply Ks, In2|]. rewrite Q1 in E. clear Q1.
  destruct (bond_rep _ _ _ _ _ rc side R1) as (m2 & Q1 & R2); [apply Il|apply In3|repeat apply up_some; auto|repeat apply up_some; auto|]. rewrite Q1 in E. clear Q1.
  rewrite (rep_sym _ _ _ _ R2), Uo in E.
  destruct (bond_rep _ _ _ _ _ (prev ne) outer R2) as (m3 & Q1 & R3); [apply In1|apply In4|repeat apply up_some; apply Ks, ins_prev, In1|repeat apply up_some; auto|]. rewrite Q1 in E. clear Q1.
  unfold set_org, set_dest, set_apex in E.
  destruct (put_data_rep _ _ _ _ _ rc INV R3) as (m4 & Q1 & R4); [apply Il|apply Kd, Il|].
  change (put_data m3 (fst (prev rc)) ((snd (prev rc) + 1) mod 3) INV) with (put_data m3 (fst (next (prev rc))) (snd (next (prev rc))) INV) in E. rewrite np, Q1 in E by auto. clear Q1.
  destruct (put_data_rep _ _ _ _ _ (next rc) lr R4) as (m5 & Q1 & R5); [apply Il|repeat apply up_some; apply Kd, ins_next, Il|].
  change (put_data m4 (fst (prev rc)) ((snd (prev rc) + 2) mod 3) lr) with (put_data m4 (fst (prev (prev rc))) (snd (prev (prev rc))) lr) in E. rewrite pp, Q1 in E by auto. clear Q1.
  destruct (put_data_rep _ _ _ _ _ (prev rc) na R5) as (m6 & Q1 & R6); [apply Il|repeat apply up_some; apply Kd, ins_prev, Il|]. rewrite Q1 in E. clear Q1.
  destruct (put_data_rep _ _ _ _ _ ne ur R6) as (m7 & Q1 & R7); [apply In1|repeat apply up_some; apply Kd, In1|].
  change (put_data m6 (fst (prev ne)) ((snd (prev ne) + 1) mod 3) ur) with (put_data m6 (fst (next (prev ne))) (snd (next (prev ne))) ur) in E. rewrite np, Q1 in E by auto. clear Q1.
  destruct (put_data_rep _ _ _ _ _ (next ne) INV R7) as (m8 & Q1 & R8); [apply In1|repeat apply up_some; apply Kd, ins_next, In1|].
  change (put_data m7 (fst (prev ne)) ((snd (prev ne) + 2) mod 3) INV) with (put_data m7 (fst (prev (prev ne))) (snd (prev (prev ne))) INV) in E. rewrite pp, Q1 in E by auto. clear Q1.
  destruct (put_data_rep _ _ _ _ _ (prev ne) na R8) as (m9 & Q1 & R9); [apply In1|repeat apply up_some; apply Kd, ins_prev, In1|]. rewrite Q1 in E. clear Q1.
  eapply IH; [exact R9|exact K'|exact P'| |exact E]. rewrite np by auto. exact Sl.
Qed.

(** * The end *)
Lemma finish_ok N D S base lc rc ll lr ul ur L m : rep m0 N D S m -> knitting N D S base lc rc ll lr ul ur L ->
  exists m', (let (m, ne) := make_triangle INV m in
      m <- set_org m ne ll ;; m <- set_dest m ne lr ;; m <- bond m ne base ;; let ne := next ne in m <- bond m ne rc ;; let ne := next ne in bond m ne lc) = Some m' /\
    sheet INV ccw m0 m' pts /\ length m' = N + 1.
Proof.
  intros R K. pose proof (k_ll _ _ _ _ _ _ _ _ _ _ _ K) as Nll. pose proof (k_lr _ _ _ _ _ _ _ _ _ _ _ K) as Nlr.
  destruct K as [Kb Kl Kr Kd Ks Km Kn (B1 & B2) (L1 & L2 & L3) (R1 & R2 & R3) Ko Kc Kp Kre Kpa Kla Knd Kde Kg].
  assert (Lb : lc <> base) by (intros Q; subst; congruence). assert (Lr : lc <> rc) by (intros Q; subst; congruence). assert (Br : base <> rc) by (intros Q; subst; congruence).
  assert (nN : n <= N) by (destruct Kb; lia). assert (Fb : fst base <> N) by (destruct Kb; lia). assert (Fc : fst lc <> N) by (destruct Kl; lia). assert (Fr' : fst rc <> N) by (destruct Kr; lia).
  destruct (make_rep INV _ _ _ _ _ nN R) as (m1 & -> & Q1).
  destruct (put_data_rep _ _ _ _ _ (N, 1) ll Q1) as (m2 & E2 & Q2); [exact nN|unfold newD; cbn [fst snd]; rewrite Nat.eqb_refl; discriminate|].
  unfold set_org. change (put_data m1 (fst (N, 0)) ((snd (N, 0) + 1) mod 3) ll) with (put_data m1 (fst (N, 1)) (snd (N, 1)) ll). rewrite E2. clear E2.
  destruct (put_data_rep _ _ _ _ _ (N, 2) lr Q2) as (m3 & E3 & Q3); [exact nN|apply up_some; unfold newD; cbn [fst snd]; rewrite Nat.eqb_refl; discriminate|].
  unfold set_dest. change (put_data m2 (fst (N, 0)) ((snd (N, 0) + 2) mod 3) lr) with (put_data m2 (fst (N, 2)) (snd (N, 2)) lr). rewrite E3. clear E3.
  assert (So0 : forall i, i < 3 -> newS INV N S (N, i) <> None) by (intros i Hi; unfold newS; cbn [fst snd]; rewrite Nat.eqb_refl; destruct (Nat.ltb_spec i 3); [discriminate|lia]).
  assert (So1 : forall h, fst h <> N -> newS INV N S h = S h) by (intros h Hh; unfold newS; destruct (Nat.eqb_spec (fst h) N); [contradiction|reflexivity]).
  destruct (bond_rep _ _ _ _ _ (N, 0) base Q3) as (m4 & E4 & Q4); [exact nN|apply Kb|apply So0; lia|rewrite So1 by auto; auto|]. rewrite E4. clear E4.
  change (next (N, 0)) with (N, 1). change (next (N, 1)) with (N, 2).
  destruct (bond_rep _ _ _ _ _ (N, 1) rc Q4) as (m5 & E5 & Q5); [exact nN|apply Kr|repeat apply up_some; apply So0; lia|repeat apply up_some; rewrite So1 by auto; auto|]. rewrite E5. clear E5.
  destruct (bond_rep _ _ _ _ _ (N, 2) lc Q5) as (m6 & E6 & Q6); [exact nN|apply Kl|repeat apply up_some; apply So0; lia|repeat apply up_some; rewrite So1 by auto; auto|]. rewrite E6. clear E6.
  exists m6. split; [reflexivity|]. clear m1 m2 m3 m4 m5 Q1 Q2 Q3 Q4 Q5.
  assert (x01 : (N, 0) <> (N, 1)) by congruence. assert (x02 : (N, 0) <> (N, 2)) by congruence. assert (x12 : (N, 1) <> (N, 2)) by congruence.
  match type of Q6 with rep _ _ ?d ?s _ => set (D' := d) in *; set (S' := s) in * end.
  assert (D0 : D' (N, 0) = Some INV) by (subst D'; ups; unfold newD; cbn [fst snd]; rewrite Nat.eqb_refl; reflexivity).
  assert (D1 : D' (N, 1) = Some ll) by (subst D'; ups; reflexivity). assert (D2 : D' (N, 2) = Some lr) by (subst D'; ups; reflexivity).
  assert (Do : forall x, fst x <> N -> D' x = D x).
  { intros x Hx. subst D'. rewrite !up_ne by (intros ->; apply Hx; reflexivity). unfold newD. destruct (Nat.eqb_spec (fst x) N); [contradiction|reflexivity]. }
  assert (Dm : forall i, 3 <= i < 6 -> D' (N, i) = Some INV).
  { intros i Hi. subst D'. rewrite !up_ne by (intros Q; injection Q; lia). unfold newD. cbn [fst snd]. rewrite Nat.eqb_refl. destruct (Nat.ltb_spec i 6); [reflexivity|lia]. }
  assert (ye : forall (h : hedge) (i : nat), fst h <> N -> h <> (N, i)) by (intros h i Hh ->; apply Hh; reflexivity).
  pose proof (ye base 0 Fb) as yb0. pose proof (ye base 1 Fb) as yb1. pose proof (ye base 2 Fb) as yb2. pose proof (ye lc 0 Fc) as yl0. pose proof (ye lc 1 Fc) as yl1. pose proof (ye lc 2 Fc) as yl2.
  pose proof (ye rc 0 Fr') as yr0. pose proof (ye rc 1 Fr') as yr1. pose proof (ye rc 2 Fr') as yr2.
  assert (S0 : S' (N, 0) = Some base) by (subst S'; ups; reflexivity). assert (S1 : S' (N, 1) = Some rc) by (subst S'; ups; reflexivity). assert (S2 : S' (N, 2) = Some lc) by (subst S'; ups; reflexivity).
  assert (Sb : S' base = Some (N, 0)) by (subst S'; ups; reflexivity). assert (Sr : S' rc = Some (N, 1)) by (subst S'; ups; reflexivity). assert (Sl : S' lc = Some (N, 2)) by (subst S'; ups; reflexivity).
  assert (So : forall x, fst x <> N -> x <> base -> x <> lc -> x <> rc -> S' x = S x).
  { intros x Hx A B C. subst S'. pose proof (ye x 0 Hx). pose proof (ye x 1 Hx). pose proof (ye x 2 Hx). ups. auto. }
  clearbody D' S'. clear ye So0 So1 x01 x02 x12. destruct Q6 as (Ln & Fn & Rd & Rs).
  assert (Ro : forall h, org m6 h = D' (next h)) by (intros; unfold org; now rewrite Rd). assert (Re : forall h, dest m6 h = D' (prev h)) by (intros; unfold dest; now rewrite Rd).
  assert (Ii : forall h, n <= fst h -> inside m6 h -> ins N h \/ exists i, h = (N, i) /\ i < 3).
  { intros (t & i) A (B & C). cbn [fst snd] in *. destruct (Nat.eq_dec t N) as [->|Q]; [eauto|left]. split; cbn [fst snd]; lia. }
  assert (Io : forall h, ins N h -> n <= fst h /\ inside m6 h /\ fst h <> N) by (intros h (A & B); repeat split; auto; lia).
  assert (IN : forall i, i < 3 -> n <= fst (N, i) /\ inside m6 (N, i)) by (intros i Hi; repeat split; cbn [fst snd]; auto; lia).
  assert (Gt : forall t i v, n <= t -> i < 3 -> get_data m6 t i = Some v -> t < length m6).
  { intros t i v _ _ X. unfold get_data in X. destruct (nth_error m6 t) eqn:Y; [|discriminate]. eapply nth_error_lt; eauto. }
  split; [|exact Ln]. constructor.
  - exists (skipn (length m0) m6). rewrite <- Fn at 1. symmetry. apply firstn_skipn.
  - intros t i Ht Hi. rewrite Rd. destruct (Nat.eq_dec t N) as [->|Q].
    + destruct (Nat.lt_ge_cases i 3) as [X|X]; [|rewrite Dm by lia; discriminate]. destruct (three _ X) as [->|[->| ->]]; congruence.
    + rewrite Do by exact Q. apply Kd; auto. fold n in Ht. lia.
  - intros h Hh Ih. destruct (Ii h Hh Ih) as [Jh|(i & -> & Hi)].
    + destruct (Io h Jh) as (_ & _ & Fh). rewrite Rs. setoid_rewrite Rs. setoid_rewrite Ro. setoid_rewrite Re.
      destruct (he_eqb_spec h base) as [->|X1]; [|destruct (he_eqb_spec h lc) as [->|X2]; [|destruct (he_eqb_spec h rc) as [->|X3]]].
      * exists (N, 0). destruct (IN 0 ltac:(lia)). change (next (N, 0)) with (N, 1). change (prev (N, 0)) with (N, 2). rewrite D1, D2, !Do by assumption. rewrite B1, B2. repeat split; auto; try congruence; apply H0.
      * exists (N, 2). destruct (IN 2 ltac:(lia)). change (next (N, 2)) with (N, 0). change (prev (N, 2)) with (N, 1). rewrite D0, D1, !Do by assumption. rewrite L1, L2. repeat split; auto; try congruence; apply H0.
      * exists (N, 1). destruct (IN 1 ltac:(lia)). change (next (N, 1)) with (N, 2). change (prev (N, 1)) with (N, 0). rewrite D0, D2, !Do by assumption. rewrite R1, R2. repeat split; auto; try congruence; apply H0.
      * destruct (Kn h Jh X1 X2 X3) as (g & Y1 & Y2 & Y3 & Y4 & Y5 & Y6 & Y7 & Y8 & Y9). destruct (Io g Y2) as (G1 & G2 & G3). exists g. rewrite !So, !Do by assumption. auto 10.
    + rewrite Rs. setoid_rewrite Rs. setoid_rewrite Ro. setoid_rewrite Re. destruct (three _ Hi) as [->|[->| ->]].
      * exists base. destruct (Io base Kb) as (G1 & G2 & G3). change (next (N, 0)) with (N, 1). change (prev (N, 0)) with (N, 2). rewrite D1, D2, !Do by assumption. rewrite B1, B2. auto 10.
      * exists rc. destruct (Io rc Kr) as (G1 & G2 & G3). change (next (N, 1)) with (N, 2). change (prev (N, 1)) with (N, 0). rewrite D0, D2, !Do by assumption. rewrite R1, R2. auto 10.
      * exists lc. destruct (Io lc Kl) as (G1 & G2 & G3). change (next (N, 2)) with (N, 0). change (prev (N, 2)) with (N, 1). rewrite D0, D1, !Do by assumption. rewrite L1, L2. auto 10.
  - intros t i v Ht Hi X. pose proof (Gt t i v Ht Hi X) as Lt. rewrite Rd in X. destruct (Nat.eq_dec t N) as [->|Q].
    + destruct (three _ Hi) as [->|[->| ->]]; [left; congruence| |]; [replace v with ll by congruence; apply (Kc (next lc)); [now apply ins_next|exact L1]|replace v with lr by congruence; apply (Kc (next base)); [now apply ins_next|exact B1]].
    + rewrite Do in X by exact Q. apply (Kc (t, i)); auto. split; cbn [fst snd]; auto. unfold n; lia.
  - intros v Hv. destruct (Kp v Hv) as ((t & i) & Ih & Dh). exists t, i. destruct (Io _ Ih) as (X1 & X2 & X3). cbn [fst snd] in *. split; [exact X1|]. split; [apply Ih|]. rewrite Rd, Do by exact X3. exact Dh.
  - intros t i j Ht Hi Hj X Y. pose proof (Gt t i _ Ht Hi X) as Lt. rewrite Rd in X, Y. destruct (Nat.eq_dec t N) as [->|Q].
    + destruct (three _ Hi) as [->|[->| ->]], (three _ Hj) as [->|[->| ->]]; congruence.
    + rewrite Do in X, Y by exact Q. destruct (Ko (t, i)) as (Z1 & Z2); [split; cbn [fst snd]; auto; unfold n; lia|exact X|]. unfold next, prev in Z1, Z2. cbn [fst snd] in Z1, Z2.
      destruct (three _ Hi) as [->|[->| ->]], (three _ Hj) as [->|[->| ->]]; cbn in Z1, Z2; congruence.
  - intros h Hh Ih. unfold mark. rewrite Rd. destruct (Ii h Hh Ih) as [Jh|(i & -> & Hi)]; [|apply Dm; cbn [snd]; lia]. destruct (Io h Jh) as (_ & _ & Fh). rewrite Do by exact Fh. apply Km; [apply Jh|destruct Jh; lia].
  - intros t i j k Ht X Y Z Ni Nj Nk. pose proof (Gt t 0 _ Ht ltac:(lia) X) as Lt. rewrite Rd in X, Y, Z. destruct (Nat.eq_dec t N) as [->|Q]; [congruence|]. rewrite Do in X, Y, Z by exact Q.
    apply (Kre (t, 0)); auto. split; cbn [fst snd]; [|lia]. unfold n; lia.
  - exists (N, 1), (lc :: L).
    assert (FL : forall g, In g (lc :: L) -> fst g <> N) by (intros g Hg; destruct (Kde g Hg) as ((W & _) & _); lia).
    split; [|split; [|split]].
    + cbn [app path]. change (next (N, 1)) with (N, 2). rewrite Rs. split; [exact S2|]. apply path_app. split.
      * eapply path_ext; [|exact Kpa]. intros x Hx. pose proof (removelast_ne (lc :: L) lc x Knd Hx) as Nx. rewrite last_first, Kla in Nx. apply in_removelast in Hx. destruct (Kde x Hx) as (Ix & Dx).
        rewrite Rs. apply So; [apply (FL x Hx)| | |].
        -- intros Q. assert (W : D (next base) = Some INV) by (rewrite <- Q, nn by apply Ix; exact Dx). congruence.
        -- intros Q. assert (W : D (next lc) = Some INV) by (rewrite <- Q, nn by apply Ix; exact Dx). congruence.
        -- intros Q. apply Nx. rewrite <- Q, pn by apply Ix. reflexivity.
      * rewrite Kla. cbn [path]. rewrite np by apply Kr. rewrite Rs. auto.
    + change (map fst ((N, 1) :: lc :: L)) with (N :: map fst (lc :: L)). constructor; [|exact Knd]. intros Q. apply in_map_iff in Q. destruct Q as (g & Eg & Hg). apply (FL g Hg Eg).
    + intros g [<-|Hg]; [destruct (IN 1 ltac:(lia)); rewrite Re; auto|]. destruct (Kde g Hg) as (Ig & Dg). destruct (Io g Ig) as (G1 & G2 & G3). rewrite Re, Do by exact G3. auto.
    + intros t Ht. split.
      * intros (i & Hi & X). rewrite Rd in X. destruct (Nat.eq_dec t N) as [->|Q]; [left; reflexivity|]. right. rewrite Do in X by exact Q. apply (Kg (t, i)); auto. split; cbn [fst snd]; auto. unfold n; lia.
      * intros [<-|Q]; [exists 0; split; [lia|]; cbn [fst]; now rewrite Rd|]. apply (in_map_iff fst (lc :: L)) in Q. destruct Q as (g & <- & Hg). destruct (Kde g Hg) as (Ig & Dg). destruct (Io g Ig) as (G1 & G2 & G3).
        exists (snd (prev g)). split; [apply snd_prev|]. rewrite Rd. change (fst g, snd (prev g)) with (prev g). rewrite Do by exact G3. exact Dg.
Qed.

Lemma knit_ok ef : forall fuel N D S base lc rc ll lr ul ur L m m', rep m0 N D S m -> knitting N D S base lc rc ll lr ul ur L ->
  knit INV ccw inc ef m base lc rc ll lr ul ur fuel = Some m' -> sheet INV ccw m0 m' pts /\ length m' = N + 1.
Proof.
  induction fuel as [|k IH]; intros N D S base lc rc ll lr ul ur L m m' R K E; [discriminate|]. cbn [knit] in E.
  destruct (Z.leb_spec (ccw ul ll lr) 0) as [Cl|Cl]; destruct (Z.leb_spec (ccw ur ll lr) 0) as [Cr|Cr]; cbn [andb orb negb] in E.
  1:{ destruct (finish_ok _ _ _ _ _ _ _ _ _ _ _ _ R K) as (m6 & E6 & X). pose proof (eq_trans (eq_sym E6) E) as E7. injection E7 as <-. exact X. }
  all: assert (Kright : forall D2 S2 L2 m2 lc1 rc1 ul1 ur1, rep m0 N D2 S2 m2 -> knitting N D2 S2 base lc1 rc1 ll lr ul1 ur1 L2 -> (0 < ccw ur1 ll lr)%Z ->
      (m <- bond m2 base rc1;; (let base0 := prev rc1 in m3 <- set_dest m base0 ll;; rc2 <- sym m3 base0;; ur2 <- apex m3 rc2;; knit INV ccw inc ef m3 base0 lc1 rc2 ll ur1 ul1 ur2 k)) = Some m' ->
      sheet INV ccw m0 m' pts /\ length m' = N + 1) by
   (intros D2 S2 L2 m2 lc1 rc1 ul1 ur1 R2 K2 P E'; pose proof (knit_right_step _ _ _ _ _ _ _ _ _ _ _ K2 P) as (g & u & L' & Y1 & Y2 & K3);
    pose proof (k_r _ _ _ _ _ _ _ _ _ _ _ K2) as Ir; pose proof (k_b _ _ _ _ _ _ _ _ _ _ _ K2) as Ib; pose proof (k_sym _ _ _ _ _ _ _ _ _ _ _ K2) as Ks;
    destruct (bond_rep _ _ _ _ _ base rc1 R2) as (m4 & F1 & R4); [apply Ib|apply Ir|apply Ks, Ib|apply Ks, Ir|]; rewrite F1 in E'; cbv zeta in E';
    destruct (put_data_rep _ _ _ _ _ (next rc1) ll R4) as (m5 & F2 & R5); [apply Ir|eapply data_some; [exact K2|apply ins_next, Ir]|];
    unfold set_dest in E'; change (put_data m4 (fst (prev rc1)) ((snd (prev rc1) + 2) mod 3) ll) with (put_data m4 (fst (prev (prev rc1))) (snd (prev (prev rc1))) ll) in E';
    rewrite pp, F2, (rep_sym _ _ _ _ R5), Y1, (rep_apex _ _ _ _ R5), Y2 in E' by apply Ir; eapply IH; eauto).
  all: assert (Kleft : forall D2 S2 L2 m2 lc1 rc1 ul1 ur1, rep m0 N D2 S2 m2 -> knitting N D2 S2 base lc1 rc1 ll lr ul1 ur1 L2 -> (0 < ccw ul1 ll lr)%Z ->
      (m <- bond m2 base lc1;; (let base0 := next lc1 in m3 <- set_org m base0 lr;; lc2 <- sym m3 base0;; ul2 <- apex m3 lc2;; knit INV ccw inc ef m3 base0 lc2 rc1 ul1 lr ul2 ur1 k)) = Some m' ->
      sheet INV ccw m0 m' pts /\ length m' = N + 1) by
   (intros D2 S2 L2 m2 lc1 rc1 ul1 ur1 R2 K2 P E'; pose proof (knit_left_step _ _ _ _ _ _ _ _ _ _ _ K2 P) as (g & u & L' & Y1 & Y2 & K3);
    pose proof (k_l _ _ _ _ _ _ _ _ _ _ _ K2) as Ir; pose proof (k_b _ _ _ _ _ _ _ _ _ _ _ K2) as Ib; pose proof (k_sym _ _ _ _ _ _ _ _ _ _ _ K2) as Ks;
    destruct (bond_rep _ _ _ _ _ base lc1 R2) as (m4 & F1 & R4); [apply Ib|apply Ir|apply Ks, Ib|apply Ks, Ir|]; rewrite F1 in E'; cbv zeta in E';
    destruct (put_data_rep _ _ _ _ _ (prev lc1) lr R4) as (m5 & F2 & R5); [apply Ir|eapply data_some; [exact K2|apply ins_prev, Ir]|];
    unfold set_org in E'; change (put_data m4 (fst (next lc1)) ((snd (next lc1) + 1) mod 3) lr) with (put_data m4 (fst (next (next lc1))) (snd (next (next lc1))) lr) in E';
    rewrite nn, F2, (rep_sym _ _ _ _ R5), Y1, (rep_apex _ _ _ _ R5), Y2 in E' by apply Ir; eapply IH; eauto).
  - rewrite (rep_sym _ _ _ _ R) in E. destruct (S (next rc)) as [ne|] eqn:Sne; [|discriminate].
    destruct (eat_right INV inc ll lr m rc ne ur ef) as [((m2 & rc1) & ur1)|] eqn:E2; [|discriminate].
    destruct (eat_right_ok _ _ _ _ _ _ _ _ _ _ _ _ _ _ _ _ _ R K Cr Sne E2) as (D2 & S2 & L2 & X1 & X2 & X3). eapply Kright; eauto.
  - rewrite (rep_sym _ _ _ _ R) in E. destruct (S (prev lc)) as [ne|] eqn:Sne; [|discriminate].
    destruct (eat_left INV inc ll lr m lc ne ul ef) as [((m2 & lc1) & ul1)|] eqn:E2; [|discriminate].
    destruct (eat_left_ok _ _ _ _ _ _ _ _ _ _ _ _ _ _ _ _ _ R K Cl Sne E2) as (D2 & S2 & L2 & X1 & X2 & X3). eapply Kleft; eauto.
  - rewrite (rep_sym _ _ _ _ R) in E. destruct (S (prev lc)) as [ne|] eqn:Sne; [|discriminate].
    destruct (eat_left INV inc ll lr m lc ne ul ef) as [((m2 & lc1) & ul1)|] eqn:E2; [|discriminate].
    destruct (eat_left_ok _ _ _ _ _ _ _ _ _ _ _ _ _ _ _ _ _ R K Cl Sne E2) as (D2 & S2 & L2 & X1 & X2 & X3).
    rewrite (rep_sym _ _ _ _ X1) in E. destruct (S2 (next rc)) as [ne'|] eqn:Sne'; [|discriminate].
    destruct (eat_right INV inc ll lr m2 rc ne' ur ef) as [((m3 & rc1) & ur1)|] eqn:E3; [|discriminate].
    destruct (eat_right_ok _ _ _ _ _ _ _ _ _ _ _ _ _ _ _ _ _ X1 X2 Cr Sne' E3) as (D3 & S3 & L3 & Z1 & Z2 & Z3).
    destruct (0 <? inc ul1 ll lr ur1)%Z; [eapply Kright|eapply Kleft]; eauto.
Qed.
End Knit.
