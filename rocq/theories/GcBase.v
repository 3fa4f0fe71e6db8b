(** GraphCut: links of the graph, residual capacities of cuts, the queue of
    active nodes and the list of orphans. *)
From Coq Require Import ZArith List Bool Arith Lia.
From Verif Require Import Lib GraphCut.
Import ListNotations.

Lemma fupd_eq {A} (f : nat -> A) i v : fupd f i v i = v.
Proof. unfold fupd. now rewrite Nat.eqb_refl. Qed.
Lemma fupd_neq {A} (f : nat -> A) i v j : j <> i -> fupd f i v j = f j.
Proof. intros H. unfold fupd. now rewrite (proj2 (Nat.eqb_neq j i) H). Qed.
Ltac fu := repeat first [rewrite fupd_eq | rewrite fupd_neq by (auto; try lia; congruence)].
Ltac fcase x y := destruct (Nat.eq_dec x y) as [->|]; [rewrite ?fupd_eq|rewrite ?(fupd_neq _ y _ x) by auto].

Notation tail g a := (head g (sister g a)).

(** * The graph *)
Record gwf (g : graph) : Prop := {
  gw_sis : forall a, a < n_arcs g -> sister g a < n_arcs g /\ sister g (sister g a) = a /\ sister g a <> a;
  gw_head : forall a, a < n_arcs g -> head g a < n_nodes g;
  gw_out : forall v a, v < n_nodes g -> (In a (out_arcs g v) <-> a < n_arcs g /\ tail g a = v) }.

(** * Sums *)
Fixpoint sumn (f : nat -> Z) (k : nat) : Z := match k with O => 0%Z | S k => (sumn f k + f k)%Z end.
Local Open Scope Z_scope.
Lemma sumn_ext : forall f h k, (forall i, (i < k)%nat -> f i = h i) -> sumn f k = sumn h k.
Proof. intros f h. induction k; intros H; simpl; auto. rewrite IHk, H; auto with arith. Qed.
Lemma sumn_upd : forall f (h : nat -> Z -> Z) k i v, (i < k)%nat ->
  sumn (fun j => h j (fupd f i v j)) k = sumn (fun j => h j (f j)) k - h i (f i) + h i v.
Proof.
  intros f h. induction k; intros i v H; [lia|]. simpl. destruct (Nat.eq_dec i k) as [->|N].
  - rewrite fupd_eq. rewrite (sumn_ext (fun j => h j (fupd f k v j)) (fun j => h j (f j)) k); [lia|].
    intros j Hj. rewrite fupd_neq; auto. lia.
  - rewrite IHk by lia. rewrite fupd_neq by lia. lia.
Qed.
Lemma sumn_0 : forall f k, (forall i, (i < k)%nat -> f i = 0) -> sumn f k = 0.
Proof. intros f. induction k; intros H; simpl; auto. rewrite IHk, H; auto with arith. Qed.
Lemma sumn_pos : forall f k, (forall i, (i < k)%nat -> 0 <= f i) -> 0 <= sumn f k.
Proof. intros f. induction k; intros H; simpl; [lia|]. pose proof (H k ltac:(lia)). assert (0 <= sumn f k) by (apply IHk; auto). lia. Qed.

(** * Residual capacity of a cut: [x] tells the source side *)
Definition crosses (g : graph) (x : nat -> bool) (a : nat) : bool := x (tail g a) && negb (x (head g a)).
Definition term_cap (x : nat -> bool) (v : nat) (c : Z) : Z := if x v then Z.max 0 (- c) else Z.max 0 c.
Definition rescap (g : graph) (r c : nat -> Z) (x : nat -> bool) : Z :=
  sumn (fun a => if crosses g x a then r a else 0) (n_arcs g) + sumn (fun v => term_cap x v (c v)) (n_nodes g).
Definition bz (b : bool) : Z := if b then 1 else 0.

Lemma rescap_push : forall g r c x a b, gwf g -> (a < n_arcs g)%nat ->
  rescap g (fupd (fupd r (sister g a) (r (sister g a) + b)) a (r a - b)) c x = rescap g r c x - b * (bz (x (tail g a)) - bz (x (head g a))).
Proof.
  intros g r c x a b W Ha. destruct (gw_sis g W a Ha) as (S1 & S2 & S3). unfold rescap.
  rewrite (sumn_upd (fupd r (sister g a) (r (sister g a) + b)) (fun a z => if crosses g x a then z else 0)) by auto.
  rewrite (sumn_upd r (fun a z => if crosses g x a then z else 0)) by auto.
  rewrite fupd_neq by auto. unfold crosses. rewrite S2.
  destruct (x (tail g a)), (x (head g a)); simpl; lia.
Qed.
Lemma rescap_push' : forall g r c x a b, gwf g -> (a < n_arcs g)%nat ->
  rescap g (fupd (fupd r a (r a + b)) (sister g a) (r (sister g a) - b)) c x = rescap g r c x - b * (bz (x (head g a)) - bz (x (tail g a))).
Proof.
  intros g r c x a b W Ha. destruct (gw_sis g W a Ha) as (S1 & S2 & S3).
  pose proof (rescap_push g r c x (sister g a) b W S1) as H. rewrite S2 in H. exact H.
Qed.
Lemma rescap_term : forall g r c x i v, (i < n_nodes g)%nat ->
  rescap g r (fupd c i v) x = rescap g r c x - term_cap x i (c i) + term_cap x i v.
Proof. intros g r c x i v Hi. unfold rescap. rewrite (sumn_upd c (term_cap x)) by auto. lia. Qed.

(** * Linked lists *)
Local Open Scope nat_scope.
(** [links nx o l]: starting at [o] and following [nx] gives [l], up to a [None]. *)
Inductive links (nx : nat -> option nat) : option nat -> list nat -> Prop :=
| links_nil : links nx None []
| links_cons : forall a l, links nx (nx a) l -> links nx (Some a) (a :: l).
Lemma links_ext : forall nx nx' o l, (forall a, In a l -> nx' a = nx a) -> links nx o l -> links nx' o l.
Proof.
  intros nx nx' o l H L. revert H. induction L; intros H; constructor. rewrite H by (left; auto). apply IHL. intros; apply H; right; auto.
Qed.
Lemma links_upd : forall nx o l i v, ~ In i l -> links nx o l -> links (fupd nx i v) o l.
Proof. intros nx o l i v N L. apply links_ext with (2 := L). intros a Ha. apply fupd_neq. intros ->. auto. Qed.
Lemma links_inv : forall nx o l, links nx o l -> match l with [] => o = None | a :: l => o = Some a /\ links nx (nx a) l end.
Proof. intros nx o l [|]; auto. Qed.
Lemma last_in : forall (l : list nat) d, l <> [] -> In (last l d) l.
Proof. induction l as [|a [|b l] IH]; intros d N; [tauto|left; auto|]. right. apply IH. discriminate. Qed.
(** Appending at the rear: the last element gets a successor. *)
Lemma links_snoc : forall nx i l o, links nx o l -> l <> [] -> ~ In i l -> NoDup l ->
  links (fupd (fupd nx (last l 0) (Some i)) i None) o (l ++ [i]).
Proof.
  intros nx i l o L. induction L as [|a l L IH]; intros N NI ND; [tauto|].
  destruct l as [|b l].
  - simpl. constructor. rewrite fupd_neq by (intros ->; apply NI; left; auto). rewrite fupd_eq. constructor. rewrite fupd_eq. constructor.
  - change ((a :: b :: l) ++ [i]) with (a :: ((b :: l) ++ [i])).
    change (last (a :: b :: l) 0) with (last (b :: l) 0). constructor.
    inversion ND; subst.
    rewrite fupd_neq by (intros ->; apply NI; left; auto).
    rewrite fupd_neq by (intros Ea; apply H1; rewrite Ea; apply last_in; discriminate).
    apply IH; auto; [discriminate|]. intros I. apply NI. right. auto.
Qed.

(** * Counting *)
Definition cnt (P : nat -> bool) (n : nat) : nat := length (filter P (seq 0 n)).
Lemma cnt_S : forall P n, cnt P (S n) = cnt P n + (if P n then 1 else 0).
Proof. intros P n. unfold cnt. rewrite seq_S, filter_app, app_length. simpl. destruct (P n); auto. Qed.
Lemma cnt_le : forall P Q n, (forall v, v < n -> P v = true -> Q v = true) -> cnt P n <= cnt Q n.
Proof.
  intros P Q. induction n; intros H; auto. rewrite !cnt_S. pose proof (IHn ltac:(auto)). specialize (H n ltac:(lia)).
  destruct (P n); [rewrite H by auto|destruct (Q n)]; lia.
Qed.
Lemma cnt_lt : forall P Q n u, (forall v, v < n -> P v = true -> Q v = true) -> u < n -> P u = false -> Q u = true -> cnt P n < cnt Q n.
Proof.
  intros P Q. induction n; intros u H Hu Pu Qu; [lia|]. rewrite !cnt_S.
  assert (H' : forall v, v < n -> P v = true -> Q v = true) by auto.
  destruct (Nat.eq_dec u n) as [->|N].
  - rewrite Pu, Qu. pose proof (cnt_le P Q n H'). lia.
  - pose proof (IHn u H' ltac:(lia) Pu Qu). specialize (H n ltac:(lia)). destruct (P n); [rewrite H by auto|destruct (Q n)]; lia.
Qed.
Lemma cnt_max : forall P n, cnt P n <= n.
Proof. intros P. induction n; auto. rewrite cnt_S. destruct (P n); lia. Qed.
Lemma cnt_add1 : forall P Q n u, (forall v, v < n -> v <> u -> P v = true -> Q v = true) -> cnt P n <= S (cnt Q n).
Proof.
  intros P Q n u. induction n; intros H; auto. rewrite !cnt_S. pose proof (IHn ltac:(auto)).
  destruct (Nat.eq_dec n u) as [->|N].
  - assert (cnt P u <= cnt Q u) by (apply cnt_le; intros; apply H; auto; lia). destruct (P u), (Q u); lia.
  - specialize (H n ltac:(lia) N). destruct (P n); [rewrite H by auto|destruct (Q n)]; lia.
Qed.

(** * The queue of active nodes *)
Definition some {A} (o : option A) : bool := match o with Some _ => true | None => false end.
Definition active (q : actives) (v : nat) : bool := some (next q v).
(** The last element of a queue is its own successor. *)
Fixpoint qlinks (nx : nat -> option nat) (l : list nat) : Prop :=
  match l with
  | [] => True
  | a :: l' => match l' with [] => nx a = Some a | b :: _ => nx a = Some b /\ qlinks nx l' end
  end.
Definition last_opt (l : list nat) : option nat := match l with [] => None | _ => Some (last l 0) end.
(** The two queues, and the current node outside of them. *)
Definition queues (q : actives) (cur : option nat) (n : nat) (l0 l1 : list nat) : Prop :=
  NoDup (l0 ++ l1) /\ qlinks (next q) l0 /\ qlinks (next q) l1 /\
  qfirst0 q = hd_error l0 /\ qfirst1 q = hd_error l1 /\ qlast1 q = last_opt l1 /\
  (forall v, next q v <> None <-> In v (l0 ++ l1) \/ cur = Some v) /\
  (forall c, cur = Some c -> ~ In c (l0 ++ l1)) /\
  (forall v, next q v <> None -> v < n).
Definition qok (q : actives) (cur : option nat) (n : nat) : Prop := exists l0 l1, queues q cur n l0 l1.

Lemma qlinks_ext : forall nx nx' l, (forall a, In a l -> nx' a = nx a) -> qlinks nx l -> qlinks nx' l.
Proof.
  intros nx nx'. induction l as [|a l IH]; intros H Q; auto. destruct l as [|b l].
  - simpl in *. rewrite H; auto.
  - destruct Q as [Q1 Q2]. split; [rewrite H; [auto|left; auto]|]. apply IH; auto. intros; apply H; right; auto.
Qed.
Lemma qlinks_snoc : forall nx i l, qlinks nx l -> l <> [] -> ~ In i l -> NoDup l ->
  qlinks (fupd (fupd nx (last l 0) (Some i)) i (Some i)) (l ++ [i]).
Proof.
  intros nx i. induction l as [|a l IH]; intros Q N NI ND; [tauto|]. inversion ND; subst.
  destruct l as [|b l].
  - simpl. rewrite fupd_neq by (intros ->; apply NI; left; auto). rewrite !fupd_eq. auto.
  - destruct Q as [Q1 Q2]. change (last (a :: b :: l) 0) with (last (b :: l) 0).
    change ((a :: b :: l) ++ [i]) with (a :: b :: (l ++ [i])). split.
    + rewrite fupd_neq by (intros ->; apply NI; left; auto).
      rewrite fupd_neq by (intros Ea; apply H1; rewrite Ea; apply last_in; discriminate). auto.
    + apply IH; auto; [discriminate|]. intros I. apply NI. right. auto.
Qed.
Lemma hd_error_snoc : forall (l : list nat) i, l <> [] -> hd_error (l ++ [i]) = hd_error l.
Proof. intros [|] i N; [tauto|auto]. Qed.
Lemma last_opt_snoc : forall l i, last_opt (l ++ [i]) = Some i.
Proof. intros l i. unfold last_opt. destruct (l ++ [i]) eqn:E; [destruct l; discriminate|]. rewrite <- E, last_last. auto. Qed.
Lemma NoDup_snoc : forall (l : list nat) i, NoDup l -> ~ In i l -> NoDup (l ++ [i]).
Proof. intros l i N I. apply NoDup_Add with (a := i) (l := l); [|split; auto]. rewrite <- (app_nil_r l) at 1. apply Add_app. Qed.
Lemma NoDup_app_l : forall (a b : list nat), NoDup (a ++ b) -> NoDup a.
Proof. induction a; intros b N; constructor; inversion N; subst; [rewrite in_app_iff in *; tauto|eauto]. Qed.
Lemma NoDup_app_r : forall (a b : list nat), NoDup (a ++ b) -> NoDup b.
Proof. induction a; intros b N; auto. inversion N; auto. Qed.
Lemma NoDup_app_x : forall (a b : list nat) v, NoDup (a ++ b) -> In v a -> ~ In v b.
Proof.
  induction a; intros b v N I; [destruct I|]. destruct I as [->|I]; inversion N; subst; auto. intros J. apply H1. rewrite in_app_iff. auto.
Qed.

Lemma set_active_ok : forall q cur n i, qok q cur n -> i < n ->
  qok (set_active q i) cur n /\ forall v, active (set_active q i) v = active q v || Nat.eqb v i.
Proof.
  intros q cur n i (l0 & l1 & ND & Q0 & Q1 & F0 & F1 & L1 & A & C & B) Hi. unfold set_active.
  destruct (next q i) eqn:E.
  - split; [exists l0, l1; repeat split; auto; apply A|]. intros v. unfold active.
    destruct (Nat.eqb_spec v i) as [->|]; [rewrite E; auto|rewrite orb_false_r; auto].
  - assert (NI : ~ In i (l0 ++ l1)) by (intros I; apply (proj2 (A i)); auto).
    assert (NC : cur <> Some i) by (intros I; apply (proj2 (A i)); auto).
    assert (N0 : ~ In i l0) by (rewrite in_app_iff in NI; tauto). assert (N1 : ~ In i l1) by (rewrite in_app_iff in NI; tauto).
    rewrite L1. unfold last_opt. destruct l1 as [|b l1].
    + split.
      * exists l0, [i]. split; [apply NoDup_snoc; auto; rewrite app_nil_r in ND; auto|]. cbn [next qfirst0 qfirst1 qlast1].
        split; [apply qlinks_ext with (2 := Q0); intros a Ha; apply fupd_neq; intros ->; auto|].
        split; [simpl; apply fupd_eq|]. split; auto. split; auto. split; auto. rewrite app_nil_r in *.
        split; [|split].
        -- intros v. rewrite in_app_iff. fcase v i; [split; [intros _; left; right; left; auto|discriminate]|].
           rewrite A. simpl. intuition congruence.
        -- intros c Hc. rewrite in_app_iff. intros [I|[->|[]]]; [apply (C c); auto|auto].
        -- intros v. fcase v i; auto.
      * intros v. unfold active. cbn [next]. destruct (Nat.eqb_spec v i) as [->|N]; [rewrite fupd_eq, orb_true_r; auto|].
        rewrite fupd_neq by auto. rewrite orb_false_r. auto.
    + assert (LI : In (last (b :: l1) 0) (b :: l1)) by (apply last_in; discriminate).
      assert (LN : last (b :: l1) 0 <> i) by (intros X; rewrite X in LI; auto).
      assert (LA : next q (last (b :: l1) 0) <> None) by (apply A; left; rewrite in_app_iff; auto).
      remember (b :: l1) as l eqn:El. assert (Nl : l <> []) by (subst; discriminate).
      split.
      * exists l0, (l ++ [i]). unfold queues. rewrite app_assoc. cbn [next qfirst0 qfirst1 qlast1].
        split; [apply NoDup_snoc; auto|].
        split. { apply qlinks_ext with (2 := Q0). intros a Ha. rewrite fupd_neq by (intros ->; auto).
                 apply fupd_neq. intros ->. apply (NoDup_app_x _ _ _ ND Ha). auto. }
        split. { apply qlinks_snoc; auto. apply NoDup_app_r in ND. auto. }
        split; auto. split; [rewrite hd_error_snoc; auto|]. split; [rewrite last_opt_snoc; auto|].
        split; [|split].
        -- intros v. rewrite in_app_iff. fcase v i; [split; [intros _; left; right; left; auto|discriminate]|].
           destruct (Nat.eq_dec v (last l 0)) as [->|N]; [rewrite fupd_eq|rewrite fupd_neq by auto].
           ++ split; [intros _; left; left; rewrite in_app_iff; auto|discriminate].
           ++ rewrite A. simpl. intuition congruence.
        -- intros c Hc. rewrite in_app_iff. intros [I|[->|[]]]; [apply (C c); auto|auto].
        -- intros v. fcase v i; auto. destruct (Nat.eq_dec v (last l 0)) as [->|N]; [intros _; apply B; auto|].
           rewrite fupd_neq by auto. apply B.
      * intros v. unfold active. cbn [next]. destruct (Nat.eqb_spec v i) as [->|N]; [rewrite fupd_eq, orb_true_r; auto|].
        rewrite fupd_neq by auto. rewrite orb_false_r.
        destruct (Nat.eq_dec v (last l 0)) as [->|N']; [rewrite fupd_eq; destruct (next q (last l 0)); auto; tauto|rewrite fupd_neq by auto; auto].
Qed.

Lemma nodup_lt_length : forall (l : list nat) n, NoDup l -> (forall v, In v l -> (v < n)%nat) -> (length l <= n)%nat.
Proof.
  intros l n N H. rewrite <- (seq_length n 0). apply NoDup_incl_length; auto. intros v Hv. apply in_seq. specialize (H v Hv). lia.
Qed.

Lemma drop_cur : forall q n i, qok q (Some i) n ->
  qok (Actives (fupd (next q) i None) (qfirst0 q) (qlast0 q) (qfirst1 q) (qlast1 q)) None n.
Proof.
  intros q n i (l0 & l1 & ND & Q0 & Q1 & F0 & F1 & L1 & A & C & B).
  assert (NI := C i eq_refl). rewrite in_app_iff in NI. exists l0, l1.
  split; auto. cbn [next qfirst0 qfirst1 qlast1].
  split; [apply qlinks_ext with (2 := Q0); intros a Ha; apply fupd_neq; intros ->; tauto|].
  split; [apply qlinks_ext with (2 := Q1); intros a Ha; apply fupd_neq; intros ->; tauto|].
  do 3 (split; auto). split; [|split; [discriminate|]].
  - intros v. rewrite in_app_iff. fcase v i; [intuition discriminate|]. rewrite A, in_app_iff. intuition congruence.
  - intros v. fcase v i; [congruence|apply B].
Qed.
Lemma add_cur : forall q n i, qok q None n -> next q i = None -> (i < n)%nat ->
  qok (Actives (fupd (next q) i (Some i)) (qfirst0 q) (qlast0 q) (qfirst1 q) (qlast1 q)) (Some i) n.
Proof.
  intros q n i (l0 & l1 & ND & Q0 & Q1 & F0 & F1 & L1 & A & C & B) E Hi.
  assert (NI : ~ In i (l0 ++ l1)) by (intros I; apply (proj2 (A i)); auto). exists l0, l1.
  split; auto. cbn [next qfirst0 qfirst1 qlast1].
  split; [apply qlinks_ext with (2 := Q0); intros a Ha; apply fupd_neq; intros ->; apply NI; apply in_app_iff; auto|].
  split; [apply qlinks_ext with (2 := Q1); intros a Ha; apply fupd_neq; intros ->; apply NI; apply in_app_iff; auto|].
  do 3 (split; auto). split; [|split].
  - intros v. fcase v i; [intuition discriminate|]. rewrite A. intuition congruence.
  - intros c Hc. injection Hc as <-. auto.
  - intros v. fcase v i; [auto|apply B].
Qed.

(** Taking the first node of the first queue. *)
Lemma pop_ok : forall q n i l0 l1, queues q None n (i :: l0) l1 ->
  queues (if match next q i with Some j => Nat.eqb j i | None => false end
          then Actives (fupd (next q) i None) None None (qfirst1 q) (qlast1 q)
          else Actives (fupd (next q) i None) (next q i) (qlast0 q) (qfirst1 q) (qlast1 q)) None n l0 l1.
Proof.
  intros q n i l0 l1 (ND & Q0 & Q1 & F0 & F1 & L1 & A & C & B).
  assert (ND' := ND). inversion ND' as [|? ? NI ND2]; subst. rewrite in_app_iff in NI.
  assert (E : (if match next q i with Some j => Nat.eqb j i | None => false end
          then Actives (fupd (next q) i None) None None (qfirst1 q) (qlast1 q)
          else Actives (fupd (next q) i None) (next q i) (qlast0 q) (qfirst1 q) (qlast1 q)) =
         Actives (fupd (next q) i None) (hd_error l0) (if match next q i with Some j => Nat.eqb j i | None => false end then None else qlast0 q) (qfirst1 q) (qlast1 q)).
  { destruct l0 as [|b l0]; simpl in Q0.
    - rewrite Q0, Nat.eqb_refl. auto.
    - destruct Q0 as [Q0 _]. rewrite Q0. destruct (Nat.eqb_spec b i) as [->|]; auto. destruct NI. left. left. auto. }
  rewrite E. split; auto. cbn [next qfirst0 qfirst1 qlast1].
  split. { apply qlinks_ext with (nx := next q); [intros a Ha; apply fupd_neq; intros ->; tauto|]. destruct l0; [exact I|apply Q0]. }
  split; [apply qlinks_ext with (2 := Q1); intros a Ha; apply fupd_neq; intros ->; tauto|].
  do 3 (split; auto). split; [|split; [discriminate|]].
  - intros v. rewrite in_app_iff. fcase v i; [intuition discriminate|]. rewrite A. simpl. rewrite in_app_iff. intuition congruence.
  - intros v. fcase v i; [congruence|apply B].
Qed.

Lemma next_active_go : forall fuel p q n l0 l1, queues q None n l0 l1 -> (length (l0 ++ l1) < fuel)%nat ->
  exists q' o, next_active fuel p q = Some (q', o) /\ qok q' None n /\
  (forall v, active q' v = true -> active q v = true) /\
  (forall v, active q v = true -> active q' v = true \/ is_none (p v) = true \/ o = Some v) /\
  match o with
  | None => forall v, active q' v = false
  | Some i => (i < n)%nat /\ is_none (p i) = false /\ active q i = true /\ active q' i = false
  end.
Proof.
  induction fuel; intros p q n l0 l1 Q LF; [lia|].
  assert (HQ : exists l0' l1', length (l0' ++ l1') = length (l0 ++ l1) /\
     queues (match qfirst0 q with Some _ => q | None => Actives (next q) (qfirst1 q) (qlast1 q) None None end) None n l0' l1' /\
     (l0' = [] -> l1' = [])).
  { destruct Q as (ND & Q0 & Q1 & F0 & F1 & L1 & A & C & B). destruct l0 as [|b l0]; rewrite F0; simpl.
    - exists l1, []. rewrite app_nil_r. split; auto. split; auto. split; [rewrite app_nil_r; auto|]. cbn [next qfirst0 qfirst1 qlast1].
      rewrite F1. do 5 (split; [solve [auto | exact I]|]). split; [|split; [discriminate|auto]].
      intros v. rewrite A, app_nil_r. tauto.
    - exists (b :: l0), l1. split; auto. split; [|discriminate]. do 9 (split; auto). }
  destruct HQ as (l0' & l1' & EL & Q' & NE). cbn [next_active].
  set (q1 := match qfirst0 q with Some _ => q | None => _ end) in *.
  assert (Ea : forall v, active q1 v = active q v) by (intros v; unfold q1, active; destruct (qfirst0 q); auto).
  assert (F0 : qfirst0 q1 = hd_error l0') by apply Q'.
  rewrite F0. destruct l0' as [|i l0']; cbn [hd_error].
  - rewrite NE in Q' by auto. exists q1, None. split; auto. split; [exists [], []; auto|].
    split; [intros v; rewrite Ea; auto|]. split; [intros v; rewrite Ea; auto|].
    intros v. unfold active. destruct Q' as (_ & _ & _ & _ & _ & _ & A & _). destruct (next q1 v) eqn:E; auto.
    exfalso. assert (X : next q1 v <> None) by congruence. apply A in X. destruct X as [[]|X]; discriminate.
  - pose proof (pop_ok _ _ _ _ _ Q') as P.
    set (q2 := if match next q1 i with Some j => Nat.eqb j i | None => false end then Actives (fupd (next q1) i None) None None (qfirst1 q1) (qlast1 q1) else Actives (fupd (next q1) i None) (next q1 i) (qlast0 q1) (qfirst1 q1) (qlast1 q1)) in *.
    assert (N2 : next q2 = fupd (next q1) i None) by (unfold q2; destruct (match next q1 i with Some j => Nat.eqb j i | None => false end); auto).
    assert (Ai : active q1 i = true).
    { unfold active. destruct Q' as (_ & _ & _ & _ & _ & _ & A & _). destruct (next q1 i) eqn:E; auto.
      exfalso. apply (proj2 (A i)); auto. left. left. auto. }
    assert (Hi : (i < n)%nat). { destruct Q' as (_ & _ & _ & _ & _ & _ & A & _ & B). apply B. apply A. left. left. auto. }
    assert (A2 : forall v, active q2 v = active q v && negb (Nat.eqb v i)).
    { intros v. rewrite <- Ea. unfold active. rewrite N2. fcase v i; [rewrite Nat.eqb_refl, andb_false_r; auto|].
      rewrite (proj2 (Nat.eqb_neq v i)) by auto. rewrite andb_true_r. auto. }
    destruct (is_none (p i)) eqn:Pi.
    + destruct (IHfuel p q2 n l0' l1' P ltac:(simpl in EL; lia)) as (q' & o & E & K & M1 & M2 & M3).
      exists q', o. split; auto. split; auto. split; [intros v Hv; apply M1 in Hv; rewrite A2 in Hv; apply andb_prop in Hv; tauto|].
      split.
      * intros v Hv. destruct (Nat.eq_dec v i) as [->|N]; auto. apply M2. rewrite A2, Hv, (proj2 (Nat.eqb_neq v i)) by auto. auto.
      * destruct o; auto. destruct M3 as (? & ? & X & ?). rewrite A2 in X. apply andb_prop in X. intuition.
    + exists q2, (Some i). split; auto. split; [exists l0', l1'; auto|]. split; [intros v Hv; rewrite A2 in Hv; apply andb_prop in Hv; tauto|].
      split; [intros v Hv; destruct (Nat.eq_dec v i) as [->|N]; auto; left; rewrite A2, Hv, (proj2 (Nat.eqb_neq v i)) by auto; auto|].
      rewrite Ea in Ai. rewrite A2, Nat.eqb_refl, andb_false_r. auto.
Qed.
Lemma next_active_ok : forall p q n, qok q None n ->
  exists q' o, next_active (S n) p q = Some (q', o) /\ qok q' None n /\
  (forall v, active q' v = true -> active q v = true) /\
  (forall v, active q v = true -> active q' v = true \/ is_none (p v) = true \/ o = Some v) /\
  match o with
  | None => forall v, active q' v = false
  | Some i => (i < n)%nat /\ is_none (p i) = false /\ active q i = true /\ active q' i = false
  end.
Proof.
  intros p q n (l0 & l1 & Q). apply (next_active_go (S n) p q n l0 l1 Q).
  destruct Q as (ND & _ & _ & _ & _ & _ & A & _ & B).
  apply Nat.lt_succ_r, nodup_lt_length; auto. intros v Hv. apply B, A. auto.
Qed.
