(** C40: flipping an edge keeps the triangulation well formed. *)
From Coq Require Import List Arith Bool Lia.
From Verif Require Import Lib Flip.
Import ListNotations.

(** * Specification *)
Definition inside (m : list triangle) (h : hedge) : Prop := fst h < length m /\ snd h < 3.
(** Every triangle has its six numbers, and every side has a neighbour that
    points back and has the same ends, reversed. *)
Record wf (m : list triangle) : Prop := {
  wf_data : forall t i, t < length m -> i < 6 -> get_data m t i <> None;
  wf_nei : forall h, inside m h -> exists g, sym m h = Some g /\ inside m g /\ sym m g = Some h /\ org m g = dest m h /\ dest m g = org m h }.
(** The two triangles at the edge are different and share nothing but it. *)
Definition proper_edge (m : list triangle) (e top : hedge) : Prop :=
  inside m e /\ sym m e = Some top /\ fst top <> fst e /\
  forall h c, inside m h -> fst h = fst e \/ fst h = fst top -> h <> e -> h <> top -> sym m h = Some c -> fst c <> fst e /\ fst c <> fst top.

(** * Writing *)
Lemma he_eqb_spec a b : reflect (a = b) (he_eqb a b).
Proof.
  destruct a as (a1 & a2), b as (b1 & b2). unfold he_eqb. cbn.
  destruct (Nat.eqb_spec a1 b1), (Nat.eqb_spec a2 b2); cbn; constructor; congruence.
Qed.
Lemma put_data_ok m t i v : get_data m t i <> None -> exists m', put_data m t i v = Some m' /\ length m' = length m /\
  (forall t' i', get_data m' t' i' = if he_eqb (t', i') (t, i) then Some v else get_data m t' i') /\ (forall h, sym m' h = sym m h).
Proof.
  unfold get_data, put_data. destruct (nth_error m t) as [tr|] eqn:E; [|easy]. intros H. apply nth_error_Some in H.
  unfold set. destruct (Nat.ltb_spec i (length (data tr))); [|lia]. pose proof (nth_error_lt _ _ _ E) as L. destruct (Nat.ltb_spec t (length m)); [|lia].
  eexists. split; [reflexivity|]. split; [apply upd_length|]. split.
  - intros t' i'. rewrite nth_error_upd. destruct (Nat.ltb_spec t (length m)); [|lia]. rewrite andb_true_r. unfold he_eqb. cbn [fst snd]. rewrite (Nat.eqb_sym t' t).
    destruct (Nat.eqb_spec t t') as [<-|]; cbn; [|reflexivity]. rewrite nth_error_upd, (Nat.eqb_sym i' i). destruct (Nat.ltb_spec i (length (data tr))); [|lia].
    rewrite andb_true_r, E. reflexivity.
  - intros (t' & i'). unfold sym. cbn [fst snd]. rewrite nth_error_upd. destruct (Nat.ltb_spec t (length m)); [|lia]. rewrite andb_true_r.
    destruct (Nat.eqb_spec t t') as [<-|]; [|reflexivity]. now rewrite E.
Qed.
Lemma put_nei_ok m h g : sym m h <> None -> exists m', put_nei m h g = Some m' /\ length m' = length m /\
  (forall t' i', get_data m' t' i' = get_data m t' i') /\ (forall h', sym m' h' = if he_eqb h' h then Some g else sym m h').
Proof.
  destruct h as (t & i). unfold sym, put_nei. cbn [fst snd]. destruct (nth_error m t) as [tr|] eqn:E; [|easy]. intros H. apply nth_error_Some in H.
  unfold set. destruct (Nat.ltb_spec i (length (nei tr))); [|lia]. pose proof (nth_error_lt _ _ _ E) as L. destruct (Nat.ltb_spec t (length m)); [|lia].
  eexists. split; [reflexivity|]. split; [apply upd_length|]. split.
  - intros t' i'. unfold get_data. rewrite nth_error_upd. destruct (Nat.ltb_spec t (length m)); [|lia]. rewrite andb_true_r.
    destruct (Nat.eqb_spec t t') as [<-|]; [|reflexivity]. now rewrite E.
  - intros (t' & i'). cbn [fst snd]. rewrite nth_error_upd. destruct (Nat.ltb_spec t (length m)); [|lia]. rewrite andb_true_r. unfold he_eqb. cbn [fst snd]. rewrite (Nat.eqb_sym t' t).
    destruct (Nat.eqb_spec t t') as [<-|]; cbn; [|reflexivity]. rewrite nth_error_upd, (Nat.eqb_sym i' i). destruct (Nat.ltb_spec i (length (nei tr))); [|lia].
    rewrite andb_true_r, E. reflexivity.
Qed.
Lemma bond_ok m h g : sym m h <> None -> sym m g <> None -> exists m', bond m h g = Some m' /\ length m' = length m /\
  (forall t' i', get_data m' t' i' = get_data m t' i') /\ (forall h', sym m' h' = if he_eqb h' g then Some h else if he_eqb h' h then Some g else sym m h').
Proof.
  intros H G. unfold bond. destruct (put_nei_ok m h g H) as (m1 & -> & L1 & D1 & S1).
  destruct (put_nei_ok m1 g h) as (m2 & E2 & L2 & D2 & S2). { rewrite S1. now destruct he_eqb. }
  exists m2. split; [exact E2|]. split; [congruence|]. split; intros; [now rewrite D2, D1|now rewrite S2, S1].
Qed.
Lemma redirect_ok vm v a b new : v < length vm -> exists vm', redirect vm v a b new = Some vm' /\ length vm' = length vm /\
  forall w g, nth_error vm w = Some g -> nth_error vm' w = Some (if (w =? v) && (he_eqb g a || he_eqb g b) then new else g).
Proof.
  intros L. unfold redirect. destruct (nth_error_ex _ _ L) as (g & E). rewrite E. destruct (he_eqb g a || he_eqb g b) eqn:Q.
  - exists (upd vm v new). split; [apply set_Some; auto|]. split; [apply upd_length|]. intros w g' W. rewrite nth_error_upd.
    destruct (Nat.ltb_spec v (length vm)); [|lia]. rewrite andb_true_r, (Nat.eqb_sym v w). destruct (Nat.eqb_spec w v) as [->|]; cbn; [|auto]. now replace g' with g by congruence; rewrite Q.
  - exists vm. split; [reflexivity|]. split; [reflexivity|]. intros w g' W. rewrite W. destruct (Nat.eqb_spec w v) as [->|]; cbn; [|reflexivity]. now replace g' with g by congruence; rewrite Q.
Qed.
Lemma three i : i < 3 -> i = 0 \/ i = 1 \/ i = 2. Proof. lia. Qed.
Lemma sides h g : snd h < 3 -> snd g < 3 -> fst g = fst h -> g = h \/ g = next h \/ g = prev h.
Proof.
  destruct h as (t & o), g as (t' & i). cbn [fst snd]. intros A B ->. unfold next, prev. cbn [fst snd].
  destruct (three _ A) as [->|[->| ->]], (three _ B) as [->|[->| ->]]; cbn; auto.
Qed.
Lemma sides_neq h : snd h < 3 -> next h <> h /\ prev h <> h /\ next h <> prev h /\ snd (next h) < 3 /\ snd (prev h) < 3.
Proof.
  destruct h as (t & o). cbn [fst snd]. intros A. unfold next, prev. cbn [fst snd].
  destruct (three _ A) as [->|[->| ->]]; cbn; repeat split; try congruence; lia.
Qed.

Section Flip.
Variables (m : list triangle) (e top : hedge) (vm : list hedge).
Variables (rv lv bv fv : nat).
Hypotheses (W : wf m) (P : proper_edge m e top).
Hypotheses (Hr : org m e = Some rv) (Hl : dest m e = Some lv) (Hb : apex m e = Some bv) (Hf : apex m top = Some fv).
Hypotheses (Lr : rv < length vm) (Ll : lv < length vm) (Lb : bv < length vm) (Lf : fv < length vm).

(** Flipping turns the edge [rv -> lv] of the triangle with apex [bv] into
    [fv -> bv]; every other triangle keeps its corners and marks; the four
    outer sides keep their neighbours and marks, one place on; the result is
    well formed; entries of the vertex map still start at their vertex. *)
Theorem C40_flip : exists m' vm', flip m e vm = Some (m', vm') /\ wf m' /\ length m' = length m /\ length vm' = length vm /\
  (forall t i, t <> fst e -> t <> fst top -> get_data m' t i = get_data m t i) /\
  (org m' e = Some fv /\ dest m' e = Some bv /\ apex m' e = Some rv) /\
  (org m' top = Some bv /\ dest m' top = Some fv /\ apex m' top = Some lv) /\
  (sym m' e = Some top /\ mark m' e = mark m e /\ mark m' top = mark m top) /\
  (sym m' (prev top) = sym m (next e) /\ mark m' (prev top) = mark m (next e)) /\
  (sym m' (next e) = sym m (prev e) /\ mark m' (next e) = mark m (prev e)) /\
  (sym m' (prev e) = sym m (next top) /\ mark m' (prev e) = mark m (next top)) /\
  (sym m' (next top) = sym m (prev top) /\ mark m' (next top) = mark m (prev top)) /\
  (forall h c, inside m h -> sym m h = Some c -> fst h <> fst e -> fst h <> fst top -> fst c <> fst e -> fst c <> fst top -> sym m' h = Some c) /\
  (forall v g, nth_error vm v = Some g -> snd g < 3 -> org m g = Some v -> exists g', nth_error vm' v = Some g' /\ org m' g' = Some v).
Proof.
  destruct P as ((E1 & E2) & St & Nt & Cas).
  destruct (wf_nei m W e (conj E1 E2)) as (g & Sg & (T1 & T2) & Sb & Ot & Dt). assert (g = top) by congruence. subst g. clear Sg.
  rewrite Hl in Ot. rewrite Hr in Dt.
  destruct (sides_neq e E2) as (Ne1 & Ne2 & Ne3 & Ne4 & Ne5). destruct (sides_neq top T2) as (Nt1 & Nt2 & Nt3 & Nt4 & Nt5).
  assert (Ie : forall h, In h [next e; prev e; next top; prev top] -> inside m h /\ (fst h = fst e \/ fst h = fst top) /\ h <> e /\ h <> top).
  { intros h [<-|[<-|[<-|[<-|[]]]]]; (split; [split; auto|]); (split; [cbn; auto|]); split; auto; intros Q; apply (f_equal fst) in Q; cbn in Q; congruence. }
  assert (Cs : forall h, In h [next e; prev e; next top; prev top] -> exists c, sym m h = Some c /\ inside m c /\ sym m c = Some h /\ fst c <> fst e /\ fst c <> fst top /\ org m c = dest m h /\ dest m c = org m h).
  { intros h Hh. destruct (Ie h Hh) as (A & B & C & D). destruct (wf_nei m W h A) as (c & X1 & X2 & X3 & X4 & X5). exists c. destruct (Cas h c A B C D X1). auto 10. }
  destruct (Cs (next e)) as (blc & BL1 & BL2 & BL3 & BL4 & BL5 & BL6 & BL7); [cbn; auto|].
  destruct (Cs (prev e)) as (brc & BR1 & BR2 & BR3 & BR4 & BR5 & BR6 & BR7); [cbn; auto|].
  destruct (Cs (next top)) as (trc & TR1 & TR2 & TR3 & TR4 & TR5 & TR6 & TR7); [cbn; auto|].
  destruct (Cs (prev top)) as (tlc & TL1 & TL2 & TL3 & TL4 & TL5 & TL6 & TL7); [cbn; auto|].
  clear Cs Ie.
  assert (Net : forall x y : hedge, fst x = fst e -> fst y = fst top -> x <> y) by (intros x y X Y ->; congruence).
  (* run the code *)
  unfold flip. rewrite Hr, Hl, Hb, St, Hf, TL1, TR1, BL1, BR1.
  destruct (bond_ok m (prev top) blc) as (m1 & -> & L1 & D1 & S1); [congruence|congruence|].
  destruct (bond_ok m1 (next e) brc) as (m2 & -> & L2 & D2 & S2); [rewrite S1; repeat (match goal with |- context [he_eqb ?a ?b] => destruct (he_eqb a b) end); congruence|rewrite S1; repeat (match goal with |- context [he_eqb ?a ?b] => destruct (he_eqb a b) end); congruence|].
  destruct (bond_ok m2 (prev e) trc) as (m3 & -> & L3 & D3 & S3); [rewrite S2, S1; repeat (match goal with |- context [he_eqb ?a ?b] => destruct (he_eqb a b) end); congruence|rewrite S2, S1; repeat (match goal with |- context [he_eqb ?a ?b] => destruct (he_eqb a b) end); congruence|].
  destruct (bond_ok m3 (next top) tlc) as (m4 & -> & L4 & D4 & S4); [rewrite S3, S2, S1; repeat (match goal with |- context [he_eqb ?a ?b] => destruct (he_eqb a b) end); congruence|rewrite S3, S2, S1; repeat (match goal with |- context [he_eqb ?a ?b] => destruct (he_eqb a b) end); congruence|].
  assert (D : forall t i, get_data m4 t i = get_data m t i) by (intros; now rewrite D4, D3, D2, D1).
  assert (S : forall h, sym m4 h = if he_eqb h tlc then Some (next top) else if he_eqb h (next top) then Some tlc else if he_eqb h trc then Some (prev e) else if he_eqb h (prev e) then Some trc else
    if he_eqb h brc then Some (next e) else if he_eqb h (next e) then Some brc else if he_eqb h blc then Some (prev top) else if he_eqb h (prev top) then Some blc else sym m h).
  { intros h. now rewrite S4, S3, S2, S1. }
  assert (Ln : length m4 = length m) by congruence. clear S1 S2 S3 S4 D1 D2 D3 D4 L1 L2 L3 L4 m1 m2 m3.
  assert (Dn : forall t i, t < length m -> i < 6 -> get_data m4 t i <> None) by (intros; rewrite D; now apply W).
  assert (Mk : forall h, snd h < 3 -> fst h < length m -> exists k, mark m4 h = Some k /\ mark m h = Some k).
  { intros h A B. unfold mark. rewrite D. destruct (get_data m (fst h) (snd h + 3)) eqn:Q; [eauto|]. now apply W in Q; [|auto|lia]. }
  destruct (Mk (prev top)) as (tlm & -> & TLm); [auto|auto|]. destruct (Mk (next top)) as (trm & -> & TRm); [auto|auto|].
  destruct (Mk (next e)) as (blm & -> & BLm); [auto|auto|]. destruct (Mk (prev e)) as (brm & -> & BRm); [auto|auto|]. clear Mk.
  destruct (redirect_ok vm rv e (next top) (prev e) Lr) as (v1 & -> & V1 & R1).
  destruct (redirect_ok v1 lv top (next e) (prev top)) as (v2 & -> & V2 & R2); [lia|].
  destruct (redirect_ok v2 bv (prev e) (prev e) (next e)) as (v3 & -> & V3 & R3); [lia|].
  destruct (redirect_ok v3 fv (prev top) (prev top) (next top)) as (v4 & -> & V4 & R4); [lia|].
  unfold set_mark, set_org, set_dest, set_apex.
  assert (Me : forall i, i mod 3 < 6) by (intros i; pose proof (Nat.mod_upper_bound i 3); lia).
  assert (Ms : forall i, i mod 3 + 3 < 6) by (intros i; pose proof (Nat.mod_upper_bound i 3); lia).
  Ltac nn := match goal with |- get_data _ _ _ <> None => repeat match goal with Hd : forall t' i', get_data ?x t' i' = (if _ then _ else _) |- get_data ?x _ _ <> None => rewrite Hd; match goal with |- context [he_eqb ?a ?b] => destruct (he_eqb a b) end; [discriminate|] end end.
  assert (Dn' : forall i, i < 6 -> get_data m4 (fst top) i <> None) by (intros; now apply Dn).
  assert (Dn'' : forall i, i < 6 -> get_data m4 (fst e) i <> None) by (intros; now apply Dn).
  Ltac step a b c d := match goal with |- context [put_data ?x ?t ?i ?v] => destruct (put_data_ok x t i v) as (a & -> & b & c & d);
    [nn; cbn [fst snd next prev]; match goal with H : forall i, i < 6 -> get_data _ ?t i <> None |- get_data _ ?t _ <> None => apply H end;
     match goal with H : forall i, i mod 3 < 6, H' : forall i, i mod 3 + 3 < 6 |- _ => first [apply H|apply H'|lia] end|] end.
  step n1 K1 X1 Y1. step n2 K2 X2 Y2. step n3 K3 X3 Y3. step n4 K4 X4 Y4. step n5 K5 X5 Y5.
  step n6 K6 X6 Y6. step n7 K7 X7 Y7. step n8 K8 X8 Y8. step n9 K9 X9 Y9. step n10 K10 X10 Y10.
  exists n10, v4. split; [reflexivity|].
  assert (S' : forall h, sym n10 h = sym m4 h) by (intros; now rewrite Y10, Y9, Y8, Y7, Y6, Y5, Y4, Y3, Y2, Y1).
  assert (Ln' : length n10 = length m) by congruence. clear Y1 Y2 Y3 Y4 Y5 Y6 Y7 Y8 Y9 Y10 K1 K2 K3 K4 K5 K6 K7 K8 K9 K10.
  assert (Oth : forall t i, t <> fst e -> t <> fst top -> get_data n10 t i = get_data m t i).
  { intros t i A B. rewrite X10, X9, X8, X7, X6, X5, X4, X3, X2, X1, D. cbn [next prev fst snd].
    repeat match goal with |- context [he_eqb ?a ?b] => destruct (he_eqb_spec a b) as [Q|_]; [injection Q; intros; congruence|] end. reflexivity. }
  assert (Te : (fst e =? fst top) = false) by (apply Nat.eqb_neq; congruence). assert (Tt : (fst top =? fst e) = false) by (apply Nat.eqb_neq; congruence).
  assert (Quad : (org n10 e = Some fv /\ dest n10 e = Some bv /\ apex n10 e = Some rv) /\ (org n10 top = Some bv /\ dest n10 top = Some fv /\ apex n10 top = Some lv) /\
    (mark n10 e = mark m e /\ mark n10 top = mark m top) /\ mark n10 (next e) = Some brm /\ mark n10 (prev e) = Some trm /\ mark n10 (next top) = Some tlm /\ mark n10 (prev top) = Some blm).
  { unfold org, dest, apex, mark, next, prev. repeat split; rewrite X10, X9, X8, X7, X6, X5, X4, X3, X2, X1, ?D; unfold he_eqb; cbn [next prev fst snd]; rewrite ?Nat.eqb_refl, ?Te, ?Tt;
    destruct (three _ E2) as [->|[->| ->]], (three _ T2) as [->|[->| ->]]; reflexivity. }
  clear X1 X2 X3 X4 X5 X6 X7 X8 X9 X10 D.
  destruct Quad as ((Q1 & Q2 & Q3) & (Q4 & Q5 & Q6) & (Q7 & Q8) & Q9 & Q10 & Q11 & Q12).
  assert (Rot : forall x h, snd h < 3 -> org x (next h) = dest x h /\ dest x (next h) = apex x h /\ org x (prev h) = apex x h /\ dest x (prev h) = org x h).
  { intros x (t & o) A. unfold org, dest, apex, next, prev. cbn [fst snd] in *. destruct (three _ A) as [->|[->| ->]]; cbn; auto. }
  (* the new neighbour relation *)
  assert (Cne : forall c h : hedge, fst c <> fst e -> fst c <> fst top -> fst h = fst e \/ fst h = fst top -> c <> h) by (intros c h A B [C|C] ->; congruence).
  assert (Dbb : blc <> brc) by congruence. assert (Dbt : blc <> trc) by (intros ->; apply (Net (next e) (next top)); [reflexivity|reflexivity|congruence]). assert (Dbl : blc <> tlc) by (intros ->; apply (Net (next e) (prev top)); [reflexivity|reflexivity|congruence]).
  assert (Drt : brc <> trc) by (intros ->; apply (Net (prev e) (next top)); [reflexivity|reflexivity|congruence]). assert (Drl : brc <> tlc) by (intros ->; apply (Net (prev e) (prev top)); [reflexivity|reflexivity|congruence]). assert (Dtl : trc <> tlc) by congruence.
  assert (C10 : forall c, In c [blc; brc; trc; tlc] -> fst c <> fst e /\ fst c <> fst top) by (intros c [<-|[<-|[<-|[<-|[]]]]]; auto).
  assert (Ntl : sym n10 (prev top) = Some blc).
  { rewrite S', S. destruct (he_eqb_spec (prev top) tlc) as [Q|]; [exfalso; apply TL5; now rewrite <- Q|]. destruct (he_eqb_spec (prev top) (next top)); [congruence|].
    destruct (he_eqb_spec (prev top) trc) as [Q|]; [exfalso; apply TR5; now rewrite <- Q|]. destruct (he_eqb_spec (prev top) (prev e)) as [Q|]; [exfalso; now apply (Net (prev e) (prev top))|].
    destruct (he_eqb_spec (prev top) brc) as [Q|]; [exfalso; apply BR5; now rewrite <- Q|]. destruct (he_eqb_spec (prev top) (next e)) as [Q|]; [exfalso; now apply (Net (next e) (prev top))|].
    destruct (he_eqb_spec (prev top) blc) as [Q|]; [exfalso; apply BL5; now rewrite <- Q|]. destruct (he_eqb_spec (prev top) (prev top)); congruence. }
  assert (Nblc : sym n10 blc = Some (prev top)).
  { rewrite S', S. destruct (he_eqb_spec blc tlc); [congruence|]. destruct (he_eqb_spec blc (next top)) as [Q|]; [exfalso; apply BL5; now rewrite Q|]. destruct (he_eqb_spec blc trc); [congruence|].
    destruct (he_eqb_spec blc (prev e)) as [Q|]; [exfalso; apply BL4; now rewrite Q|]. destruct (he_eqb_spec blc brc); [congruence|]. destruct (he_eqb_spec blc (next e)) as [Q|]; [exfalso; apply BL4; now rewrite Q|].
    destruct (he_eqb_spec blc blc); congruence. }
  assert (Nbl : sym n10 (next e) = Some brc).
  { rewrite S', S. destruct (he_eqb_spec (next e) tlc) as [Q|]; [exfalso; apply TL4; now rewrite <- Q|]. destruct (he_eqb_spec (next e) (next top)) as [Q|]; [exfalso; now apply (Net (next e) (next top))|].
    destruct (he_eqb_spec (next e) trc) as [Q|]; [exfalso; apply TR4; now rewrite <- Q|]. destruct (he_eqb_spec (next e) (prev e)) as [Q|]; [congruence|].
    destruct (he_eqb_spec (next e) brc) as [Q|]; [exfalso; apply BR4; now rewrite <- Q|]. destruct (he_eqb_spec (next e) (next e)); congruence. }
  assert (Nbrc : sym n10 brc = Some (next e)).
  { rewrite S', S. destruct (he_eqb_spec brc tlc); [congruence|]. destruct (he_eqb_spec brc (next top)) as [Q|]; [exfalso; apply BR5; now rewrite Q|]. destruct (he_eqb_spec brc trc); [congruence|].
    destruct (he_eqb_spec brc (prev e)) as [Q|]; [exfalso; apply BR4; now rewrite Q|]. destruct (he_eqb_spec brc brc); congruence. }
  assert (Nbr : sym n10 (prev e) = Some trc).
  { rewrite S', S. destruct (he_eqb_spec (prev e) tlc) as [Q|]; [exfalso; apply TL4; now rewrite <- Q|]. destruct (he_eqb_spec (prev e) (next top)) as [Q|]; [exfalso; now apply (Net (prev e) (next top))|].
    destruct (he_eqb_spec (prev e) trc) as [Q|]; [exfalso; apply TR4; now rewrite <- Q|]. destruct (he_eqb_spec (prev e) (prev e)); congruence. }
  assert (Ntrc : sym n10 trc = Some (prev e)).
  { rewrite S', S. destruct (he_eqb_spec trc tlc); [congruence|]. destruct (he_eqb_spec trc (next top)) as [Q|]; [exfalso; apply TR5; now rewrite Q|]. destruct (he_eqb_spec trc trc); congruence. }
  assert (Ntr : sym n10 (next top) = Some tlc).
  { rewrite S', S. destruct (he_eqb_spec (next top) tlc) as [Q|]; [exfalso; apply TL5; now rewrite <- Q|]. destruct (he_eqb_spec (next top) (next top)); congruence. }
  assert (Ntlc : sym n10 tlc = Some (next top)). { rewrite S', S. destruct (he_eqb_spec tlc tlc); congruence. }
  assert (Same : forall h, ~ In h [prev top; next top; prev e; next e; blc; brc; trc; tlc] -> sym n10 h = sym m h).
  { intros h Q. rewrite S', S. cbn in Q. repeat match goal with |- context [he_eqb ?a ?b] => destruct (he_eqb_spec a b) as [->|_]; [exfalso; apply Q; tauto|] end. reflexivity. }
  assert (Ne : sym n10 e = Some top).
  { rewrite Same; [auto|]. intros [Q|[Q|[Q|[Q|[Q|[Q|[Q|[Q|[]]]]]]]]]; congruence. }
  assert (Ntop : sym n10 top = Some e).
  { rewrite Same; [auto|]. intros [Q|[Q|[Q|[Q|[Q|[Q|[Q|[Q|[]]]]]]]]]; congruence. }
  clear S S'.
  assert (Cor : forall h, fst h <> fst e -> fst h <> fst top -> org n10 h = org m h /\ dest n10 h = dest m h) by (intros; unfold org, dest; rewrite !Oth; auto).
  destruct (Rot m e E2) as (Re1 & Re2 & Re3 & Re4). destruct (Rot m top T2) as (Rt1 & Rt2 & Rt3 & Rt4).
  destruct (Rot n10 e E2) as (Re5 & Re6 & Re7 & Re8). destruct (Rot n10 top T2) as (Rt5 & Rt6 & Rt7 & Rt8).
  destruct (Cor blc BL4 BL5) as (Cb1 & Cb2). destruct (Cor brc BR4 BR5) as (Cb3 & Cb4). destruct (Cor trc TR4 TR5) as (Cb5 & Cb6). destruct (Cor tlc TL4 TL5) as (Cb7 & Cb8).
  assert (Ins : forall h, inside n10 h <-> inside m h) by (intros; unfold inside; now rewrite Ln').
  assert (Iq : inside m (next e) /\ inside m (prev e) /\ inside m (next top) /\ inside m (prev top)) by (repeat split; auto).
  destruct Iq as (I1 & I2 & I3 & I4).
  split.
  { constructor.
    - intros t i Ht Hi. rewrite Ln' in Ht. destruct (Nat.eq_dec t (fst e)) as [->|Na].
      + assert (K : i = snd e \/ i = (snd e + 1) mod 3 \/ i = (snd e + 2) mod 3 \/ i = snd e + 3 \/ i = (snd e + 1) mod 3 + 3 \/ i = (snd e + 2) mod 3 + 3).
        { destruct (three _ E2) as [->|[->| ->]]; cbn; lia. }
        unfold org, dest, apex, mark, next, prev in *. cbn [fst snd] in *. destruct K as [->|[->|[->|[->|[->| ->]]]]]; try congruence. rewrite Q7. now apply W.
      + destruct (Nat.eq_dec t (fst top)) as [->|Nb]; [|rewrite Oth by auto; now apply W].
        assert (K : i = snd top \/ i = (snd top + 1) mod 3 \/ i = (snd top + 2) mod 3 \/ i = snd top + 3 \/ i = (snd top + 1) mod 3 + 3 \/ i = (snd top + 2) mod 3 + 3).
        { destruct (three _ T2) as [->|[->| ->]]; cbn; lia. }
        unfold org, dest, apex, mark, next, prev in *. cbn [fst snd] in *. destruct K as [->|[->|[->|[->|[->| ->]]]]]; try congruence. rewrite Q8. now apply W.
    - intros h Hh. apply Ins in Hh.
      assert (Dec : In h [e; top; prev top; next top; prev e; next e; blc; brc; trc; tlc] \/ ~ In h [e; top; prev top; next top; prev e; next e; blc; brc; trc; tlc]).
      { destruct (in_dec (fun a b => match he_eqb_spec a b with ReflectT _ p => left p | ReflectF _ p => right p end) h [e; top; prev top; next top; prev e; next e; blc; brc; trc; tlc]); auto. }
      destruct Dec as [[<-|[<-|[<-|[<-|[<-|[<-|[<-|[<-|[<-|[<-|[]]]]]]]]]]]|Out].
      + exists top. rewrite Ins. repeat split; auto; congruence.
      + exists e. rewrite Ins. repeat split; auto; congruence.
      + exists blc. rewrite Ins. split; [congruence|]. split; [assumption|]. split; [congruence|]. split; congruence.
      + exists tlc. rewrite Ins. split; [congruence|]. split; [assumption|]. split; [congruence|]. split; congruence.
      + exists trc. rewrite Ins. split; [congruence|]. split; [assumption|]. split; [congruence|]. split; congruence.
      + exists brc. rewrite Ins. split; [congruence|]. split; [assumption|]. split; [congruence|]. split; congruence.
      + exists (prev top). rewrite Ins. split; [congruence|]. split; [assumption|]. split; [congruence|]. split; congruence.
      + exists (next e). rewrite Ins. split; [congruence|]. split; [assumption|]. split; [congruence|]. split; congruence.
      + exists (prev e). rewrite Ins. split; [congruence|]. split; [assumption|]. split; [congruence|]. split; congruence.
      + exists (next top). rewrite Ins. split; [congruence|]. split; [assumption|]. split; [congruence|]. split; congruence.
      + destruct (wf_nei m W h Hh) as (g & G1 & G2 & G3 & G4 & G5).
        assert (Og : ~ In g [e; top; prev top; next top; prev e; next e; blc; brc; trc; tlc]).
        { intros Q. apply Out. cbn. destruct Q as [<-|[<-|[<-|[<-|[<-|[<-|[<-|[<-|[<-|[<-|[]]]]]]]]]]].
          all: match type of G3 with sym m ?x = _ => match goal with Q : sym m x = Some ?y |- _ => assert (h = y) by congruence; subst h; tauto end end. }
        assert (Far : forall x, inside m x -> ~ In x [e; top; prev top; next top; prev e; next e; blc; brc; trc; tlc] -> fst x <> fst e /\ fst x <> fst top).
        { intros x (_ & X) Nx. split; intros Q; apply Nx; [destruct (sides e x E2 X Q) as [->|[->| ->]]|destruct (sides top x T2 X Q) as [->|[->| ->]]]; cbn; tauto. }
        destruct (Far h Hh Out) as (F1 & F2). destruct (Far g G2 Og) as (F3 & F4).
        destruct (Cor h F1 F2) as (H1 & H2). destruct (Cor g F3 F4) as (H3 & H4).
        exists g. rewrite Ins, !Same. 2: { intros Q; apply Og; right; right; exact Q. } 2: { intros Q; apply Out; right; right; exact Q. }
        repeat split; auto; try apply G2; congruence. }
  split; [auto|]. split; [congruence|]. split; [auto|]. repeat (split; [auto; fail|]).
  split; [split; congruence|]. split; [split; congruence|]. split; [split; congruence|]. split; [split; congruence|]. split.
  - intros h c Hh Hc F1 F2 F3 F4. rewrite Same; [auto|]. intros [Q|[Q|[Q|[Q|[Q|[Q|[Q|[Q|[]]]]]]]]]; subst h; try (now apply F1); try (now apply F2); [assert (c = next e) by congruence|assert (c = prev e) by congruence|assert (c = next top) by congruence|assert (c = prev top) by congruence]; subst c; try (now apply F3); now apply F4.
  - intros v g Hv Lg Og. destruct (Nat.eq_dec (fst g) (fst e)) as [Fe|Fe]; [|destruct (Nat.eq_dec (fst g) (fst top)) as [Ft|Ft]].
    + assert (K : exists g1, nth_error v1 v = Some g1 /\ (g1 = next e \/ g1 = prev e) /\ (g1 = next e -> v = lv) /\ (g1 = prev e -> v = rv \/ v = bv /\ g = prev e)).
      { eexists. split; [apply R1; exact Hv|]. destruct (sides e g E2 Lg Fe) as [->|[->| ->]].
        - replace v with rv by congruence. rewrite Nat.eqb_refl. destruct (he_eqb_spec e e); [|congruence]. cbn. split; [auto|]. split; [congruence|auto].
        - destruct (he_eqb_spec (next e) e); [congruence|]. destruct (he_eqb_spec (next e) (next top)) as [Q|]; [exfalso; now apply (Net (next e) (next top))|].
          rewrite andb_false_r. split; [auto|]. split; [intros _; congruence|congruence].
        - destruct (he_eqb_spec (prev e) e); [congruence|]. destruct (he_eqb_spec (prev e) (next top)) as [Q|]; [exfalso; now apply (Net (prev e) (next top))|].
          rewrite andb_false_r. split; [auto|]. split; [congruence|]. intros _. right. split; [congruence|auto]. }
      destruct K as (g1 & G1 & [->| ->] & K1 & K2).
      * specialize (K1 eq_refl). subst v. apply R2 in G1. rewrite Nat.eqb_refl in G1. destruct (he_eqb_spec (next e) (next e)); [|congruence]. rewrite orb_true_r in G1. cbn in G1.
        apply R3 in G1. destruct (he_eqb_spec (prev top) (prev e)) as [Q|]; [exfalso; now apply (Net (prev e) (prev top))|]. rewrite andb_false_r in G1.
        apply R4 in G1. eexists. split; [exact G1|]. destruct (Nat.eqb_spec lv fv) as [->|]; cbn; [destruct (he_eqb_spec (prev top) (prev top)); cbn; congruence|congruence].
      * specialize (K2 eq_refl). apply R2 in G1. destruct (he_eqb_spec (prev e) top) as [Q|]; [exfalso; now apply (Net (prev e) top)|]. destruct (he_eqb_spec (prev e) (next e)); [congruence|].
        rewrite andb_false_r in G1. apply R3 in G1. destruct (he_eqb_spec (prev e) (prev e)); [|congruence]. cbn in G1. rewrite andb_true_r in G1.
        destruct (Nat.eqb_spec v bv) as [->|Nv].
        -- apply R4 in G1. destruct (he_eqb_spec (next e) (prev top)) as [Q|]; [exfalso; now apply (Net (next e) (prev top))|]. rewrite andb_false_r in G1. eexists. split; [exact G1|congruence].
        -- apply R4 in G1. destruct (he_eqb_spec (prev e) (prev top)) as [Q|]; [exfalso; now apply (Net (prev e) (prev top))|]. rewrite andb_false_r in G1. eexists. split; [exact G1|].
           destruct K2 as [->|(-> & _)]; congruence.
    + assert (V : forall x : hedge, fst x = fst e -> g <> x) by (intros x Q ->; congruence).
      destruct (sides top g T2 Lg Ft) as [->|[->| ->]].
      * replace v with lv in * by congruence. apply R1 in Hv. destruct (he_eqb_spec top e); [congruence|]. destruct (he_eqb_spec top (next top)); [congruence|]. rewrite andb_false_r in Hv.
        apply R2 in Hv. rewrite Nat.eqb_refl in Hv. destruct (he_eqb_spec top top); [|congruence]. cbn in Hv.
        apply R3 in Hv. destruct (he_eqb_spec (prev top) (prev e)) as [Q|]; [exfalso; now apply (Net (prev e) (prev top))|]. rewrite andb_false_r in Hv.
        apply R4 in Hv. eexists. split; [exact Hv|]. destruct (Nat.eqb_spec lv fv) as [->|]; cbn; [destruct (he_eqb_spec (prev top) (prev top)); cbn; congruence|congruence].
      * replace v with rv in * by congruence. apply R1 in Hv. rewrite Nat.eqb_refl in Hv. destruct (he_eqb_spec (next top) (next top)); [|congruence]. rewrite orb_true_r in Hv. cbn in Hv.
        apply R2 in Hv. destruct (he_eqb_spec (prev e) top) as [Q|]; [exfalso; now apply (Net (prev e) top)|]. destruct (he_eqb_spec (prev e) (next e)); [congruence|]. rewrite andb_false_r in Hv.
        apply R3 in Hv. destruct (he_eqb_spec (prev e) (prev e)); [|congruence]. cbn in Hv. rewrite andb_true_r in Hv.
        destruct (Nat.eqb_spec rv bv) as [->|Nv].
        -- apply R4 in Hv. destruct (he_eqb_spec (next e) (prev top)) as [Q|]; [exfalso; now apply (Net (next e) (prev top))|]. rewrite andb_false_r in Hv. eexists. split; [exact Hv|congruence].
        -- apply R4 in Hv. destruct (he_eqb_spec (prev e) (prev top)) as [Q|]; [exfalso; now apply (Net (prev e) (prev top))|]. rewrite andb_false_r in Hv. eexists. split; [exact Hv|congruence].
      * replace v with fv in * by congruence. apply R1 in Hv. destruct (he_eqb_spec (prev top) e) as [Q|]; [exfalso; now apply (Net e (prev top))|]. destruct (he_eqb_spec (prev top) (next top)); [congruence|]. rewrite andb_false_r in Hv.
        apply R2 in Hv. destruct (he_eqb_spec (prev top) top); [congruence|]. destruct (he_eqb_spec (prev top) (next e)) as [Q|]; [exfalso; now apply (Net (next e) (prev top))|]. rewrite andb_false_r in Hv.
        apply R3 in Hv. destruct (he_eqb_spec (prev top) (prev e)) as [Q|]; [exfalso; now apply (Net (prev e) (prev top))|]. rewrite andb_false_r in Hv.
        apply R4 in Hv. rewrite Nat.eqb_refl in Hv. destruct (he_eqb_spec (prev top) (prev top)); [|congruence]. cbn in Hv. eexists. split; [exact Hv|congruence].
    + exists g. assert (V : forall x : hedge, fst x = fst e \/ fst x = fst top -> he_eqb g x = false). { intros x Q. destruct (he_eqb_spec g x) as [->|]; [destruct Q; congruence|reflexivity]. }
      split; [|destruct (Cor g Fe Ft); congruence].
      apply R1 in Hv. rewrite (V e), (V (next top)), andb_false_r in Hv by (cbn; auto). apply R2 in Hv. rewrite (V top), (V (next e)), andb_false_r in Hv by (cbn; auto).
      apply R3 in Hv. rewrite (V (prev e)), andb_false_r in Hv by (cbn; auto). apply R4 in Hv. rewrite (V (prev top)), andb_false_r in Hv by (cbn; auto). exact Hv.
Qed.
End Flip.

(** A tetrahedron: the hypotheses of [C40_flip] are met and the flip does
    something. *)
Definition tetra : list triangle :=
  [mk_tri [0; 1; 2; 0; 1; 2] [(2, 1); (3, 1); (1, 1)];
   mk_tri [0; 3; 1; 10; 11; 12] [(2, 2); (0, 2); (3, 0)];
   mk_tri [1; 3; 2; 20; 21; 22] [(3, 2); (0, 0); (1, 0)];
   mk_tri [2; 3; 0; 30; 31; 32] [(1, 2); (0, 1); (2, 0)]].
Lemma tetra_wf : wf tetra.
Proof.
  split.
  - intros t i Ht Hi. cbn in Ht. do 4 (destruct t as [|t]; [do 6 (destruct i as [|i]; [discriminate|]); lia|]). lia.
  - intros (t & i) (Ht & Hi). cbn in Ht, Hi. unfold inside.
    do 4 (destruct t as [|t]; [do 3 (destruct i as [|i]; [eexists; split; [reflexivity|cbn; repeat split; lia]|]); lia|]). lia.
Qed.
Example C40_case : wf tetra /\ proper_edge tetra (0, 0) (2, 1) /\
  exists m' vm', flip tetra (0, 0) [(0, 2); (0, 0); (0, 1); (1, 0)] = Some (m', vm') /\ map (fun t => firstn 3 (data t)) m' = [[1; 3; 0]; [0; 3; 1]; [3; 2; 0]; [2; 3; 0]].
Proof.
  split; [apply tetra_wf|]. split.
  - split; [unfold inside; cbn; lia|]. split; [reflexivity|]. split; [cbn; lia|]. intros (t & i) c (Ht & Hi) F N1 N2. cbn in Ht, Hi, F.
    destruct F as [->| ->]; (do 3 (destruct i as [|i]; [try congruence; cbn; intros Q; injection Q as <-; cbn; lia|]); lia).
  - eexists. eexists. split; reflexivity.
Qed.
(** The condition that the two triangles share only the flipped edge cannot be
    dropped: two triangles glued along all their sides. *)
Definition pillow : list triangle :=
  [mk_tri [0; 1; 2; 0; 1; 2] [(1, 0); (1, 2); (1, 1)];
   mk_tri [0; 2; 1; 10; 11; 12] [(0, 0); (0, 2); (0, 1)]].
Theorem C40_shared_refuted : wf pillow /\ inside pillow (0, 0) /\
  exists m' vm', flip pillow (0, 0) [(0, 2); (0, 0); (0, 1)] = Some (m', vm') /\ ~ wf m'.
Proof.
  split; [|split; [unfold inside; cbn; lia|]].
  - split.
    + intros t i Ht Hi. cbn in Ht. do 2 (destruct t as [|t]; [do 6 (destruct i as [|i]; [discriminate|]); lia|]). lia.
    + intros (t & i) (Ht & Hi). cbn in Ht, Hi. unfold inside.
      do 2 (destruct t as [|t]; [do 3 (destruct i as [|i]; [eexists; split; [reflexivity|cbn; repeat split; lia]|]); lia|]). lia.
  - exists [mk_tri [1; 0; 0; 0; 2; 11] [(1, 0); (1, 1); (0, 2)]; mk_tri [2; 0; 0; 10; 12; 1] [(0, 0); (0, 1); (1, 2)]].
    eexists. split; [vm_compute; reflexivity|]. intros (_ & Hn). destruct (Hn (0, 2)) as (g & G & _ & _ & O & _); [split; cbn; lia|].
    cbn in G. injection G as <-. cbn in O. discriminate.
Qed.
Print Assumptions C40_flip.
Print Assumptions C40_shared_refuted.
