(** Cutting the faces of a cell: what split_face_verts returns. *)
From Coq Require Import List Arith Bool Lia Permutation.
From Verif Require Import Lib Dispatch Bsp BspSpec.
Import ListNotations.

(** * Cycles *)
Lemma path_edges_app x a y b z : path_edges x (a ++ y :: b) z = path_edges x a y ++ path_edges y b z.
Proof. revert x; induction a; intros; cbn; auto. now rewrite IHa. Qed.
Lemma path_edges_nil x t y : path_edges x t y <> [].
Proof. destruct t; discriminate. Qed.
Lemma path_edges_length x t y : length (path_edges x t y) = S (length t).
Proof. revert x; induction t; intros; cbn; auto. Qed.
Lemma path_edges_fst x t y : map fst (path_edges x t y) = x :: t.
Proof. revert x; induction t; intros; cbn; auto. now rewrite IHt. Qed.
Lemma path_edges_snd x t y : map snd (path_edges x t y) = t ++ [y].
Proof. revert x; induction t; intros; cbn; auto. now rewrite IHt. Qed.
Lemma hes_fst l : map fst (hes l) = l.
Proof. destruct l; cbn; auto. apply path_edges_fst. Qed.
Lemma hes_length l : length (hes l) = length l.
Proof. destruct l; cbn; auto. apply path_edges_length. Qed.
Lemma hes_snd l : map snd (hes l) = match l with [] => [] | x :: t => t ++ [x] end.
Proof. destruct l; cbn; auto. apply path_edges_snd. Qed.
Lemma hes_in l u v : In (u, v) (hes l) -> In u l /\ In v l.
Proof.
  intros H. split.
  - apply (in_map fst) in H. now rewrite hes_fst in H.
  - apply (in_map snd) in H. rewrite hes_snd in H. destruct l; auto. apply in_app_or in H. cbn in *. tauto.
Qed.

Lemma turned_refl {A} (l : list A) : turned l l.
Proof. exists [], l. now rewrite app_nil_r. Qed.
Lemma turned_sym {A} (l l' : list A) : turned l l' -> turned l' l.
Proof. intros (a & b & -> & ->). now exists b, a. Qed.
Lemma turned_perm {A} (l l' : list A) : turned l l' -> Permutation l l'.
Proof. intros (a & b & -> & ->). apply Permutation_app_comm. Qed.
Lemma turned_app {A} (a b : list A) : turned (a ++ b) (b ++ a).
Proof. now exists a, b. Qed.
Lemma turned_trans {A} (l l' l'' : list A) : turned l l' -> turned l' l'' -> turned l l''.
Proof.
  intros (a & b & -> & ->) (c & d & E & ->).
  destruct (app_eq_app _ _ _ _ E) as (m & [(-> & ->)|(-> & ->)]).
  - exists (a ++ c), m. split; [now rewrite <- app_assoc|]. now rewrite app_assoc.
  - exists m, (d ++ b). split; [now rewrite app_assoc|]. now rewrite <- app_assoc.
Qed.
Lemma turned_rev {A} (l l' : list A) : turned l l' -> turned (rev l) (rev l').
Proof. intros (a & b & -> & ->). exists (rev b), (rev a). now rewrite !rev_app_distr. Qed.
Lemma turned_map {A B} (f : A -> B) l l' : turned l l' -> turned (map f l) (map f l').
Proof. intros (a & b & -> & ->). exists (map f a), (map f b). now rewrite !map_app. Qed.
Lemma turned_in {A} (l l' : list A) x : turned l l' -> (In x l <-> In x l').
Proof. intros T. split; apply Permutation_in; [|apply Permutation_sym]; now apply turned_perm. Qed.
Lemma turned_flat_map {A B} (f : A -> list B) l l' : turned l l' -> turned (flat_map f l) (flat_map f l').
Proof. intros (a & b & -> & ->). exists (flat_map f a), (flat_map f b). now rewrite !flat_map_app. Qed.
Lemma hes_turned l l' : turned l l' -> turned (hes l) (hes l').
Proof.
  intros (a & b & -> & ->). destruct a as [|x a]; [rewrite app_nil_r; apply turned_refl|].
  destruct b as [|y b]; [rewrite app_nil_r; apply turned_refl|].
  cbn. rewrite !path_edges_app. apply turned_app.
Qed.
Lemma path_edges_rev x t y : path_edges y (rev t) x = rev (map swap (path_edges x t y)).
Proof.
  revert x; induction t as [|b t IH]; intros x; cbn; auto.
  rewrite path_edges_app, IH. reflexivity.
Qed.
Lemma hes_rev l : turned (hes (rev l)) (rev (map swap (hes l))).
Proof.
  destruct l as [|x t]; [apply turned_refl|].
  eapply turned_trans; [apply hes_turned; cbn; apply turned_app|].
  cbn. rewrite path_edges_rev. apply turned_refl.
Qed.
Lemma path_edges_split x t y a b : path_edges x t y = a ++ b -> a <> [] -> b <> [] ->
  exists t1 w t2, t = t1 ++ w :: t2 /\ a = path_edges x t1 w /\ b = path_edges w t2 y.
Proof.
  revert x a; induction t as [|c t IH]; intros x a E Ha Hb; cbn in E.
  - destruct a as [|e a]; [easy|]. injection E as <- E. destruct a; [|discriminate]. cbn in E. congruence.
  - destruct a as [|e a]; [easy|]. injection E as <- E. destruct a as [|e a].
    + cbn in E. exists [], c, t. cbn. auto.
    + destruct (IH c (e :: a)) as (t1 & w & t2 & -> & -> & ->); auto; [discriminate|].
      exists (c :: t1), w, t2. cbn. auto.
Qed.

(** * The scan *)
Lemma ori_eqb_spec a b : reflect (a = b) (ori_eqb a b).
Proof. destruct a, b; constructor; congruence. Qed.
Definition cand (s : nat -> Orientation) (h : nat * nat) : list zero_vert :=
  if ori_eqb (s (fst h)) Zero then [Start h]
  else if negb (ori_eqb (s (snd h)) Zero) && negb (ori_eqb (s (snd h)) (s (fst h))) then [Intersection h] else [].
Definition cands s hs := flat_map (cand s) hs.
Definition early (zc : list zero_vert) : bool := match zc with _ :: Intersection _ :: _ => true | _ => false end.
Fixpoint first_sign (s : nat -> Orientation) (l : list nat) : Orientation :=
  match l with [] => Undefined | x :: t => if ori_eqb (s x) Zero then first_sign s t else s x end.
Definition early_result s c zs : split_result :=
  match zs with a :: b :: _ => sort_two_verts s c a b | _ => IsPos false end.

Lemma early_app zc w : early zc = true -> early (zc ++ w) = true /\ forall s c, early_result s c (zc ++ w) = early_result s c zc.
Proof. destruct zc as [|a [|[h|h] zc]]; try discriminate. cbn. auto. Qed.
Lemma scan_spec s c t : forall x y b zc, early zc = false -> (b = Undefined -> s x = Zero) ->
  (forall v, In v (t ++ [y]) -> s v <> Undefined) ->
  scan s c (path_edges x t y) (s x) b zc =
    let zs := zc ++ cands s (path_edges x t y) in
    if early zs then inl (early_result s c zs)
    else inr (if ori_eqb b Undefined then first_sign s (t ++ [y]) else b, zs).
Proof.
  assert (ST : forall x y r b zc, early zc = false -> (b = Undefined -> s x = Zero) -> s y <> Undefined ->
    (forall b' zc', early zc' = false -> (b' = Undefined -> s y = Zero) -> scan s c r (s y) b' zc' =
      let zs := zc' ++ cands s r in if early zs then inl (early_result s c zs) else inr (if ori_eqb b' Undefined then first_sign s (map snd r) else b', zs)) ->
    scan s c ((x, y) :: r) (s x) b zc =
      let zs := zc ++ cands s ((x, y) :: r) in
      if early zs then inl (early_result s c zs)
      else inr (if ori_eqb b Undefined then first_sign s (y :: map snd r) else b, zs)).
  { intros x y r b zc E Hb Hy IH. cbn [scan fst snd]. change (cands s ((x, y) :: r)) with (cand s (x, y) ++ cands s r).
    assert (CD : cand s (x, y) = if ori_eqb (s x) Zero then [Start (x, y)]
      else if negb (ori_eqb (s y) Zero) && negb (ori_eqb (s y) (s x)) then [Intersection (x, y)] else []) by reflexivity.
    rewrite CD. clear CD. destruct (ori_eqb_spec (s x) Zero) as [Hx|Hx].
    - rewrite IH; [|now destruct zc as [|? [|[] ?]]|].
      2:{ destruct (ori_eqb_spec b Undefined); [|easy]. destruct (ori_eqb_spec (s y) Zero); cbn; congruence. }
      rewrite <- app_assoc. cbn [app]. cbv zeta.
      match goal with |- (if ?e then _ else _) = _ => destruct e end; [reflexivity|]. do 2 f_equal.
      destruct (ori_eqb_spec b Undefined) as [->|N]; cbn [andb]; [|now destruct (ori_eqb_spec b Undefined)].
      destruct (ori_eqb_spec (s y) Zero) as [Y|Y]; cbn [negb].
      + cbn. now rewrite Y.
      + destruct (ori_eqb_spec (s y) Undefined); [congruence|]. cbn. now destruct (ori_eqb_spec (s y) Zero).
    - destruct (ori_eqb_spec b Undefined) as [->|NU]; [now specialize (Hb eq_refl)|].
      destruct (negb (ori_eqb (s y) Zero) && negb (ori_eqb (s y) (s x))) eqn:C.
      + destruct zc as [|z [|z' zc']].
        * rewrite IH; auto. 2:{ intros ->. congruence. } cbn [app]. cbv zeta.
          match goal with |- (if ?e then _ else _) = _ => destruct e end; [reflexivity|]. now destruct (ori_eqb_spec b Undefined).
        * cbv zeta. cbn [app early early_result]. unfold sort_two_verts. cbn [halfedge snd].
          destruct (ori_eqb (s y) Positive), c; reflexivity.
        * rewrite IH; [|now destruct z'|intros ->; congruence]. cbv zeta. rewrite <- app_assoc. cbn [app].
          match goal with |- (if ?e then _ else _) = _ => destruct e end; [reflexivity|]. now destruct (ori_eqb_spec b Undefined).
      + rewrite IH; auto; [|intros ->; congruence]. cbv zeta. cbn [app].
        match goal with |- (if ?e then _ else _) = _ => destruct e end; [reflexivity|]. now destruct (ori_eqb_spec b Undefined). }
  induction t as [|w t IH]; intros x y b zc E Hb Hd.
  - cbn [path_edges]. rewrite ST; [reflexivity|exact E|exact Hb| |].
    + apply Hd. cbn. auto.
    + intros b' zc' E' Hb'. cbn. rewrite app_nil_r, E'. destruct (ori_eqb_spec b' Undefined); subst; auto.
  - cbn [path_edges]. rewrite ST; [rewrite path_edges_snd; reflexivity|exact E|exact Hb| |].
    + apply Hd. cbn. auto.
    + intros b' zc' E' Hb'. rewrite IH; auto.
      * rewrite path_edges_snd. reflexivity.
      * intros v Hv. apply Hd. cbn. auto.
Qed.

(** What split_face_verts does with the candidates. *)
Definition decide s ls c (base : Orientation) (zc : list zero_vert) : split_result :=
  match zc with
  | [] | [_] => IsPos (ori_eqb base Positive)
  | [a; b] =>
    if is_intersection a || is_intersection b then sort_two_verts s c a b
    else
      let ha := halfedge a in let hb := halfedge b in
      if snd ha =? fst hb then sort_zero_halfedges ls c base [ha]
      else if snd hb =? fst ha then sort_zero_halfedges ls c base [hb]
      else sort_two_verts s c a b
  | _ =>
    let zc' := match find_break zc with Some (p, q) => q ++ p | None => zc end in
    sort_zero_halfedges ls c base (map halfedge (removelast zc'))
  end.
Lemma split_face_verts_spec s ls l c : l <> [] -> (forall v, In v l -> s v <> Undefined) ->
  split_face_verts s ls l c = Some (let zs := cands s (hes l) in if early zs then early_result s c zs else decide s ls c (first_sign s l) zs).
Proof.
  intros Hl Hd. destruct l as [|x t]; [easy|]. unfold split_face_verts. cbn [hd_error hes].
  rewrite scan_spec; auto.
  2:{ destruct (ori_eqb_spec (s x) Zero); auto. intros U. now destruct (Hd x (or_introl eq_refl)). }
  2:{ intros v Hv. apply Hd. apply in_app_or in Hv. cbn in *. tauto. }
  cbn [app]. cbv zeta. match goal with |- context [if ?e then _ else _] => destruct e eqn:E end; [reflexivity|].
  set (base := if ori_eqb _ Undefined then _ else _).
  assert (B : base = first_sign s (x :: t)).
  { unfold base. cbn. destruct (ori_eqb_spec (s x) Zero) as [X|X].
    - cbn. clear -X. induction t as [|y t IH]; cbn; [now rewrite X|]. destruct (ori_eqb_spec (s y) Zero); auto.
    - destruct (ori_eqb_spec (s x) Undefined); auto. now destruct (Hd x (or_introl eq_refl)). }
  rewrite B. destruct (cands s _) as [|a [|b [|d zs]]]; cbn [decide]; auto.
  destruct (is_intersection a || is_intersection b); auto. cbv zeta.
  destruct (snd (halfedge a) =? fst (halfedge b)); auto. destruct (snd (halfedge b) =? fst (halfedge a)); auto.
Qed.

(** * The candidates of the different faces *)
Lemma cands_app s a b : cands s (a ++ b) = cands s a ++ cands s b.
Proof. apply flat_map_app. Qed.
Lemma cands_zero s x t y : all s Zero (x :: t) -> cands s (path_edges x t y) = map Start (path_edges x t y).
Proof.
  revert x; induction t as [|b t IH]; intros x H; cbn; unfold cand; cbn.
  - rewrite (H x) by (cbn; auto). reflexivity.
  - rewrite (H x) by (cbn; auto). cbn. f_equal. apply IH. intros v Hv. apply H. now right.
Qed.
(** Along a run of one sign, up to a vertex of the same sign or on the plane. *)
Lemma cands_run s g x t y : g <> Zero -> all s g (x :: t) -> s y = g \/ s y = Zero -> cands s (path_edges x t y) = [].
Proof.
  intros G. revert x; induction t as [|b t IH]; intros x H Y; cbn; unfold cand; cbn.
  - rewrite (H x) by (cbn; auto). destruct (ori_eqb_spec g Zero); [easy|].
    destruct Y as [-> | ->]; [|reflexivity]. destruct (ori_eqb_spec g g); [|easy]. now rewrite andb_false_r.
  - rewrite (H x), (H b) by (cbn; auto). destruct (ori_eqb_spec g Zero); [easy|].
    destruct (ori_eqb_spec g g); [|easy]. rewrite andb_false_r. cbn. apply IH; auto. intros v Hv. apply H. now right.
Qed.
Lemma last_cons {A} (x : A) t d : last (x :: t) d = last t x.
Proof. revert x d; induction t as [|b t IH]; intros; [reflexivity|]. transitivity (last (b :: t) d); [reflexivity|]. now rewrite !IH. Qed.
(** ... up to a vertex of the other sign. *)
Lemma cands_cross s g x t y : g <> Zero -> all s g (x :: t) -> s y <> g -> s y <> Zero ->
  cands s (path_edges x t y) = [Intersection (last (x :: t) 0, y)].
Proof.
  intros G. revert x; induction t as [|b t IH]; intros x H Y Y'; cbn; unfold cand; cbn.
  - rewrite (H x) by (cbn; auto). destruct (ori_eqb_spec g Zero); [easy|].
    destruct (ori_eqb_spec (s y) Zero); [easy|]. destruct (ori_eqb_spec (s y) g); [easy|]. reflexivity.
  - rewrite (H x), (H b) by (cbn; auto). destruct (ori_eqb_spec g Zero); [easy|].
    destruct (ori_eqb_spec g g); [|easy]. rewrite andb_false_r. cbn [app]. apply IH; auto. intros v Hv. apply H. now right.
Qed.
Lemma turned_cands s l l' : turned l l' -> turned (cands s (hes l)) (cands s (hes l')).
Proof. intros T. apply turned_flat_map. now apply hes_turned. Qed.
Lemma turned_nil {A} (l : list A) : turned l [] -> l = [].
Proof. intros (a & b & -> & E). symmetry in E. apply app_eq_nil in E as (-> & ->). reflexivity. Qed.
Lemma turned_one {A} (l : list A) x : turned l [x] -> l = [x].
Proof. intros (a & b & -> & E). destruct b as [|y b]; cbn in E; [subst; now rewrite app_nil_r|]. injection E as <- E. symmetry in E. apply app_eq_nil in E as (-> & ->). reflexivity. Qed.
Lemma turned_two {A} (l : list A) x y : turned l [x; y] -> l = [x; y] \/ l = [y; x].
Proof.
  intros (a & b & -> & E). destruct b as [|u b]; cbn in E; [subst; left; now rewrite app_nil_r|]. injection E as <- E.
  destruct b as [|v b]; cbn in E; [subst; auto|]. injection E as <- E. symmetry in E. apply app_eq_nil in E as (-> & ->). auto.
Qed.

(** The candidate for a point of the cut. *)
Definition zp (z : zero_vert) (p : point) : Prop :=
  match z, p with
  | Start h, PV v => fst h = v
  | Intersection h, PX n q => h = (n, q) \/ h = (q, n)
  | _, _ => False
  end.
Definition steps (vs : list nat) : list (nat * nat) := combine vs (tl vs).

Lemma first_sign_run s g l : l <> [] -> g <> Zero -> all s g l -> first_sign s l = g.
Proof. destruct l as [|x t]; [easy|]. intros _ G H. cbn. rewrite (H x) by (cbn; auto). now destruct (ori_eqb_spec g Zero). Qed.
Lemma first_sign_turned s g l : (forall v, In v l -> s v = Zero \/ s v = g) -> (exists v, In v l /\ s v = g) -> g <> Zero -> first_sign s l = g.
Proof.
  intros H (w & Hw & Sw) G. induction l as [|x t IH]; [easy|]. cbn. destruct (ori_eqb_spec (s x) Zero) as [X|X].
  - apply IH; [intros; apply H; cbn; auto|]. destruct Hw as [->|]; [congruence|auto].
  - destruct (H x); cbn; auto. easy.
Qed.
Lemma removelast_map {A B} (f : A -> B) l : removelast (map f l) = map f (removelast l).
Proof. induction l as [|x [|y t] IH]; cbn in *; auto. now f_equal. Qed.
Lemma halfedge_Start l : map halfedge (map Start l) = l.
Proof. rewrite map_map. cbn. apply map_id. Qed.
Lemma find_break_none x t y : find_break (map Start (path_edges x t y)) = None.
Proof.
  revert x; induction t as [|b t IH]; intros; cbn; auto. specialize (IH b).
  destruct t; cbn in *; now rewrite Nat.eqb_refl, ?IH.
Qed.
Lemma find_break_some x t y u v r : y <> u ->
  find_break (map Start (path_edges x t y ++ (u, v) :: r)) = Some (map Start (path_edges x t y), map Start ((u, v) :: r)).
Proof.
  intros N. revert x; induction t as [|b t IH]; intros x.
  - cbn. destruct (Nat.eqb_spec y u); [easy|]. reflexivity.
  - specialize (IH b). cbn [path_edges map app]. destruct (path_edges b t y) as [|(b0 & c0) q] eqn:Q; [now destruct t|].
    assert (b0 = b) by (destruct t; cbn in Q; congruence). subst b0.
    cbn [app map] in *. cbn [find_break halfedge snd fst]. rewrite Nat.eqb_refl. cbn [find_break halfedge snd fst] in IH.
    rewrite IH. reflexivity.
Qed.
Lemma decide_long s ls c base zc : 3 <= length zc -> decide s ls c base zc =
  sort_zero_halfedges ls c base (map halfedge (removelast match find_break zc with Some (p, q) => q ++ p | None => zc end)).
Proof. destruct zc as [|a [|b [|d zc]]]; cbn [length]; try lia. reflexivity. Qed.
(** Candidates forming one chain, from any starting place. *)
Lemma decide_chain s ls c base x t q zs : t <> [] -> s x = Zero -> s q <> Zero -> all s Zero t ->
  turned zs (map Start (path_edges x t q)) ->
  early zs = false /\ decide s ls c base zs = sort_zero_halfedges ls c base (removelast (path_edges x t q)).
Proof.
  intros Ht Hx Hq Hall T. apply turned_sym in T. destruct T as (a' & b' & E & ->).
  apply map_eq_app in E as (a & b & E & <- & <-).
  assert (Eq : map Start b ++ map Start a = map Start (b ++ a)) by now rewrite map_app. rewrite Eq. clear Eq.
  split; [destruct (b ++ a) as [|? [|? ?]]; reflexivity|].
  destruct t as [|w t]; [easy|].
  assert (C : (a = [] \/ b = []) \/ a <> [] /\ b <> []) by (destruct a; [tauto|]; destruct b; [tauto|]; right; split; discriminate).
  destruct C as [C|(Ha & Hb)].
  - assert (Q : b ++ a = path_edges x (w :: t) q) by (rewrite E; destruct C as [-> | ->]; cbn; rewrite ?app_nil_r; auto).
    rewrite Q. clear C Q. destruct t as [|w' t].
    + cbn. rewrite Nat.eqb_refl. reflexivity.
    + pose proof (find_break_none x (w :: w' :: t) q) as F.
      rewrite decide_long by (rewrite map_length, path_edges_length; cbn; lia).
      rewrite F, removelast_map, halfedge_Start. reflexivity.
  - destruct (path_edges_split _ _ _ _ _ E Ha Hb) as (t1 & v & t2 & Et & -> & ->).
    assert (Nqx : q <> x) by congruence.
    destruct t as [|w' t].
    + destruct t1 as [|? t1]; cbn in Et; [|destruct t1; discriminate]. injection Et as -> <-. cbn.
      destruct (Nat.eqb_spec q x); [easy|]. rewrite Nat.eqb_refl. reflexivity.
    + destruct (path_edges x t1 v) as [|(x0 & y0) r] eqn:P1; [now apply path_edges_nil in P1|].
      assert (x0 = x) by (destruct t1; cbn in P1; congruence). subst x0.
      pose proof (find_break_some v t2 q x y0 r Nqx) as F.
      assert (L3 : 3 <= length (map Start (path_edges v t2 q ++ (x, y0) :: r))).
      { rewrite map_length, app_length, path_edges_length. apply (f_equal (@length _)) in P1. rewrite path_edges_length in P1. rewrite <- P1.
        apply (f_equal (@length _)) in Et. rewrite app_length in Et. cbn in *. lia. }
      rewrite decide_long by exact L3. rewrite F. rewrite <- map_app, removelast_map, halfedge_Start. rewrite <- P1, <- path_edges_app. now rewrite Et.
Qed.

(** A two-sided face: the two candidates. *)
Lemma cands_two s a P b N : P <> [] -> N <> [] -> all s Positive P -> all s Negative N ->
  (exists z, a = [z] /\ s z = Zero) \/ a = [] -> (exists z, b = [z] /\ s z = Zero) \/ b = [] ->
  turned (cands s (hes (a ++ P ++ b ++ N)))
    [match a with [] => Intersection (last N 0, hd 0 P) | z :: _ => Start (z, hd 0 P) end;
     match b with [] => Intersection (last P 0, hd 0 N) | z :: _ => Start (z, hd 0 N) end].
Proof.
  intros HP HN SP SN Ha Hb. destruct P as [|p P]; [easy|]. destruct N as [|n N]; [easy|].
  assert (Sp : s p = Positive) by (apply SP; cbn; auto). assert (Sn : s n = Negative) by (apply SN; cbn; auto).
  assert (C1 : forall z q, s z = Zero -> cands s [(z, q)] = [Start (z, q)]) by (intros z q Hz; cbn; unfold cand; cbn; now rewrite Hz).
  destruct Ha as [(z & -> & Hz)| ->]; destruct Hb as [(w & -> & Hw)| ->]; cbn [hd].
  - change (hes ([z] ++ (p :: P) ++ [w] ++ n :: N)) with ([(z, p)] ++ path_edges p (P ++ w :: n :: N) z).
    rewrite path_edges_app. change (path_edges w (n :: N) z) with ([(w, n)] ++ path_edges n N z). rewrite !cands_app.
    rewrite (cands_run s Positive p P w), (cands_run s Negative n N z), !C1 by (auto; discriminate). apply turned_refl.
  - change (hes ([z] ++ (p :: P) ++ [] ++ n :: N)) with ([(z, p)] ++ path_edges p (P ++ n :: N) z).
    rewrite path_edges_app, !cands_app.
    rewrite (cands_cross s Positive p P n), (cands_run s Negative n N z), !C1 by (auto; congruence). apply turned_refl.
  - change (hes ([] ++ (p :: P) ++ [w] ++ n :: N)) with (path_edges p (P ++ w :: n :: N) p).
    rewrite path_edges_app. change (path_edges w (n :: N) p) with ([(w, n)] ++ path_edges n N p). rewrite !cands_app.
    rewrite (cands_run s Positive p P w), (cands_cross s Negative n N p), !C1 by (auto; congruence).
    exact (turned_app [Start (w, n)] [Intersection (last (n :: N) 0, p)]).
  - change (hes ([] ++ (p :: P) ++ [] ++ n :: N)) with (path_edges p (P ++ n :: N) p).
    rewrite path_edges_app, !cands_app.
    rewrite (cands_cross s Positive p P n), (cands_cross s Negative n N p) by (auto; congruence).
    exact (turned_app [Intersection (last (p :: P) 0, n)] [Intersection (last (n :: N) 0, p)]).
Qed.
Lemma decide_two s ls c base l a P b N : turned l (a ++ P ++ b ++ N) ->
  P <> [] -> N <> [] -> all s Positive P -> all s Negative N ->
  (exists z, a = [z] /\ s z = Zero) \/ a = [] -> (exists z, b = [z] /\ s z = Zero) \/ b = [] ->
  let cs := match a with [] => Intersection (last N 0, hd 0 P) | z :: _ => Start (z, hd 0 P) end in
  let ce := match b with [] => Intersection (last P 0, hd 0 N) | z :: _ => Start (z, hd 0 N) end in
  let zs := cands s (hes l) in
  (if early zs then early_result s c zs else decide s ls c base zs) = if c then TwoVerts cs ce else TwoVerts ce cs.
Proof.
  intros T HP HN SP SN Ha Hb cs ce zs.
  assert (T2 : turned zs [cs; ce]) by (eapply turned_trans; [apply turned_cands; exact T|]; now apply cands_two).
  assert (Hp : s (hd 0 P) = Positive) by (destruct P; [easy|]; apply SP; cbn; auto).
  assert (Hn : s (hd 0 N) = Negative) by (destruct N; [easy|]; apply SN; cbn; auto).
  assert (Ts : s (snd (halfedge cs)) = Positive) by (unfold cs; destruct a; exact Hp).
  assert (Te : s (snd (halfedge ce)) = Negative) by (unfold ce; destruct b; exact Hn).
  assert (S1 : sort_two_verts s c cs ce = if c then TwoVerts cs ce else TwoVerts ce cs) by (unfold sort_two_verts; rewrite Te; destruct c; reflexivity).
  assert (S2 : sort_two_verts s c ce cs = if c then TwoVerts cs ce else TwoVerts ce cs) by (unfold sort_two_verts; rewrite Ts; destruct c; reflexivity).
  assert (Z : is_intersection cs = false -> s (fst (halfedge cs)) = Zero) by (unfold cs; destruct Ha as [(z & -> & Hz)| ->]; cbn; easy).
  assert (Z' : is_intersection ce = false -> s (fst (halfedge ce)) = Zero) by (unfold ce; destruct Hb as [(z & -> & Hz)| ->]; cbn; easy).
  assert (D : forall u v, (u = cs /\ v = ce \/ u = ce /\ v = cs) -> (if early [u; v] then early_result s c [u; v] else decide s ls c base [u; v]) = sort_two_verts s c u v).
  { intros u v H. unfold decide. cbn [early_result].
    assert (Hu : is_intersection u = false -> s (fst (halfedge u)) = Zero) by (destruct H as [(-> & ->)|(-> & ->)]; auto).
    assert (Hv : is_intersection v = false -> s (fst (halfedge v)) = Zero) by (destruct H as [(-> & ->)|(-> & ->)]; auto).
    assert (Xu : s (snd (halfedge u)) <> Zero) by (destruct H as [(-> & ->)|(-> & ->)]; congruence).
    assert (Xv : s (snd (halfedge v)) <> Zero) by (destruct H as [(-> & ->)|(-> & ->)]; congruence).
    destruct (early [u; v]); auto. destruct (is_intersection u) eqn:Iu; auto. destruct (is_intersection v) eqn:Iv; auto. cbv zeta. cbn [orb].
    destruct (Nat.eqb_spec (snd (halfedge u)) (fst (halfedge v))) as [E|_]; [rewrite E in Xu; now specialize (Hv eq_refl)|].
    destruct (Nat.eqb_spec (snd (halfedge v)) (fst (halfedge u))) as [E|_]; [rewrite E in Xv; now specialize (Hu eq_refl)|]. reflexivity. }
  destruct (turned_two _ _ _ T2) as [-> | ->].
  - rewrite D; auto.
  - rewrite D; auto.
Qed.

(** * The result for a face *)
Inductive face_case (s : nat -> Orientation) (o : list nat) : split_result -> option (list point) -> Prop :=
| fc_pos : (forall v, In v o -> s v = Positive \/ s v = Zero) -> (exists v, In v o /\ s v = Positive) ->
    (forall u v, In (u, v) (hes o) -> s u = Zero -> s v = Zero -> False) -> face_case s o (IsPos true) None
| fc_neg : (forall v, In v o -> s v = Negative \/ s v = Zero) -> (exists v, In v o /\ s v = Negative) -> face_case s o (IsPos false) None
| fc_side Z P : turned o (Z ++ P) -> 2 <= length Z -> P <> [] -> all s Zero Z -> all s Positive P ->
    face_case s o (ZeroHalfedges (steps (rev Z))) (Some (map PV (rev Z)))
| fc_two a P b N x y za zb : turned o (a ++ P ++ b ++ N) -> P <> [] -> N <> [] -> all s Positive P -> all s Negative N ->
    (exists z, a = [z] /\ s z = Zero /\ x = PV z) \/ (a = [] /\ x = PX (last N 0) (hd 0 P)) ->
    (exists z, b = [z] /\ s z = Zero /\ y = PV z) \/ (b = [] /\ y = PX (hd 0 N) (last P 0)) ->
    zp za x -> zp zb y -> face_case s o (TwoVerts za zb) (Some [x; y]).

Lemma hd_rev {A} (l : list A) d : hd d (rev l) = last l d.
Proof. induction l as [|x t IH] using rev_ind; auto. now rewrite rev_app_distr, last_last. Qed.
Lemma last_rev {A} (l : list A) d : last (rev l) d = hd d l.
Proof. now rewrite <- hd_rev, rev_involutive. Qed.
Lemma rev_nonempty {A} (l : list A) : l <> [] -> rev l <> [].
Proof. intros H E. apply (f_equal (@rev A)) in E. rewrite rev_involutive in E. now subst. Qed.
Lemma all_rev s g l : all s g l -> all s g (rev l).
Proof. intros H v Hv. apply H. now apply in_rev. Qed.
Lemma steps_path x t y : removelast (path_edges x t y) = steps (x :: t).
Proof.
  revert x; induction t as [|b t IH]; intros x; [reflexivity|]. cbn [path_edges]. specialize (IH b).
  transitivity ((x, b) :: removelast (path_edges b t y)); [destruct t; reflexivity|]. rewrite IH. reflexivity.
Qed.
Lemma steps_snoc l x y : steps (l ++ [x; y]) = steps (l ++ [x]) ++ [(x, y)].
Proof. induction l as [|a l IH]; [reflexivity|]. destruct l; cbn in *; [reflexivity|]. now rewrite IH. Qed.
Lemma steps_rev l : rev (map swap (steps l)) = steps (rev l).
Proof.
  induction l as [|a l IH]; [reflexivity|]. destruct l as [|b l]; [reflexivity|].
  change (steps (a :: b :: l)) with ((a, b) :: steps (b :: l)). cbn [map rev]. rewrite IH. cbn [rev].
  rewrite <- app_assoc. cbn [app]. rewrite steps_snoc. reflexivity.
Qed.
Lemma removelast_in {A} (l : list A) e : In e (removelast l) -> In e l.
Proof. induction l as [|a [|b r] IH]; cbn in *; tauto. Qed.
Lemma steps_in_hes l e : In e (steps l) -> In e (hes l).
Proof. destruct l as [|x t]; [easy|]. rewrite <- (steps_path x t x). cbn [hes]. apply removelast_in. Qed.

Lemma cands_chain s l Z P : turned l (Z ++ P) -> 2 <= length Z -> P <> [] -> all s Zero Z -> (all s Positive P \/ all s Negative P) ->
  exists x t q, Z = x :: t /\ t <> [] /\ s q <> Zero /\ turned (cands s (hes l)) (map Start (path_edges x t q)).
Proof.
  intros T LZ HP HZ SP. destruct Z as [|x t]; [cbn in LZ; lia|]. destruct P as [|q P]; [easy|].
  exists x, t, q. split; auto. split; [destruct t; [cbn in LZ; lia|discriminate]|].
  assert (exists g, (g = Positive \/ g = Negative) /\ all s g (q :: P)) as (g & Hg & SG) by (destruct SP; eauto).
  assert (Q : s q = g) by (apply SG; cbn; auto). split; [destruct Hg; congruence|].
  eapply turned_trans; [apply turned_cands; exact T|]. cbn [app hes]. rewrite path_edges_app, cands_app.
  rewrite cands_zero, (cands_run s g q P x); auto; [rewrite app_nil_r; apply turned_refl|destruct Hg; congruence|].
  right. apply HZ. cbn. auto.
Qed.

Lemma hes_turned_in l l' e : turned l l' -> (In e (hes l) <-> In e (hes l')).
Proof. intros T. apply turned_in. now apply hes_turned. Qed.
Lemma hes_rev_in l u v : In (u, v) (hes (rev l)) <-> In (v, u) (hes l).
Proof.
  rewrite (turned_in _ _ _ (hes_rev l)), <- in_rev, in_map_iff. split.
  - intros ((a & b) & E & H). cbn in E. injection E as <- <-. exact H.
  - intros H. exists (v, u). auto.
Qed.

Theorem split_face_ok s ls l (c : bool) r : cut_face s (if c then l else rev l) r ->
  (forall e, In e (hes l) -> he_twin ls e = swap e) ->
  exists res, split_face_verts s ls l c = Some res /\ face_case s (if c then l else rev l) res r.
Proof.
  intros C TW. set (o := if c then l else rev l) in *.
  assert (O : forall v, In v o <-> In v l) by (intros v; unfold o; destruct c; [tauto|symmetry; apply in_rev]).
  assert (NE : o <> [] -> l <> []) by (unfold o; destruct c; [auto|]; intros H ->; now apply H).
  (* turning, seen in the direction of the face *)
  assert (TR : forall k : list nat, turned o k -> turned l (if c then k else rev k)).
  { intros k T. unfold o in T. destruct c; auto. rewrite <- (rev_involutive l). now apply turned_rev. }
  assert (DEF : (forall v, In v o -> s v = Positive \/ s v = Negative \/ s v = Zero) -> forall v, In v l -> s v <> Undefined).
  { intros H v Hv. apply O in Hv. destruct (H v Hv) as [-> | [-> | ->]]; discriminate. }
  assert (TNE : forall k : list nat, turned o k -> k <> [] -> o <> []).
  { intros k (a & b & E & ->) K E0. rewrite E0 in E. symmetry in E. apply app_eq_nil in E as (-> & ->). now apply K. }
  inversion C as [L A EQ | z P T HP Hz A EQ | Z N T HN HZ A EQ | Z P T LZ HP HZ A EQ | a P b N x y T HP HN SP SN Ha Hb EQ]; subst.
  - (* all positive *)
    exists (IsPos true). split.
    + rewrite split_face_verts_spec by (solve [auto | apply DEF; intros v Hv; left; now apply A]).
      assert (CN : cands s (hes l) = []).
      { destruct l as [|w t]; auto. apply (cands_run s Positive); [discriminate| |left; apply A, O; cbn; auto].
        intros v Hv. apply A, O. exact Hv. }
      rewrite CN. cbn. rewrite (first_sign_run s Positive); auto; [discriminate|]. intros v Hv. now apply A, O.
    + constructor.
      * intros v Hv. left. now apply A.
      * destruct o as [|w t] eqn:E; [easy|]. exists w. split; [cbn; auto|]. apply A. cbn. auto.
      * intros u v H Hu _. apply hes_in in H. rewrite (A u) in Hu by tauto. discriminate.
  - (* touching *)
    assert (OV : forall v, In v o -> v = z \/ In v P) by (intros v Hv; apply (turned_in _ _ v T) in Hv; destruct Hv; auto).
    assert (OV' : forall v, In v o -> s v = Positive \/ s v = Zero) by (intros v Hv; destruct (OV v Hv) as [->|]; auto).
    assert (EX : exists v, In v o /\ s v = Positive).
    { destruct P as [|p P]; [easy|]. exists p. split; [apply (turned_in _ _ p T); cbn; auto|apply A; cbn; auto]. }
    exists (IsPos true). split.
    + assert (LN : l <> []) by (apply NE, (TNE _ T); discriminate).
      rewrite split_face_verts_spec by (solve [auto | apply DEF; intros v Hv; destruct (OV' v Hv); auto]).
      assert (FS : first_sign s l = Positive).
      { apply first_sign_turned; [|destruct EX as (v & Hv & Sv); exists v; split; auto; now apply O|discriminate].
        intros v Hv. apply O in Hv. destruct (OV' v Hv); auto. }
      assert (exists q, cands s (hes l) = [Start (z, q)]) as (q & ->).
      { specialize (TR _ T). destruct c.
        - destruct P as [|p P]; [easy|]. exists p. apply turned_one. eapply turned_trans; [apply turned_cands; exact TR|].
          cbn [hes path_edges]. change ((z, p) :: path_edges p P z) with ([(z, p)] ++ path_edges p P z). rewrite cands_app, (cands_run s Positive); auto; [|discriminate].
          cbn. unfold cand. cbn. rewrite Hz. apply turned_refl.
        - cbn [rev] in TR. assert (TR' : turned l (z :: rev P)) by (eapply turned_trans; [exact TR|]; apply (turned_app (rev P) [z])).
          apply rev_nonempty in HP. apply all_rev in A. destruct (rev P) as [|p P']; [easy|]. exists p. apply turned_one. eapply turned_trans; [apply turned_cands; exact TR'|].
          cbn [hes path_edges]. change ((z, p) :: path_edges p P' z) with ([(z, p)] ++ path_edges p P' z). rewrite cands_app, (cands_run s Positive); auto; [|discriminate].
          cbn. unfold cand. cbn. rewrite Hz. apply turned_refl. }
      cbn. rewrite FS. reflexivity.
    + constructor; auto. intros u v H Hu Hv.
      apply (hes_turned_in _ _ _ T) in H. destruct P as [|p P]; [easy|]. cbn [hes path_edges] in H. destruct H as [H|H].
      * injection H as <- <-. rewrite (A p) in Hv by (cbn; auto). discriminate.
      * apply (in_map fst) in H. rewrite path_edges_fst in H. rewrite (A u) in Hu by exact H. discriminate.
  - (* negative side *)
    assert (OV : forall v, In v o -> s v = Negative \/ s v = Zero).
    { intros v Hv. apply (turned_in _ _ v T) in Hv. apply in_app_or in Hv. destruct Hv; auto. }
    assert (EX : exists v, In v o /\ s v = Negative).
    { destruct N as [|n N]; [easy|]. exists n. split; [apply (turned_in _ _ n T), in_or_app; cbn; auto|apply A; cbn; auto]. }
    exists (IsPos false). split; [|now constructor].
    assert (LN : l <> []) by (apply NE, (TNE _ T); destruct Z; [exact HN|discriminate]).
    rewrite split_face_verts_spec by (solve [auto | apply DEF; intros v Hv; destruct (OV v Hv); auto]).
    assert (FS : first_sign s l = Negative).
    { apply first_sign_turned; [|destruct EX as (v & Hv & Sv); exists v; split; auto; now apply O|discriminate].
      intros v Hv. apply O in Hv. destruct (OV v Hv); auto. }
    assert (T2 : exists Z' N', turned l (Z' ++ N') /\ N' <> [] /\ all s Zero Z' /\ all s Negative N').
    { specialize (TR _ T). destruct c; [eauto 6|]. exists (rev Z), (rev N).
      split; [|split; [now apply rev_nonempty|split; now apply all_rev]].
      eapply turned_trans; [exact TR|]. rewrite rev_app_distr. apply turned_app. }
    destruct T2 as (Z' & N' & T2 & HN' & HZ' & A').
    destruct Z' as [|z0 [|z1 Z']].
    + assert (CN : cands s (hes l) = []).
      { apply turned_nil. eapply turned_trans; [apply turned_cands; exact T2|]. cbn [app]. destruct N' as [|n N']; [easy|]. cbn [hes].
        rewrite (cands_run s Negative); auto; [apply turned_refl|discriminate|]. left. apply A'. cbn. auto. }
      rewrite CN. cbn. now rewrite FS.
    + destruct N' as [|n N']; [easy|].
      assert (CN : cands s (hes l) = [Start (z0, n)]).
      { apply turned_one. eapply turned_trans; [apply turned_cands; exact T2|]. cbn [app hes path_edges].
        change ((z0, n) :: path_edges n N' z0) with ([(z0, n)] ++ path_edges n N' z0). rewrite cands_app, (cands_run s Negative); auto; [|discriminate|right; apply HZ'; cbn; auto].
        cbn. unfold cand. cbn. rewrite (HZ' z0) by (cbn; auto). apply turned_refl. }
      rewrite CN. cbn. now rewrite FS.
    + destruct (cands_chain s l (z0 :: z1 :: Z') N' T2) as (x & t & q & E & Ht & Hq & TC); auto; [cbn; lia|].
      destruct (decide_chain s ls c (first_sign s l) x t q (cands s (hes l))) as (E1 & E2); auto.
      * apply HZ'. rewrite E. cbn. auto.
      * intros v Hv. apply HZ'. rewrite E. cbn. auto.
      * cbv zeta. rewrite E1, E2, FS. reflexivity.
  - (* a side in the plane *)
    assert (OV : forall v, In v o -> s v = Zero \/ s v = Positive).
    { intros v Hv. apply (turned_in _ _ v T) in Hv. apply in_app_or in Hv. destruct Hv; auto. }
    assert (EX : exists v, In v o /\ s v = Positive).
    { destruct P as [|n P]; [easy|]. exists n. split; [apply (turned_in _ _ n T), in_or_app; cbn; auto|apply A; cbn; auto]. }
    exists (ZeroHalfedges (steps (rev Z))). split; [|econstructor; eauto].
    assert (LN : l <> []) by (apply NE, (TNE _ T); destruct Z; [exact HP|discriminate]).
    rewrite split_face_verts_spec by (solve [auto | apply DEF; intros v Hv; destruct (OV v Hv); auto]).
    assert (FS : first_sign s l = Positive).
    { apply first_sign_turned; [|destruct EX as (v & Hv & Sv); exists v; split; auto; now apply O|discriminate].
      intros v Hv. apply O in Hv. auto. }
    assert (T2 : exists P', turned l ((if c then Z else rev Z) ++ P') /\ P' <> [] /\ all s Positive P').
    { specialize (TR _ T). destruct c; [eauto 6|]. exists (rev P).
      split; [|split; [now apply rev_nonempty|now apply all_rev]].
      eapply turned_trans; [exact TR|]. rewrite rev_app_distr. apply turned_app. }
    destruct T2 as (P' & T2 & HP' & A'). set (Z0 := if c then Z else rev Z) in *.
    assert (HZ0 : all s Zero Z0) by (unfold Z0; destruct c; auto; now apply all_rev).
    assert (LZ0 : 2 <= length Z0) by (unfold Z0; destruct c; rewrite ?rev_length; auto).
    destruct (cands_chain s l Z0 P' T2) as (x & t & q & E & Ht & Hq & TC); auto.
    destruct (decide_chain s ls c (first_sign s l) x t q (cands s (hes l))) as (E1 & E2); auto.
    + apply HZ0. rewrite E. cbn. auto.
    + intros v Hv. apply HZ0. rewrite E. cbn. auto.
    + cbv zeta. rewrite E1, E2, FS, steps_path, <- E. unfold sort_zero_halfedges, Z0. cbn. destruct c; cbn; auto.
      f_equal. f_equal. rewrite <- steps_rev, map_rev. f_equal. apply map_ext_in. intros e He. apply TW.
      apply (hes_turned_in _ _ e T2). revert He. unfold Z0. clear -LZ0 HP'. intros He.
      (* the steps of Z occur in the cycle of Z ++ P *)
      destruct P' as [|p P']; [easy|]. destruct Z as [|z0 Z]; [easy|]. cbn [app hes] in *. rewrite path_edges_app. apply in_or_app. left. rewrite <- (steps_path z0 Z p) in He. now apply removelast_in.
  - (* both sides *)
    assert (OV : forall v, In v o -> s v = Positive \/ s v = Negative \/ s v = Zero).
    { intros v Hv. apply (turned_in _ _ v T) in Hv. rewrite !in_app_iff in Hv.
      destruct Hv as [Hv|[Hv|[Hv|Hv]]]; auto.
      - destruct Ha as [(z & -> & Hz & _)|(-> & _)]; [|easy]. destruct Hv as [<-|[]]. auto.
      - destruct Hb as [(z & -> & Hz & _)|(-> & _)]; [|easy]. destruct Hv as [<-|[]]. auto. }
    assert (LN : l <> []).
    { apply NE, (TNE _ T). destruct P; [easy|]. destruct a; discriminate. }
    assert (Ha0 : (exists z, a = [z] /\ s z = Zero) \/ a = []) by (destruct Ha as [(z & -> & Hz & _)|(-> & _)]; eauto).
    assert (Hb0 : (exists z, b = [z] /\ s z = Zero) \/ b = []) by (destruct Hb as [(z & -> & Hz & _)|(-> & _)]; eauto).
    rewrite split_face_verts_spec by auto. specialize (TR _ T).
    destruct c.
    + cbv zeta. rewrite (decide_two s ls true (first_sign s l) l a P b N TR HP HN SP SN Ha0 Hb0).
      eexists. split; [reflexivity|]. apply (fc_two s o a P b N); auto.
      * destruct Ha as [(z & -> & Hz & ->)|(-> & ->)]; cbn; auto.
      * destruct Hb as [(z & -> & Hz & ->)|(-> & ->)]; cbn; auto.
    + assert (T2 : turned l (b ++ rev P ++ a ++ rev N)).
      { eapply turned_trans; [exact TR|]. rewrite !rev_app_distr, <- !app_assoc.
        assert (Ra : rev a = a) by (destruct Ha0 as [(z & -> & _)| ->]; reflexivity).
        assert (Rb : rev b = b) by (destruct Hb0 as [(z & -> & _)| ->]; reflexivity). rewrite Ra, Rb.
        eapply turned_trans; [apply turned_app|]. rewrite <- !app_assoc. apply turned_refl. }
      cbv zeta. rewrite (decide_two s ls false (first_sign s l) l b (rev P) a (rev N) T2); auto using rev_nonempty, all_rev.
      eexists. split; [reflexivity|]. apply (fc_two s o a P b N); auto.
      * destruct Ha as [(z & -> & Hz & ->)|(-> & ->)]; cbn; auto. rewrite last_rev, hd_rev. auto.
      * destruct Hb as [(z & -> & Hz & ->)|(-> & ->)]; cbn; auto. rewrite last_rev, hd_rev. auto.
Qed.
