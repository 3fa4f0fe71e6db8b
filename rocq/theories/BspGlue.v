(** A complex stays right when a vertex is put in an edge, a face is cut in
    two, a cell is separated by a new face. *)
From Coq Require Import List Arith Bool Lia Permutation.
From Verif Require Import Lib Dispatch Tet Bsp BspSpec BspCut BspLoop.
Import ListNotations.

(** The complex with the faces of the cells given apart. *)
Record gcomplex (cx : bsp) (cf : nat -> list nat) : Prop := GComplex {
  g_len : length (loops cx) = length (fdata cx);
  g_loop : forall f l, nth_error (loops cx) f = Some l -> 3 <= length l /\ NoDup l /\ forall v, In v l -> v < nverts cx;
  g_cells : forall f x, nth_error (fdata cx) f = Some x -> exists a, fst (cells x) = Some a;
  g_two : forall f, NoDup (face_cells cx f);
  g_inc : forall c f, In f (cf c) <-> In c (face_cells cx f);
  g_once : forall c, NoDup (cf c);
  g_closed : forall c, balanced (concat (map (face_edges cx c) (cf c)));
  g_both : forall l u v, In l (loops cx) -> In (u, v) (hes l) -> exists l', In l' (loops cx) /\ In (v, u) (hes l') }.
Lemma gcomplex_complex cx : complex cx <-> gcomplex cx (cell_faces cx).
Proof. split; intros [? ? ? ? ? ? ? ?]; constructor; auto. Qed.

Lemma balanced_app E F : balanced E -> balanced F -> balanced (E ++ F).
Proof. intros A B u v. unfold times. rewrite !count_occ_app. unfold balanced, times in *. now rewrite A, B. Qed.
Lemma balanced_permutation E F : Permutation E F -> balanced E -> balanced F.
Proof.
  intros P B u v. unfold balanced, times in *. rewrite <- (proj1 (Permutation_count_occ he_dec E F) P), B.
  apply (proj1 (Permutation_count_occ he_dec E F) P).
Qed.
Lemma perm_concat {A} (l l' : list (list A)) : Permutation l l' -> Permutation (concat l) (concat l').
Proof. intros P. rewrite <- (map_id l), <- (map_id l'), <- !flat_map_concat_map. now apply Permutation_flat_map. Qed.

Lemma gcomplex_perm cx cf cf' : gcomplex cx cf -> (forall c, Permutation (cf c) (cf' c)) -> gcomplex cx cf'.
Proof.
  intros [? ? ? ? I O C ?] P. constructor; auto.
  - intros c f. rewrite <- I. split; apply Permutation_in; auto using Permutation_sym.
  - intros c. now apply (Permutation_NoDup (P c)).
  - intros c. apply (balanced_permutation _ _ (perm_concat _ _ (Permutation_map _ (P c)))), C.
Qed.
Lemma gcomplex_cdata cx cf cd : gcomplex cx cf -> gcomplex (Bsp (nverts cx) (loops cx) (fdata cx) cd) cf.
Proof. intros [? ? ? ? I O C ?]. constructor; auto. Qed.

(** * Cycles *)
Lemma hes_nodup_snd l u v w : NoDup l -> In (u, v) (hes l) -> In (u, w) (hes l) -> v = w.
Proof.
  intros N A B. apply In_nth_error in A as (i & A). apply In_nth_error in B as (j & B).
  assert (i = j).
  { apply (NoDup_nth_error l); auto; rewrite <- (hes_fst l) at 1; [rewrite map_length; now apply nth_error_lt in A|].
    rewrite <- (hes_fst l) at 2. now rewrite (map_nth_error fst _ _ A), (map_nth_error fst _ _ B). }
  congruence.
Qed.
Lemma turned_head {A} (l : list A) x : In x l -> exists t, turned l (x :: t).
Proof. intros H. apply in_split in H as (a & b & ->). exists (b ++ a). exists a, (x :: b). auto. Qed.
Lemma hes_turned_edge l u v : NoDup l -> In (u, v) (hes l) -> u = v /\ l = [u] \/ exists t, turned l (u :: v :: t).
Proof.
  intros N H. destruct (turned_head l u) as ([|w t] & T); [now apply hes_in in H|left|right].
  - apply turned_one in T. subst. destruct H as [H|[]]. injection H as <-. auto.
  - exists t. assert (w = v); [|now subst]. apply (hes_nodup_snd (u :: w :: t) u).
    + now apply (Permutation_NoDup (turned_perm _ _ T)).
    + now left.
    + now apply (hes_turned_in _ _ _ T).
Qed.
Lemma hes_one_way l u v : NoDup l -> 3 <= length l -> In (u, v) (hes l) -> In (v, u) (hes l) -> False.
Proof.
  intros N L A B. destruct (hes_turned_edge l u v N A) as [(_ & ->)|(t & T)]; [cbn in L; lia|].
  apply (hes_turned_in _ _ _ T) in B. assert (NT := Permutation_NoDup (turned_perm _ _ T) N).
  apply turned_perm, Permutation_length in T. destruct t as [|w t]; [cbn in T; lia|].
  assert (u = w). { apply (hes_nodup_snd _ v u w NT B). right. now left. }
  subst. inversion NT as [|? ? Q]. apply Q. cbn. auto.
Qed.
Lemma he_eqb_spec e e' : reflect (e = e') (he_eqb e e').
Proof.
  unfold he_eqb. destruct e as (a, b), e' as (c, d). cbn. destruct (Nat.eqb_spec a c), (Nat.eqb_spec b d); cbn; constructor; congruence.
Qed.
Lemma edge_eqb_true e e' : edge_eqb e e' = true <-> e = e' \/ e = swap e'.
Proof. unfold edge_eqb. rewrite orb_true_iff. destruct (he_eqb_spec e e'), (he_eqb_spec e (swap e')); intuition congruence. Qed.
Lemma swap_swap e : swap (swap e) = e.
Proof. now destruct e. Qed.
Lemma edge_eqb_swap h e : edge_eqb (swap h) e = edge_eqb h e.
Proof.
  apply Bool.eq_iff_eq_true. rewrite !edge_eqb_true. split; intros [H|H].
  - right. now rewrite <- H, swap_swap.
  - left. apply (f_equal swap) in H. now rewrite !swap_swap in H.
  - right. now rewrite H.
  - left. now rewrite H, swap_swap.
Qed.

(** * A vertex in an edge *)
Definition sb (e : nat * nat) (w : nat) (h : nat * nat) : list (nat * nat) :=
  if edge_eqb h e then [(fst h, w); (w, snd h)] else [h].
Lemma insert_path e w x t y :
  path_edges x (tl (concat (map (fun h => if edge_eqb h e then [fst h; w] else [fst h]) (path_edges x t y)))) y =
  flat_map (sb e w) (path_edges x t y) /\
  hd_error (concat (map (fun h => if edge_eqb h e then [fst h; w] else [fst h]) (path_edges x t y))) = Some x.
Proof.
  revert x; induction t as [|b t IH]; intros x; cbn [path_edges map concat flat_map].
  - unfold sb. destruct (edge_eqb (x, y) e); split; reflexivity.
  - destruct (IH b) as (E & F). rewrite <- E. unfold sb at 1.
    destruct (concat _) as [|b' r]; [discriminate|]. cbn in F. injection F as ->. cbn [tl].
    destruct (edge_eqb (x, b) e); split; reflexivity.
Qed.
Lemma hes_insert e w l : hes (insert_vertex_in e w l) = flat_map (sb e w) (hes l).
Proof.
  destruct l as [|x t]; [reflexivity|]. unfold insert_vertex_in. cbn [hes]. destruct (insert_path e w x t x) as (E & F).
  destruct (concat _) as [|x' r]; [discriminate|]. cbn in F. injection F as ->. cbn [hes]. exact E.
Qed.
Lemma insert_in e w l v : In v (insert_vertex_in e w l) <-> In v l \/ v = w /\ exists h, In h (hes l) /\ edge_eqb h e = true.
Proof.
  unfold insert_vertex_in. rewrite in_concat. split.
  - intros (p & Hp & Hv). apply in_map_iff in Hp as (h & <- & Hh).
    assert (In (fst h) l) by (rewrite <- (hes_fst l); now apply in_map).
    destruct (edge_eqb h e) eqn:E; cbn in Hv; [destruct Hv as [<-|[<-|[]]]|destruct Hv as [<-|[]]]; auto.
    right. eauto.
  - intros [H|(-> & h & Hh & E)].
    + rewrite <- (hes_fst l) in H. apply in_map_iff in H as (h & <- & Hh). eexists. split; [apply in_map_iff; exists h; split; [reflexivity|auto]|].
      destruct (edge_eqb h e); cbn; auto.
    + eexists. split; [apply in_map_iff; exists h; split; [reflexivity|auto]|]. rewrite E. cbn; auto.
Qed.
Lemma insert_other e w l : (forall h, In h (hes l) -> edge_eqb h e = false) -> insert_vertex_in e w l = l.
Proof.
  intros H. unfold insert_vertex_in. rewrite <- (hes_fst l) at 2. induction (hes l) as [|h t IH]; [reflexivity|].
  cbn. rewrite (H h) by (cbn; auto). cbn. f_equal. apply IH. intros h' Hh. apply H. now right.
Qed.
Lemma insert_turned e w l l' : turned l l' -> turned (insert_vertex_in e w l) (insert_vertex_in e w l').
Proof.
  intros T. unfold insert_vertex_in. rewrite <- !flat_map_concat_map. now apply turned_flat_map, hes_turned.
Qed.
(** Up to turning, the edge is the last one. *)
Lemma insert_case e w l : NoDup l -> 3 <= length l -> insert_vertex_in e w l = l \/
  exists x t y, turned l (x :: t ++ [y]) /\ edge_eqb (y, x) e = true /\ turned (insert_vertex_in e w l) (w :: x :: t ++ [y]).
Proof.
  intros N L. destruct (existsb (fun h => edge_eqb h e) (hes l)) eqn:E.
  - right. apply existsb_exists in E as ((y, x) & H & E).
    destruct (hes_turned_edge l y x N H) as [(_ & ->)|(t & T)]; [cbn in L; lia|].
    exists x, t, y. split; [|split; auto].
    + apply (turned_trans _ _ _ T). apply (turned_app [y] (x :: t)).
    + apply (turned_trans _ _ _ (insert_turned e w _ _ T)).
      assert (E' : insert_vertex_in e w (y :: x :: t) = y :: w :: x :: t).
      { assert (O : forall h, In h (path_edges x t y) -> edge_eqb h e = false).
        { intros (a, b) Hh. destruct (edge_eqb (a, b) e) eqn:E2; [exfalso|reflexivity].
          assert (NT := Permutation_NoDup (turned_perm _ _ T) N). assert (LT := Permutation_length (turned_perm _ _ T)).
          assert (IE : In (a, b) (hes (y :: x :: t))) by (right; exact Hh).
          apply edge_eqb_true in E, E2. assert (D : (a, b) = (y, x) \/ (a, b) = (x, y)).
          { unfold swap in *. cbn in *. destruct E as [<-|E], E2 as [E2|E2]; auto.
            - right. rewrite E2. destruct e. cbn in *. congruence.
            - left. congruence. }
          destruct D as [D|D]; injection D as -> ->.
          - assert (F : In y (map fst (path_edges x t y))) by (apply in_map_iff; exists (y, x); auto).
            rewrite path_edges_fst in F. now inversion NT.
          - apply (hes_one_way _ y x NT); [lia| |exact IE]. now left. }
        unfold insert_vertex_in. cbn [hes path_edges map concat]. rewrite E. cbn [app fst]. f_equal. f_equal.
        assert (FS : map fst (path_edges x t y) = x :: t) by apply path_edges_fst. rewrite <- FS. revert O. generalize (path_edges x t y).
        induction l0 as [|h r IH]; intros O; [reflexivity|]. cbn. rewrite (O h) by (cbn; auto). cbn. f_equal. apply IH. intros h' Hh. apply O. now right. }
      rewrite E'. apply (turned_app [y] (w :: x :: t)).
  - left. apply insert_other. intros h Hh. destruct (edge_eqb h e) eqn:E2; auto. rewrite <- E. symmetry. apply existsb_exists. eauto.
Qed.
Lemma flat_map_swap e w E : Permutation (flat_map (sb e w) (map swap E)) (map swap (flat_map (sb e w) E)).
Proof.
  induction E as [|h t IH]; [constructor|]. cbn [map flat_map]. rewrite map_app. apply Permutation_app; auto.
  unfold sb. rewrite edge_eqb_swap. destruct (edge_eqb h e); [|constructor; constructor]. apply perm_swap.
Qed.
Lemma outward_insert b e w l : Permutation (outward b (insert_vertex_in e w l)) (flat_map (sb e w) (outward b l)).
Proof. unfold outward. destruct b; rewrite hes_insert; [apply Permutation_refl|]. symmetry. apply flat_map_swap. Qed.

Lemma gcomplex_insert cx cf e cd : gcomplex cx cf ->
  gcomplex (Bsp (S (nverts cx)) (map (insert_vertex_in e (nverts cx)) (loops cx)) (fdata cx) cd) cf.
Proof.
  intros [L P CE T I O C B]. set (w := nverts cx) in *. constructor; cbn [nverts loops fdata cdata]; auto.
  - now rewrite map_length.
  - intros f l' E. rewrite nth_error_map in E. destruct (nth_error (loops cx) f) as [l|] eqn:El; [|discriminate]. injection E as <-.
    destruct (P f l El) as (P1 & P2 & P3). destruct (insert_case e w l P2 P1) as [->|(x & t & y & Tl & Ee & Ti)].
    + split; auto. split; auto. intros v Hv. apply P3 in Hv. lia.
    + assert (PT := turned_perm _ _ Ti). assert (PL := turned_perm _ _ Tl). split; [|split].
      * rewrite (Permutation_length PT). cbn [length]. rewrite (Permutation_length PL) in P1. cbn [length] in P1. lia.
      * apply (Permutation_NoDup (Permutation_sym PT)). constructor; [|now apply (Permutation_NoDup PL)].
        intros H. apply (Permutation_in _ (Permutation_sym PL)) in H. apply P3 in H. lia.
      * intros v Hv. apply (Permutation_in _ PT) in Hv. destruct Hv as [<-|Hv]; [lia|].
        apply (Permutation_in _ (Permutation_sym PL)) in Hv. apply P3 in Hv. lia.
  - intros c. specialize (C c). apply balanced_perm in C.
    assert (E : Permutation (concat (map (face_edges (Bsp (S w) (map (insert_vertex_in e w) (loops cx)) (fdata cx) cd) c) (cf c)))
                  (flat_map (sb e w) (concat (map (face_edges cx c) (cf c))))).
    { clear. induction (cf c) as [|f t IH]; [constructor|]. cbn [map concat]. rewrite flat_map_app. apply Permutation_app; auto.
      unfold face_edges, cycle_of, first_cell. cbn [loops fdata].
      change (@nil nat) with (insert_vertex_in e w []) at 1. rewrite map_nth. apply outward_insert. }
    apply (balanced_permutation _ _ (Permutation_sym E)). apply balanced_perm.
    rewrite (Permutation_flat_map (sb e w) C) at 1. apply flat_map_swap.
  - intros l u v Hl He. apply in_map_iff in Hl as (l0 & <- & Hl0). rewrite hes_insert in He. apply in_flat_map in He as ((a, b) & H0 & H1).
    destruct (B l0 a b Hl0 H0) as (l' & Hl' & H'). exists (insert_vertex_in e w l'). split; [now apply in_map|].
    rewrite hes_insert. apply in_flat_map. exists (b, a). split; auto.
    unfold sb in *. change (b, a) with (swap (a, b)). rewrite edge_eqb_swap. destruct (edge_eqb (a, b) e); cbn in H1 |- *.
    + destruct H1 as [H1|[H1|[]]]; injection H1 as <- <-; auto.
    + destruct H1 as [H1|[]]; injection H1 as <- <-; auto.
Qed.

(** * A face cut in two *)
Lemma nth_error_app_one {A} (l : list A) x i : nth_error (l ++ [x]) i = if i =? length l then Some x else nth_error l i.
Proof.
  destruct (Nat.eqb_spec i (length l)) as [->|N].
  - now rewrite nth_error_app2, Nat.sub_diag by lia.
  - destruct (Nat.lt_ge_cases i (length l)); [now rewrite nth_error_app1|].
    rewrite (proj2 (nth_error_None l i)) by lia. apply nth_error_None. rewrite app_length. cbn. lia.
Qed.
Lemma face_cells_in cx f c : In c (face_cells cx f) <-> exists x, nth_error (fdata cx) f = Some x /\ (fst (cells x) = Some c \/ snd (cells x) = Some c).
Proof.
  unfold face_cells. destruct (nth_error (fdata cx) f) as [x|]; [|split; [easy|intros (x & [=] & _)]].
  destruct (cells x) as [[a|] [b|]] eqn:E; cbn; split.
  all: try (intros H; exists x; rewrite E; cbn; split; auto; intuition congruence).
  all: intros (y & [= <-] & H); rewrite E in H; cbn in H; intuition congruence.
Qed.
Lemma gcomplex_split cx cf fid l f u A v B f1 f2 cd cf' : gcomplex cx cf ->
  nth_error (loops cx) fid = Some l -> nth_error (fdata cx) fid = Some f -> turned l (u :: A ++ v :: B) -> A <> [] -> B <> [] ->
  cells f1 = cells f -> cells f2 = cells f ->
  (forall c, In c (face_cells cx fid) -> Permutation (cf' c) (length (loops cx) :: cf c)) ->
  (forall c, ~ In c (face_cells cx fid) -> Permutation (cf' c) (cf c)) ->
  gcomplex (Bsp (nverts cx) (upd (loops cx) fid (v :: u :: A) ++ [u :: v :: B]) (upd (fdata cx) fid f1 ++ [f2]) cd) cf'.
Proof.
  intros [L P CE T I O C BO] El Ef TU NA NB C1 C2 H1 H2. set (n := length (loops cx)) in *.
  set (cx' := Bsp _ _ _ _). assert (Fn : fid < n) by (now apply nth_error_lt in El).
  assert (NL : forall g, nth_error (loops cx') g = if g =? n then Some (u :: v :: B) else if g =? fid then Some (v :: u :: A) else nth_error (loops cx) g).
  { intros g. cbn [loops cx']. rewrite nth_error_app_one, upd_length. fold n. destruct (Nat.eqb_spec g n); auto.
    rewrite nth_error_upd, (Nat.eqb_sym fid g). fold n. apply Nat.ltb_lt in Fn. rewrite Fn, andb_true_r. reflexivity. }
  assert (NF : forall g, nth_error (fdata cx') g = if g =? n then Some f2 else if g =? fid then Some f1 else nth_error (fdata cx) g).
  { intros g. cbn [fdata cx']. rewrite nth_error_app_one, upd_length, <- L. fold n. destruct (Nat.eqb_spec g n); auto.
    rewrite nth_error_upd, (Nat.eqb_sym fid g), <- L. fold n. apply Nat.ltb_lt in Fn. rewrite Fn, andb_true_r. reflexivity. }
  assert (FC : forall g, face_cells cx' g = face_cells cx (if g =? n then fid else g)).
  { intros g. unfold face_cells. rewrite NF. destruct (Nat.eqb_spec g n); [rewrite Ef, C2; reflexivity|].
    destruct (Nat.eqb_spec g fid); [subst; rewrite Ef, C1; reflexivity|reflexivity]. }
  assert (LT : forall c g, In g (cf c) -> g < n).
  { intros c g H. apply I in H. apply face_cells_in in H as (x & E & _). apply nth_error_lt in E. now rewrite L. }
  destruct (P fid l El) as (P1 & P2 & P3). assert (PT := turned_perm _ _ TU). assert (NT := Permutation_NoDup PT P2).
  assert (V : forall w, In w (u :: A ++ v :: B) -> w < nverts cx) by (intros w Hw; apply P3; now apply (Permutation_in _ (Permutation_sym PT))).
  assert (NA' : NoDup (v :: u :: A)).
  { change (u :: A ++ v :: B) with ((u :: A) ++ v :: B) in NT. assert (NR := NoDup_remove_2 _ _ _ NT). apply NoDup_remove_1 in NT.
    constructor; [intros XX; apply NR, in_or_app; auto|]. clear -NT. induction (u :: A) as [|a r IH]; [constructor|].
    cbn in NT. inversion NT as [|? ? Q R]. constructor; auto. intros XX. apply Q, in_or_app. auto. }
  assert (NB' : NoDup (u :: v :: B)).
  { inversion NT as [|? ? Q R]. constructor; [intros XX; apply Q, in_or_app; auto|]. clear -R. induction A as [|a r IH]; [exact R|]. inversion R. auto. }
  assert (FE : forall c g, g < n -> g <> fid -> face_edges cx' c g = face_edges cx c g).
  { intros c g G N. unfold face_edges, first_cell, cycle_of. rewrite NF.
    assert (EL : nth g (loops cx') [] = nth g (loops cx) []).
    { assert (Q := NL g). destruct (Nat.eqb_spec g n); [lia|]. destruct (Nat.eqb_spec g fid); [easy|].
      destruct (nth_error_ex (loops cx) g G) as (lg & E). rewrite E in Q. now rewrite (nth_error_nth _ _ [] Q), (nth_error_nth _ _ [] E). }
    rewrite EL. destruct (Nat.eqb_spec g n); [lia|]. now destruct (Nat.eqb_spec g fid). }
  constructor.
  - cbn [loops fdata cx']. rewrite !app_length, !upd_length. cbn. lia.
  - intros g lg E. rewrite NL in E. destruct (Nat.eqb_spec g n); [|destruct (Nat.eqb_spec g fid)].
    + injection E as <-. split; [destruct B; [easy|cbn; lia]|split; auto]. intros w Hw. apply V. cbn in Hw. cbn. rewrite in_app_iff. cbn. tauto.
    + injection E as <-. split; [destruct A; [easy|cbn; lia]|split; auto]. intros w Hw. apply V. cbn in Hw. cbn. rewrite in_app_iff. cbn. tauto.
    + apply (P g lg E).
  - intros g x E. rewrite NF in E. destruct (Nat.eqb_spec g n); [|destruct (Nat.eqb_spec g fid)]; [injection E as <-; rewrite C2|injection E as <-; rewrite C1|]; eauto.
  - intros g. rewrite FC. apply T.
  - intros c g. rewrite FC. destruct (in_dec Nat.eq_dec c (face_cells cx fid)) as [D|D].
    + assert (PC := H1 c D). destruct (Nat.eqb_spec g n) as [->|N].
      * split; [auto|]. intros _. apply (Permutation_in _ (Permutation_sym PC)). now left.
      * rewrite <- I. split; intros H; [apply (Permutation_in _ PC) in H; destruct H as [H|H]; [congruence|auto]|].
        apply (Permutation_in _ (Permutation_sym PC)). now right.
    + assert (PC := H2 c D). destruct (Nat.eqb_spec g n) as [->|N].
      * split; [|easy]. intros H. apply (Permutation_in _ PC) in H. apply LT in H. lia.
      * rewrite <- I. split; apply Permutation_in; auto using Permutation_sym.
  - intros c. destruct (in_dec Nat.eq_dec c (face_cells cx fid)) as [D|D].
    + apply (Permutation_NoDup (Permutation_sym (H1 c D))). constructor; auto. intros H. apply LT in H. fold n in H. lia.
    + apply (Permutation_NoDup (Permutation_sym (H2 c D))), O.
  - intros c. destruct (in_dec Nat.eq_dec c (face_cells cx fid)) as [D|D].
    + apply (balanced_permutation _ _ (perm_concat _ _ (Permutation_map _ (Permutation_sym (H1 c D))))). fold n.
      assert (Hf : In fid (cf c)) by now apply I. apply in_split in Hf as (a & b & Ec).
      assert (ND := O c). rewrite Ec in ND. apply NoDup_remove_2 in ND. specialize (C c).
      assert (PE : Permutation (cf c) (fid :: a ++ b)) by (rewrite Ec; symmetry; apply Permutation_middle).
      apply (balanced_permutation _ _ (perm_concat _ _ (Permutation_map (face_edges cx c) PE))) in C.
      apply (balanced_permutation _ _ (perm_concat _ _ (Permutation_map (face_edges cx' c) (perm_skip n (Permutation_sym PE))))).
      cbn [map concat] in C |- *.
      assert (EQ : map (face_edges cx' c) (a ++ b) = map (face_edges cx c) (a ++ b)).
      { apply map_ext_in. intros g Hg. apply FE; [|intros ->; auto]. apply (LT c). apply (Permutation_in _ (Permutation_sym PE)). now right. }
      rewrite EQ, app_assoc. set (R := concat _) in *.
      set (b0 := first_cell cx c fid).
      assert (E1 : face_edges cx' c n = outward b0 (u :: v :: B)).
      { unfold face_edges, first_cell, cycle_of, b0. assert (Q := NL n). rewrite Nat.eqb_refl in Q. rewrite (nth_error_nth _ _ [] Q).
        rewrite NF, Nat.eqb_refl, C2. unfold first_cell. now rewrite Ef. }
      assert (E2 : face_edges cx' c fid = outward b0 (v :: u :: A)).
      { unfold face_edges, first_cell, cycle_of, b0. assert (Q := NL fid). destruct (Nat.eqb_spec fid n) as [X|_]; [lia|]. rewrite Nat.eqb_refl in Q.
        rewrite (nth_error_nth _ _ [] Q). rewrite NF. destruct (Nat.eqb_spec fid n) as [X|_]; [lia|]. rewrite Nat.eqb_refl, C1. unfold first_cell. now rewrite Ef. }
      assert (E3 : Permutation (face_edges cx c fid) (outward b0 (u :: A ++ v :: B))).
      { unfold face_edges, cycle_of. rewrite (nth_error_nth _ _ [] El). fold b0. unfold outward.
        destruct b0; [|apply Permutation_map]; apply turned_perm, hes_turned; exact TU. }
      rewrite E1, E2. apply (balanced_permutation ([(u, v); (v, u)] ++ outward b0 (u :: A ++ v :: B) ++ R)).
      * rewrite app_assoc. apply Permutation_app_tail. unfold outward. destruct b0.
        -- cbn [hes path_edges app]. rewrite path_edges_app. constructor.
           apply (perm_trans (l' := (v, u) :: path_edges v B u ++ path_edges u A v)); [constructor; apply Permutation_app_comm|]. apply Permutation_middle.
        -- cbn [hes path_edges app map]. rewrite path_edges_app, map_app. cbn [swap fst snd].
           apply (perm_trans (perm_swap _ _ _)). constructor.
           apply (perm_trans (l' := (u, v) :: map swap (path_edges v B u) ++ map swap (path_edges u A v))); [constructor; apply Permutation_app_comm|]. apply Permutation_middle.
      * apply balanced_app.
        -- apply balanced_perm. cbn. apply perm_swap.
        -- apply (balanced_permutation _ _ (Permutation_app_tail R E3)). exact C.
    + apply (balanced_permutation _ _ (perm_concat _ _ (Permutation_map _ (Permutation_sym (H2 c D))))).
      rewrite (map_ext_in (face_edges cx' c) (face_edges cx c)); [apply C|]. intros g Hg. apply FE; [now apply (LT c)|].
      intros ->. now apply I in Hg.
  - assert (IN1 : In (v :: u :: A) (loops cx')).
    { apply (nth_error_In _ fid). rewrite NL, Nat.eqb_refl. destruct (Nat.eqb_spec fid n); [lia|reflexivity]. }
    assert (IN2 : In (u :: v :: B) (loops cx')).
    { apply (nth_error_In _ n). now rewrite NL, Nat.eqb_refl. }
    assert (S1 : forall l0 e, In l0 (loops cx) -> In e (hes l0) -> exists l', In l' (loops cx') /\ In e (hes l')).
    { intros l0 e Hl He. apply In_nth_error in Hl as (g & E). destruct (Nat.eq_dec g fid) as [->|N].
      - assert (l0 = l) by congruence. subst l0. apply (hes_turned_in _ _ _ TU) in He. cbn [hes] in He. rewrite path_edges_app in He.
        apply in_app_or in He as [He|He]; [exists (v :: u :: A)|exists (u :: v :: B)]; split; auto; right; exact He.
      - exists l0. split; auto. apply (nth_error_In _ g). rewrite NL.
        assert (g < n) by now apply nth_error_lt in E. destruct (Nat.eqb_spec g n); [lia|]. now destruct (Nat.eqb_spec g fid). }
    assert (S2 : forall l' a b, In l' (loops cx') -> In (a, b) (hes l') -> (a, b) = (u, v) \/ (a, b) = (v, u) \/ exists l0, In l0 (loops cx) /\ In (a, b) (hes l0)).
    { intros l' a b Hl He. apply In_nth_error in Hl as (g & E). rewrite NL in E. assert (INl := nth_error_In _ _ El).
      destruct (Nat.eqb_spec g n); [|destruct (Nat.eqb_spec g fid)].
      - injection E as <-. destruct He as [He|He]; [auto|]. right. right. exists l. split; auto. apply (hes_turned_in _ _ _ TU).
        cbn [hes]. rewrite path_edges_app. apply in_or_app. auto.
      - injection E as <-. destruct He as [He|He]; [auto|]. right. right. exists l. split; auto. apply (hes_turned_in _ _ _ TU).
        cbn [hes]. rewrite path_edges_app. apply in_or_app. auto.
      - right. right. exists l'. split; auto. now apply nth_error_In in E. }
    intros l' a b Hl He. destruct (S2 l' a b Hl He) as [E|[E|(l0 & Hl0 & He0)]].
    + injection E as -> ->. exists (v :: u :: A). split; auto. now left.
    + injection E as -> ->. exists (u :: v :: B). split; auto. now left.
    + destruct (BO l0 a b Hl0 He0) as (l1 & Hl1 & He1). now apply (S1 l1).
Qed.

(** * A cell separated *)
Lemma concat_map_app {A B} (g : A -> list B) a b : concat (map g (a ++ b)) = concat (map g a) ++ concat (map g b).
Proof. now rewrite map_app, concat_app. Qed.
Lemma gcomplex_separate cx cf cid ncid pos neg zl fd' cd : gcomplex cx cf -> Permutation (cf cid) (pos ++ neg) -> cid <> ncid ->
  (forall f, ~ In ncid (face_cells cx f)) -> cf ncid = [] -> 3 <= length zl -> NoDup zl -> (forall v, In v zl -> v < nverts cx) ->
  balanced (concat (map (face_edges cx cid) pos) ++ hes zl) ->
  (forall u v, In (u, v) (hes zl) -> exists l, In l (loops cx) /\ In (v, u) (hes l)) ->
  length fd' = S (length (fdata cx)) ->
  (exists x, nth_error fd' (length (fdata cx)) = Some x /\ cells x = (Some ncid, Some cid)) ->
  (forall g x, nth_error (fdata cx) g = Some x -> exists x', nth_error fd' g = Some x' /\
     (In g pos -> cells x' = (move_cell cid ncid (fst (cells x)), move_cell cid ncid (snd (cells x)))) /\ (~ In g pos -> cells x' = cells x)) ->
  gcomplex (Bsp (nverts cx) (loops cx ++ [zl]) fd' cd)
    (fun c => if c =? cid then neg ++ [length (loops cx)] else if c =? ncid then pos ++ [length (loops cx)] else cf c).
Proof.
  intros [L P CE T I O C BO] PC NC FR CN Z1 Z2 Z3 BZ EZ LF (xn & En & Cn) MV. set (n := length (loops cx)) in *.
  set (cx' := Bsp _ _ _ _).
  assert (LT : forall c g, In g (cf c) -> g < n).
  { intros c g H. apply I in H. apply face_cells_in in H as (x & E & _). apply nth_error_lt in E. now rewrite L. }
  assert (NDp := Permutation_NoDup PC (O cid)).
  assert (DJ : forall g, In g pos -> In g neg -> False).
  { intros g A B. clear -NDp A B. induction pos as [|a r IH]; [easy|]. cbn in NDp. inversion NDp as [|? ? Q R]. destruct A as [->|A]; auto. apply Q, in_or_app. auto. }
  assert (IP : forall g, In g pos -> In cid (face_cells cx g)) by (intros g H; apply I, (Permutation_in _ (Permutation_sym PC)), in_or_app; auto).
  assert (LP : forall g, In g pos -> g < n) by (intros g H; apply (LT cid), (Permutation_in _ (Permutation_sym PC)), in_or_app; auto).
  assert (LN : forall g, In g neg -> g < n) by (intros g H; apply (LT cid), (Permutation_in _ (Permutation_sym PC)), in_or_app; auto).
  assert (NL : forall g, nth_error (loops cx') g = if g =? n then Some zl else nth_error (loops cx) g) by (intros g; apply nth_error_app_one).
  (* the cells of a face *)
  assert (FCn : face_cells cx' n = [ncid; cid]).
  { unfold face_cells. cbn [fdata cx']. rewrite L, En, Cn. reflexivity. }
  assert (MC : forall o c, o <> Some ncid -> move_cell cid ncid o = Some c <-> (c = ncid /\ o = Some cid) \/ (c <> cid /\ o = Some c)).
  { intros o c H. unfold move_cell, cell_is. destruct o as [x|]; [|intuition congruence].
    destruct (Nat.eqb_spec x cid) as [->|N].
    - split; [intros [= <-]; auto|]. intros [(-> & _)|(Q & [= ->])]; congruence.
    - split; [intros [= <-]; auto|]. intros [(-> & [= ->])|(Q & [= ->])]; congruence. }
  assert (FC : forall g, g < n -> forall c, In c (face_cells cx' g) <->
     (In g pos /\ (c = ncid \/ c <> cid /\ In c (face_cells cx g))) \/ (~ In g pos /\ In c (face_cells cx g))).
  { intros g G c. destruct (nth_error_ex (fdata cx) g) as (x & E); [now rewrite <- L|]. destruct (MV g x E) as (x' & E' & M1 & M2).
    rewrite !face_cells_in. cbn [fdata cx'].
    assert (FRx : fst (cells x) <> Some ncid /\ snd (cells x) <> Some ncid).
    { split; intros Q; apply (FR g), face_cells_in; eauto. }
    destruct (in_dec Nat.eq_dec g pos) as [D|D].
    - rewrite E'. assert (IPg := IP g D). apply face_cells_in in IPg as (x0 & E00 & IPg). assert (x0 = x) by congruence. subst x0.
      split.
      + intros (y & [= <-] & H). left. split; auto. rewrite (M1 D) in H. cbn [fst snd] in H. rewrite (MC _ _ (proj1 FRx)), (MC _ _ (proj2 FRx)) in H.
        destruct H as [[(-> & _)|(Q & R)]|[(-> & _)|(Q & R)]]; auto; right; split; eauto.
      + intros [(_ & H)|(Q & _)]; [|easy]. exists x'. split; auto. rewrite (M1 D). cbn [fst snd]. rewrite (MC _ _ (proj1 FRx)), (MC _ _ (proj2 FRx)).
        destruct H as [->|(Q & x0 & E0 & R)]; [tauto|]. assert (x0 = x) by congruence. subst x0. tauto.
    - rewrite E'. split.
      + intros (y & [= <-] & H). right. split; auto. exists x. rewrite (M2 D) in H. auto.
      + intros [(Q & _)|(_ & x0 & E0 & R)]; [easy|]. assert (x0 = x) by congruence. subst x0. exists x'. rewrite (M2 D). auto. }
  assert (FE : forall c g, g < n -> (c <> cid /\ c <> ncid) \/ (c = cid /\ ~ In g pos) -> face_edges cx' c g = face_edges cx c g).
  { intros c g G H. destruct (nth_error_ex (fdata cx) g) as (x & E); [now rewrite <- L|]. destruct (MV g x E) as (x' & E' & M1 & M2).
    unfold face_edges, cycle_of, first_cell. cbn [fdata cx']. rewrite E, E'. cbn [loops cx']. rewrite app_nth1 by exact G. f_equal.
    destruct (in_dec Nat.eq_dec g pos) as [D|D]; [|now rewrite (M2 D)]. destruct H as [(H1 & H2)|(_ & H)]; [|easy].
    rewrite (M1 D). cbn [fst]. unfold move_cell, cell_is. destruct (fst (cells x)) as [y|]; auto.
    destruct (Nat.eqb_spec y cid) as [->|N]; auto. destruct (Nat.eqb_spec ncid c), (Nat.eqb_spec cid c); congruence. }
  assert (FP : forall g, In g pos -> face_edges cx' ncid g = face_edges cx cid g).
  { intros g D. assert (G := LP g D). destruct (nth_error_ex (fdata cx) g) as (x & E); [now rewrite <- L|]. destruct (MV g x E) as (x' & E' & M1 & M2).
    unfold face_edges, cycle_of, first_cell. cbn [fdata cx']. rewrite E, E'. cbn [loops cx']. rewrite app_nth1 by exact G. f_equal.
    rewrite (M1 D). cbn [fst]. unfold move_cell, cell_is. destruct (fst (cells x)) as [y|] eqn:Ey; auto.
    destruct (Nat.eqb_spec y cid) as [->|N]; [apply Nat.eqb_refl|]. destruct (Nat.eqb_spec y ncid) as [->|]; auto.
    exfalso. apply (FR g), face_cells_in. eauto. }
  assert (FN1 : face_edges cx' ncid n = hes zl).
  { unfold face_edges, cycle_of, first_cell. assert (Q := NL n). rewrite Nat.eqb_refl in Q.
    rewrite (nth_error_nth _ _ [] Q). cbn [fdata cx']. rewrite L, En, Cn. cbn. now rewrite Nat.eqb_refl. }
  assert (FN2 : face_edges cx' cid n = map swap (hes zl)).
  { unfold face_edges, cycle_of, first_cell. assert (Q := NL n). rewrite Nat.eqb_refl in Q.
    rewrite (nth_error_nth _ _ [] Q). cbn [fdata cx']. rewrite L, En, Cn. cbn. destruct (Nat.eqb_spec ncid cid); [congruence|reflexivity]. }
  constructor.
  - cbn [loops fdata cx']. rewrite app_length, LF. cbn. lia.
  - intros g lg E. rewrite NL in E. destruct (Nat.eqb_spec g n); [injection E as <-; auto|now apply (P g)].
  - intros g x E. cbn [fdata cx'] in E. assert (G := nth_error_lt _ _ _ E). rewrite LF in G.
    destruct (Nat.eq_dec g (length (fdata cx))) as [->|N]; [rewrite En in E; injection E as <-; rewrite Cn; eexists; reflexivity|].
    destruct (nth_error_ex (fdata cx) g) as (x0 & E0); [lia|]. destruct (MV g x0 E0) as (x' & E' & M1 & M2). assert (x' = x) by congruence. subst x'.
    destruct (CE g x0 E0) as (a & Ea). destruct (in_dec Nat.eq_dec g pos) as [D|D]; [rewrite (M1 D)|rewrite (M2 D); eauto].
    cbn. rewrite Ea. unfold move_cell. destruct (cell_is _ _); eauto.
  - intros g. destruct (Nat.lt_trichotomy g n) as [G|[->|G]].
    + destruct (nth_error_ex (fdata cx) g) as (x & E); [now rewrite <- L|]. destruct (MV g x E) as (x' & E' & M1 & M2).
      specialize (T g). unfold face_cells in T |- *. cbn [fdata cx']. rewrite E in T. rewrite E'.
      destruct (in_dec Nat.eq_dec g pos) as [D|D]; [|now rewrite (M2 D)]. rewrite (M1 D). cbn [fst snd].
      assert (FRx : fst (cells x) <> Some ncid /\ snd (cells x) <> Some ncid) by (split; intros Q; apply (FR g), face_cells_in; eauto).
      clear -T FRx NC. destruct (cells x) as ([a|], [b|]); cbn in *; unfold move_cell, cell_is; cbn; try (repeat constructor; tauto).
      * inversion T as [|? ? Q R]. destruct FRx as (F1 & F2). destruct (Nat.eqb_spec a cid), (Nat.eqb_spec b cid); repeat constructor; cbn in *; intuition congruence.
      * destruct (Nat.eqb_spec a cid); repeat constructor; cbn; tauto.
      * destruct (Nat.eqb_spec b cid); repeat constructor; cbn; tauto.
    + rewrite FCn. repeat constructor; cbn; intuition congruence.
    + unfold face_cells. rewrite (proj2 (nth_error_None _ _)); [constructor|]. cbn [fdata cx']. lia.
  - intros c g. destruct (Nat.lt_trichotomy g n) as [G|[->|G]].
    + rewrite (FC g G). destruct (Nat.eqb_spec c cid) as [->|N1]; [|destruct (Nat.eqb_spec c ncid) as [->|N2]].
      * rewrite in_app_iff. assert (Q := I cid g). rewrite <- Q. assert (PI : In g (cf cid) <-> In g pos \/ In g neg).
        { rewrite <- in_app_iff. split; apply Permutation_in; auto using Permutation_sym. }
        rewrite PI. specialize (DJ g). cbn. split; [intros [H|[H|[]]]; [|lia]|].
        -- right. split; auto.
        -- intros [(H & [->|(X & _)])|(H & [X|X])]; try tauto; congruence.
      * rewrite in_app_iff. cbn. split; [intros [H|[H|[]]]; [|lia]; left; auto|].
        intros [(H & _)|(H & X)]; auto. exfalso. now apply (FR g).
      * rewrite <- (I c g). destruct (in_dec Nat.eq_dec g pos); intuition congruence.
    + rewrite FCn. destruct (Nat.eqb_spec c cid) as [->|N1]; [|destruct (Nat.eqb_spec c ncid) as [->|N2]].
      * split; [cbn; auto|]. intros _. apply in_or_app. cbn; auto.
      * split; [cbn; auto|]. intros _. apply in_or_app. cbn; auto.
      * split; [|cbn; intuition congruence]. intros H. apply LT in H. lia.
    + split.
      * intros H. exfalso. assert (g <= n); [|lia]. destruct (Nat.eqb_spec c cid) as [->|N1]; [|destruct (Nat.eqb_spec c ncid) as [->|N2]].
        -- apply in_app_or in H as [H|[<-|[]]]; [apply LN in H|]; lia.
        -- apply in_app_or in H as [H|[<-|[]]]; [apply LP in H|]; lia.
        -- apply LT in H. lia.
      * unfold face_cells. rewrite (proj2 (nth_error_None _ _)); [easy|]. cbn [fdata cx']. lia.
  - assert (ND : forall l, NoDup l -> (forall g, In g l -> g < n) -> NoDup (l ++ [n])).
    { intros l N H. apply (Permutation_NoDup (Permutation_cons_append l n)). constructor; auto. intros X. apply H in X. lia. }
    intros c. destruct (Nat.eqb_spec c cid) as [->|N1]; [|destruct (Nat.eqb_spec c ncid) as [->|N2]]; auto.
    + apply ND; auto. clear -NDp. induction pos as [|a r IH]; auto. inversion NDp. auto.
    + apply ND; auto. clear -NDp. induction pos as [|a r IH]; [constructor|]. inversion NDp as [|? ? Q R]. constructor; auto. intros X. apply Q, in_or_app. auto.
  - intros c. destruct (Nat.eqb_spec c cid) as [->|N1]; [|destruct (Nat.eqb_spec c ncid) as [->|N2]].
    + rewrite concat_map_app. cbn [map concat]. rewrite FN2, app_nil_r.
      rewrite (map_ext_in (face_edges cx' cid) (face_edges cx cid)); [|intros g Hg; apply FE; [auto|right; split; auto; intros X; now apply (DJ g)]].
      assert (TB := C cid). apply (balanced_permutation _ _ (perm_concat _ _ (Permutation_map _ PC))) in TB. rewrite concat_map_app in TB.
      clear -TB BZ. intros u v. specialize (TB u v). specialize (BZ u v). unfold times in *. rewrite !count_occ_app in *.
      assert (S : forall E u v, count_occ he_dec (map swap E) (u, v) = count_occ he_dec E (v, u)).
      { clear. induction E as [|(a, b) E IH]; intros u v; auto. cbn [map count_occ]. rewrite IH.
        change (swap (a, b)) with (b, a). destruct (he_dec (b, a) (u, v)), (he_dec (a, b) (v, u)); auto; exfalso; congruence. }
      rewrite !S. lia.
    + rewrite concat_map_app. cbn [map concat]. rewrite FN1, app_nil_r. rewrite (map_ext_in (face_edges cx' ncid) (face_edges cx cid)); auto.
    + rewrite (map_ext_in (face_edges cx' c) (face_edges cx c)); [apply C|]. intros g Hg. apply FE; [now apply (LT c)|auto].
  - intros l u v Hl He. cbn [loops cx'] in Hl. apply in_app_or in Hl as [Hl|[<-|[]]].
    + destruct (BO l u v Hl He) as (l' & H' & E'). exists l'. split; auto. cbn. apply in_or_app. auto.
    + destruct (EZ u v He) as (l' & H' & E'). exists l'. split; auto. cbn. apply in_or_app. auto.
Qed.
