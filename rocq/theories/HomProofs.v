(** The generic formulas commute with maps between number types that respect
    the three operations. *)
From Coq Require Import List.
From Verif Require Import GenericFormulas.
Import ListNotations.

Section Hom.
Context {T U : Type} (O : num_ops T) (O' : num_ops U) (h : T -> U).
Hypothesis Ha : forall a b, h (nadd O a b) = nadd O' (h a) (h b).
Hypothesis Hs : forall a b, h (nsub O a b) = nsub O' (h a) (h b).
Hypothesis Hm : forall a b, h (nmul O a b) = nmul O' (h a) (h b).

Definition cmap (c : cache T) : cache U := Cache (h (lx c)) (h (ly c)) (h (lz c)) (h (ld c)).
Definition kmap (r : T * list T) : U * list U := (h (fst r), map h (snd r)).

Ltac hom := cbv zeta; unfold cmap, kmap; cbn [fst snd map lx ly lz ld];
  rewrite ?Ha, ?Hs, ?Hm, ?Ha, ?Hs, ?Hm, ?Ha, ?Hs, ?Hm, ?Ha, ?Hs, ?Hm, ?Ha, ?Hs, ?Hm; reflexivity.
Lemma lpi_hom a1 a2 a3 b1 b2 b3 c1 c2 c3 d1 d2 d3 e1 e2 e3 :
  let r := lpi_lambda O a1 a2 a3 b1 b2 b3 c1 c2 c3 d1 d2 d3 e1 e2 e3 in
  lpi_lambda O' (h a1) (h a2) (h a3) (h b1) (h b2) (h b3) (h c1) (h c2) (h c3)
    (h d1) (h d2) (h d3) (h e1) (h e2) (h e3) = (cmap (fst r), map h (snd r)).
Proof. unfold lpi_lambda. hom. Qed.
Lemma tpi_hom a1 a2 a3 b1 b2 b3 c1 c2 c3 d1 d2 d3 e1 e2 e3 f1 f2 f3 g1 g2 g3 h1 h2 h3 i1 i2 i3 :
  let r := tpi_lambda O a1 a2 a3 b1 b2 b3 c1 c2 c3 d1 d2 d3 e1 e2 e3 f1 f2 f3 g1 g2 g3 h1 h2 h3 i1 i2 i3 in
  tpi_lambda O' (h a1) (h a2) (h a3) (h b1) (h b2) (h b3) (h c1) (h c2) (h c3)
    (h d1) (h d2) (h d3) (h e1) (h e2) (h e3) (h f1) (h f2) (h f3) (h g1) (h g2) (h g3)
    (h h1) (h h2) (h h3) (h i1) (h i2) (h i3) = (cmap (fst r), map h (snd r)).
Proof. unfold tpi_lambda. hom. Qed.
Lemma ieee_hom a1 a2 a3 a4 b1 b2 b3 c1 c2 c3 d1 d2 d3 :
  orient3d_ieee_impl O' (h a1) (h a2) (h a3) (h a4) (h b1) (h b2) (h b3) (h c1) (h c2) (h c3) (h d1) (h d2) (h d3)
  = kmap (orient3d_ieee_impl O a1 a2 a3 a4 b1 b2 b3 c1 c2 c3 d1 d2 d3).
Proof. unfold orient3d_ieee_impl. hom. Qed.
Lemma iiee_hom a1 a2 a3 a4 b1 b2 b3 b4 c1 c2 c3 d1 d2 d3 :
  orient3d_iiee_impl O' (h a1) (h a2) (h a3) (h a4) (h b1) (h b2) (h b3) (h b4) (h c1) (h c2) (h c3) (h d1) (h d2) (h d3)
  = kmap (orient3d_iiee_impl O a1 a2 a3 a4 b1 b2 b3 b4 c1 c2 c3 d1 d2 d3).
Proof. unfold orient3d_iiee_impl. hom. Qed.
Lemma iiie_hom a1 a2 a3 a4 b1 b2 b3 b4 c1 c2 c3 c4 d1 d2 d3 :
  orient3d_iiie_impl O' (h a1) (h a2) (h a3) (h a4) (h b1) (h b2) (h b3) (h b4) (h c1) (h c2) (h c3) (h c4) (h d1) (h d2) (h d3)
  = kmap (orient3d_iiie_impl O a1 a2 a3 a4 b1 b2 b3 b4 c1 c2 c3 c4 d1 d2 d3).
Proof. unfold orient3d_iiie_impl. hom. Qed.
Lemma iiii_hom a1 a2 a3 a4 b1 b2 b3 b4 c1 c2 c3 c4 d1 d2 d3 d4 :
  orient3d_iiii_impl O' (h a1) (h a2) (h a3) (h a4) (h b1) (h b2) (h b3) (h b4) (h c1) (h c2) (h c3) (h c4) (h d1) (h d2) (h d3) (h d4)
  = h (orient3d_iiii_impl O a1 a2 a3 a4 b1 b2 b3 b4 c1 c2 c3 c4 d1 d2 d3 d4).
Proof. unfold orient3d_iiii_impl. hom. Qed.
Lemma iee_hom a1 a2 a3 b1 b2 c1 c2 :
  orient2d_iee_impl O' (h a1) (h a2) (h a3) (h b1) (h b2) (h c1) (h c2)
  = kmap (orient2d_iee_impl O a1 a2 a3 b1 b2 c1 c2).
Proof. unfold orient2d_iee_impl. hom. Qed.
Lemma iie_hom a1 a2 a3 b1 b2 b3 c1 c2 :
  orient2d_iie_impl O' (h a1) (h a2) (h a3) (h b1) (h b2) (h b3) (h c1) (h c2)
  = kmap (orient2d_iie_impl O a1 a2 a3 b1 b2 b3 c1 c2).
Proof. unfold orient2d_iie_impl. hom. Qed.
Lemma iii_hom a1 a2 a3 b1 b2 b3 c1 c2 c3 :
  orient2d_iii_impl O' (h a1) (h a2) (h a3) (h b1) (h b2) (h b3) (h c1) (h c2) (h c3)
  = h (orient2d_iii_impl O a1 a2 a3 b1 b2 b3 c1 c2 c3).
Proof. unfold orient2d_iii_impl. hom. Qed.
Lemma ie_hom a1 a2 b1 : less_than_ie_impl O' (h a1) (h a2) (h b1) = h (less_than_ie_impl O a1 a2 b1).
Proof. unfold less_than_ie_impl. hom. Qed.
Lemma ii_hom a1 a2 b1 b2 : less_than_ii_impl O' (h a1) (h a2) (h b1) (h b2) = h (less_than_ii_impl O a1 a2 b1 b2).
Proof. unfold less_than_ii_impl. hom. Qed.
Lemma tri_hom a1 a2 a3 b1 b2 b3 c1 c2 c3 :
  let r := max_comp_in_tri_normal_impl O a1 a2 a3 b1 b2 b3 c1 c2 c3 in
  max_comp_in_tri_normal_impl O' (h a1) (h a2) (h a3) (h b1) (h b2) (h b3) (h c1) (h c2) (h c3)
  = ((h (fst (fst (fst r))), h (snd (fst (fst r))), h (snd (fst r))), map h (snd r)).
Proof. unfold max_comp_in_tri_normal_impl. hom. Qed.
End Hom.
