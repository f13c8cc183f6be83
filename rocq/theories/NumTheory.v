(** NumTheory.v – Python numbers (int or LPoly) as a commutative ring. *)
From Verif Require Import Base ModelPoly SpecPoly PolyTheory.
From Coq Require Import Ring Setoid Morphisms.
Local Open Scope Z_scope.

(** mathematical equality: an int counts as a constant polynomial.  (Python's
    [==] is finer: it never identifies an int with an LPoly.) *)
Definition neq (x y : num) : Prop := leq (coerce x) (coerce y).
#[global] Instance neq_equiv : Equivalence neq.
Proof. split; [intros x; unfold neq; reflexivity|intros x y H; unfold neq in *; now symmetry|intros x y z H K; unfold neq in *; now rewrite H]. Qed.
Lemma coerce_add x y : leq (coerce (nadd x y)) (ladd (coerce x) (coerce y)).
Proof. apply leq_L. intros g. destruct x, y; cbn [nadd coerce]; rewrite ?L_addi, ?L_add, ?L_int; lia. Qed.
Lemma coerce_mul x y : leq (coerce (nmul x y)) (lmul (coerce x) (coerce y)).
Proof.
  apply leq_L. intros g. destruct x as [a|p], y as [b|q]; cbn [nmul coerce]; rewrite ?L_muli, ?L_mul, ?L_int.
  - cbn [Z.add]; rewrite ?Z.add_0_r; lia.
  - rewrite (L_ext q (fun f => g (0 + f)) g) by reflexivity. lia.
  - rewrite (L_ext p (fun e => L (lint b) (fun f => g (e + f))) (fun e => b * g e)) by (intros e; now rewrite L_int, Z.add_0_r). unfold L. rewrite lin_scaleg. lia.
  - reflexivity.
Qed.
Lemma coerce_neg x : leq (coerce (nneg x)) (lneg (coerce x)).
Proof. apply leq_L. intros g. destruct x; cbn [nneg coerce]; rewrite ?L_neg, ?L_int; lia. Qed.
Lemma coerce_sub x y : leq (coerce (nsub x y)) (lsub (coerce x) (coerce y)).
Proof.
  apply leq_L. intros g. destruct x, y; cbn [nsub coerce]; unfold lsubi, lrsubi; rewrite ?L_addi, ?L_sub, ?L_neg, ?L_int; lia.
Qed.
Lemma nring_ext : ring_eq_ext nadd nmul nneg neq.
Proof.
  split; intros x x' H; [intros y y' K|intros y y' K|]; unfold neq in *.
  - now rewrite !coerce_add, H, K.
  - now rewrite !coerce_mul, H, K.
  - now rewrite !coerce_neg, H.
Qed.
Lemma nring : ring_theory (NI 0) (NI 1) nadd nmul nsub nneg neq.
Proof.
  split; intros; unfold neq; rewrite ?coerce_add, ?coerce_sub, ?coerce_mul, ?coerce_neg, ?coerce_add, ?coerce_mul; cbn [coerce]; ring.
Qed.
(** on LPoly objects mathematical equality is object equality *)
Lemma neq_L p q : lcanon p -> lcanon q -> neq (NL p) (NL q) -> NL p = NL q.
Proof. intros Hp Hq H. f_equal. now apply canon_eq. Qed.
Lemma neqb_neq x y : neqb x y = true -> neq x y.
Proof. destruct x, y; cbn; try discriminate; [rewrite Z.eqb_eq|rewrite leqb_eq]; intros ->; reflexivity. Qed.
Lemma neqb_refl x : neqb x x = true.
Proof. destruct x; cbn; [apply Z.eqb_refl|now apply leqb_eq]. Qed.
Definition ncanon (x : num) : Prop := match x with NI _ => True | NL p => lcanon p end.
