(** PropsCyc.v – property C17: Poly.cyclotomic. *)
From Coq Require Import ZArith List Ring Setoid Morphisms Lia.
From Verif Require Import Base ModelPoly SpecPoly PolyTheory PolyDiv EvalTheory PropsPoly.
From mathcomp Require Import all_ssreflect ssralg ssrint poly polydiv cyclotomic.
From mathcomp Require Import ssrZ.
From Verif Require Import CycBridge.
Import GRing.Theory.
Set Implicit Arguments. Unset Strict Implicit.
Local Open Scope ring_scope.

Lemma cyclotomic_pos n : (0 < n)%coq_nat -> ModelPoly.cyclotomic (Z.of_nat n) = Ok (fromP (Cyclotomic n)).
Proof.
move=> h. rewrite /ModelPoly.cyclotomic. case: Z.leb_spec => h'; first lia.
by rewrite Nat2Z.id cyclotomic_Phi //; apply/ltP; lia.
Qed.
(** The result is mathcomp's n-th cyclotomic polynomial (coefficient by coefficient). *)
Theorem C17_is_cyclotomic n : (0 < n)%coq_nat ->
  exists p, [/\ ModelPoly.cyclotomic (Z.of_nat n) = Ok p, is_poly p &
                forall i, int_of_Z (List.nth i p Z0) = (Cyclotomic n)`_i].
Proof.
move=> h. exists (fromP (Cyclotomic n)). split; first exact: cyclotomic_pos; first exact: (canon_is_poly _ (canon_fromP _)).
move=> i. by rewrite -{2}(toP_fromP (Cyclotomic n)) coef_toP.
Qed.
Local Close Scope ring_scope.



(** Statement without mathcomp: it never raises for n >= 1, and the product of
    cyclotomic(d) over the divisors d of n is x^n - 1. *)
Theorem C17_product (n : nat) : (1 <= n)%coq_nat ->
  exists cs, mapM (fun d => ModelPoly.cyclotomic (Z.of_nat d)) (List.filter (fun d => Nat.eqb (Nat.modulo n d) 0) (List.seq 1 n)) = Ok cs /\
    List.Forall is_poly cs /\
    List.fold_right pmul (poly_make (List.cons (Zpos xH) List.nil)) cs =
    poly_make (List.cons (Zneg xH) (List.app (List.repeat Z0 (Nat.sub n 1)) (List.cons (Zpos xH) List.nil))).
Proof.
move=> h. exists (List.map (fun d => fromP (Cyclotomic d)) (divs n)). split; [|split].
- apply: mapM_ok => d /List.filter_In [/List.in_seq [h1 _] _]. exact: cyclotomic_pos.
- apply/List.Forall_forall => x /List.in_map_iff [d [<- _]]. exact: (canon_is_poly _ (canon_fromP _)).
- have n0 : (0 < n)%N by apply/ltP; lia.
  have E : forall l, toP (List.fold_right pmul (poly_make (List.cons (Zpos xH) List.nil)) (List.map (fun d => fromP (Cyclotomic d)) l)) =
     (\prod_(d <- l) Cyclotomic d)%R.
    elim=> [|d l IH]; first by rewrite big_nil; exact: toP_one.
    rewrite big_cons [List.map _ _]/= [List.fold_right _ _ _]/= toP_mul IH toP_fromP. by [].
  apply: toP_inj; [|exact: pcanon_make|].
  + case: (divs n) => [|d l]; [exact: pcanon_one|exact: pcanon_mul].
  + rewrite E (prod_divs n0). by rewrite -(toP_xn n0).
Qed.
Theorem C17_refuses n : Z.le n Z0 -> ModelPoly.cyclotomic n = Err ValueError.
Proof. move=> h. rewrite /ModelPoly.cyclotomic. case: Z.leb_spec => h' //. lia. Qed.
Example C17_example : ModelPoly.cyclotomic (Zpos (xO (xI xH))) = Ok (List.cons (Zpos xH) (List.cons (Zneg xH) (List.cons (Zpos xH) List.nil))).
Proof. by []. Qed.
