(** CosCode.v – Poly.minpolycos (poly.py:190-211) computes the polynomials [Psi]
    of CosTheory.v; facts about them on coefficient lists. *)
From Coq Require Import ZArith List Ring Setoid Morphisms Lia.
From Verif Require Import Base ModelPoly SpecPoly PolyTheory PolyDiv EvalTheory PropsCheb.
From mathcomp Require Import all_ssreflect ssralg ssrint poly polydiv.
From mathcomp Require Import ssrZ.
From Verif Require Import CycBridge CosTheory.
Import GRing.Theory.
Set Implicit Arguments. Unset Strict Implicit.
Local Open Scope ring_scope.
Local Notation two := (Zpos (xO xH)).
Local Notation x2 := (poly_make (List.cons Z0 (List.cons two List.nil))).
Local Notation X2 := (2%:R *: 'X : {poly int}).

Lemma toP_sub p q : toP (psub p q) = toP p - toP q.
Proof. exact: (evh_sub {poly int} 0 1 +%R *%R (fun a b => a - b) -%R eq _ mcext mcring phiP phiP0 phiPA). Qed.
Lemma toP_const c : toP (pconst c) = (zi c)%:P.
Proof. by rewrite (toP_peq (pconst_peq c)) /toP /= mulr0 addr0. Qed.
Lemma toP_muli p c : toP (pmuli p c) = (zi c)%:P * toP p.
Proof. by rewrite (toP_peq (pmuli_const p c)) toP_mul toP_const. Qed.
Lemma toP_x2 : toP x2 = X2.
Proof. by apply/polyP => i; rewrite coef_toP coefZ coefX; case: i => [|[|[|i]]]. Qed.
Lemma toP_comp x p : toP (evP x p) = toP p \Po toP x.
Proof.
elim: p => [|c p IH]; first by rewrite /toP /= comp_poly0.
rewrite -[evP x (List.cons c p)]/(padd (pconst c) (pmul x (evP x p))) toP_add toP_mul IH toP_const.
rewrite -[toP (List.cons c p)]/((zi c)%:P + 'X * toP p). by rewrite comp_polyD comp_polyC comp_polyM comp_polyX.
Qed.
Lemma coef_X2 (P : {poly int}) i : (P \Po X2)`_i = 2%:R ^+ i * P`_i.
Proof.
elim/poly_ind: P i => [|p c IH] i; first by rewrite comp_poly0 !coef0 mulr0.
rewrite comp_poly_MXaddC coefD coefC -scalerAr coefZ coefMX coefD coefMX coefC.
case: i => [|i] /=; first by rewrite mulr0 !add0r mul1r.
by rewrite !addr0 IH exprS mulrA.
Qed.
(** 2 T_k(x) = C_k(2x) *)
Lemma cheb_ck k : (2%:R)%:P * toP (cheb k) = ck k \Po X2.
Proof.
suff [] : (2%:R)%:P * toP (cheb k) = ck k \Po X2 /\ (2%:R)%:P * toP (cheb k.+1) = ck k.+1 \Po X2 by [].
elim: k => [|k [IH1 IH2]].
  split.
    rewrite -[ck 0]/(2%:R%:P) comp_polyC. have -> : toP (cheb 0) = 1 by exact: toP_one. by rewrite mulr1.
  rewrite -[ck 1]/'X comp_polyX. have -> : toP (cheb 1) = 'X; last by rewrite mul_polyC.
  by apply/polyP => i; rewrite coef_toP coefX; case: i => [|[|[|i]]].
split=> //. rewrite cheb_SS toP_sub toP_mul mulrBr mulrCA IH1 IH2 toP_x2.
by rewrite ckSS comp_polyB comp_polyM comp_polyX.
Qed.
(** the polynomial of poly.py:204-205 *)
Definition cheb_diff (n : nat) : list Z := pmuli (psub (cheb (Nat.add (Nat.div n 2) 1)) (cheb (if Nat.eqb (Nat.modulo n 2) 1 then Nat.div n 2 else Nat.sub (Nat.div n 2) 1))) two.
Lemma div2 n : Nat.div n 2 = n./2.
Proof. rewrite -Nat.div2_div. elim/ltn_ind: n => -[|[|n]] IH //=. by rewrite IH. Qed.
Lemma mod2 n : Nat.eqb (Nat.modulo n 2) 1 = odd n.
Proof.
rewrite -Nat.bit0_mod Nat.bit0_odd. have -> : Nat.odd n = odd n; last by case: odd.
elim/ltn_ind: n => -[|[|n]] IH //. rewrite [odd _]/= negbK -IH //.
Qed.
Lemma cheb_diff_fn n : toP (cheb_diff n) = fn n \Po X2.
Proof.
have h2 : zi two = 2%:R :> int by [].
rewrite /cheb_diff toP_muli toP_sub mulrBr div2 mod2 h2 !cheb_ck /fn comp_polyB.
have -> : Nat.add n./2 1 = (n./2).+1 by rewrite -[Nat.add _ _]/(n./2 + 1)%N addn1.
by rewrite /sp; case: (odd n) => //; rewrite -[Nat.sub _ _]/(n./2 - 1)%N subn1.
Qed.

Definition PsiZ (n : nat) : list Z := fromP (Psi n).
Lemma PsiZ_canon n : pcanon (PsiZ n). Proof. exact: canon_fromP. Qed.
Lemma fromP_ne (P : {poly int}) : P != 0 -> fromP P <> List.nil.
Proof. move=> h e. have := toP_fromP P. rewrite e. have -> : toP List.nil = 0 by []. by move=> e'; rewrite -e' eqxx in h. Qed.
Lemma last_fromP (P : {poly int}) : List.last (fromP P) Z0 = Z_of_int (lead_coef P).
Proof.
have L (s : seq int) : List.last [seq Z_of_int c | c <- s] Z0 = Z_of_int (last 0 s).
  case: s => [|x s] //. elim: s x => [|y s IH] x //=. exact: IH.
by rewrite /fromP L lead_coefE -nth_last.
Qed.
Lemma PsiZ_monic n : (0 < n)%N -> List.last (PsiZ n) Z0 = Zpos xH.
Proof. move=> n0. by rewrite last_fromP (monicP (Psi_monic n0)). Qed.
Lemma PsiX2_ne n : (0 < n)%N -> Psi n \Po X2 != 0.
Proof.
move=> n0. apply/eqP => /polyP /(_ (size (Psi n)).-1). rewrite coef_X2 coef0 -lead_coefE (monicP (Psi_monic n0)) mulr1 => /eqP.
by rewrite expf_eq0 andbF.
Qed.
Lemma pc_scaled l : forall i s, pc (List.map (fun '(j, c) => Z.div c (Z.pow two j)) (enumerate s l)) i = Z.div (pc l i) (Z.pow two (Z.add s (Z.of_nat i))).
Proof.
elim: l => [|c l IH] i s; first by rewrite /pc; case: i.
case: i => [|i]; first by rewrite /pc /= Z.add_0_r.
rewrite -[pc _ i.+1]/(pc (List.map (fun '(j, c) => Z.div c (Z.pow two j)) (enumerate (Z.add s (Zpos xH)) l)) i) IH.
rewrite -[pc (List.cons c l) i.+1]/(pc l i). do 2 f_equal. lia.
Qed.
Lemma zi_pow i : zi (Z.pow two (Z.of_nat i)) = 2%:R ^+ i.
Proof. elim: i => [|i IH] //. rewrite Nat2Z.inj_succ Z.pow_succ_r; last lia. by rewrite zi_mul IH exprS. Qed.
Lemma unscale (P : {poly int}) : poly_make (List.map (fun '(i, c) => Z.div c (Z.pow two i)) (enumerate Z0 (fromP (P \Po X2)))) = fromP P.
Proof.
apply: pcanon_eq; [exact: pcanon_make|exact: canon_fromP|]. move=> i. rewrite make_peq pc_scaled Z.add_0_l.
apply: (can_inj int_of_ZK). rewrite -coef_toP toP_fromP.
have e : pc (fromP (P \Po X2)) i = Z.mul (Z_of_int P`_i) (Z.pow two (Z.of_nat i)).
  apply: (can_inj int_of_ZK). rewrite -coef_toP toP_fromP coef_X2 zi_mul zi_pow Z_of_intK. exact: mulrC.
rewrite e Z.div_mul ?Z_of_intK //. have := Z.pow_pos_nonneg two (Z.of_nat i). lia.
Qed.
Theorem minpolycos_Psi fuel n : (0 < n)%N -> (n < fuel)%N -> minpolycos_fuel fuel n = Ok (PsiZ n).
Proof.
elim: fuel n => // fuel IH n n0 hf. cbn [minpolycos_fuel].
have -> : chebyshevT (Z.add (Z.of_nat (Nat.div n 2)) (Zpos xH)) = Ok (cheb (Nat.add (Nat.div n 2) 1)).
  rewrite /chebyshevT. case: Z.ltb_spec => h; first lia. by do 2 f_equal; lia.
have -> : chebyshevT (if Nat.eqb (Nat.modulo n 2) 1 then Z.of_nat (Nat.div n 2) else Z.sub (Z.of_nat (Nat.div n 2)) (Zpos xH)) =
   Ok (cheb (if Nat.eqb (Nat.modulo n 2) 1 then Nat.div n 2 else Nat.sub (Nat.div n 2) 1)).
  have hh : n = Nat.add (Nat.mul 2 (Nat.div n 2)) (Nat.modulo n 2) by apply: Nat.div_mod.
  have hu : (Nat.modulo n 2 < 2)%coq_nat by apply: Nat.mod_upper_bound.
  have hn : ~ n = O by move=> e; rewrite e in n0.
  rewrite /chebyshevT. case: Nat.eqb_spec => ho; case: Z.ltb_spec => h; do ?lia; do 2 f_equal; lia.
cbn [bind]. change (pmuli _ _) with (cheb_diff n). set ds := List.filter _ _.
have hx : cheb_diff n = fromP ((\prod_(d <- ds) Psi d * Psi n) \Po X2).
  apply: toP_inj; [exact: pcanon_make|exact: canon_fromP|].
  rewrite cheb_diff_fn toP_fromP fn_Psi // -(perm_big _ (divs_perm n0)) (divs_split n0) -/ds /=.
  have -> : forall a b : list nat, List.app a b = a ++ b by [].
  by rewrite big_cat big_seq1.
rewrite hx.
have hin : forall d, List.In d ds -> (0 < d)%N /\ (d < n)%N.
  move=> d /List.filter_In [/List.in_seq [h1 h2] _]. split; apply/ltP; first lia.
  have /ltP h0 := n0. lia.
suff -> : foldM (fun p d => bind (minpolycos_fuel fuel d) (fun m => bind (peval_poly m x2) (fun e => ModelPoly.pdiv p e))) ds (fromP ((\prod_(d <- ds) Psi d * Psi n) \Po X2)) = Ok (fromP (Psi n \Po X2)).
  by cbn [bind]; rewrite unscale.
clear hx. elim: ds hin => [|d ds IHd] hin; first by rewrite big_nil mul1r.
cbn [foldM]. have [d0 dn] := hin d (or_introl erefl). rewrite IH //; last by apply: leq_trans dn _.
cbn [bind]. have [r [-> [cr er]]] := peval_poly_ev (PsiZ d) _ (pcanon_make (List.cons Z0 (List.cons two List.nil))). cbn [bind].
have tr : toP r = Psi d \Po X2 by rewrite (toP_peq er) toP_comp toP_fromP toP_x2.
have re : r = fromP (Psi d \Po X2) by apply: toP_inj => //; [exact: canon_fromP|rewrite toP_fromP].
rewrite {1}/ModelPoly.pdiv (@pdivmod_complete _ _ (fromP ((\prod_(d0 <- ds) Psi d0 * Psi n) \Po X2)) List.nil).
- cbn. apply: IHd => e he. by apply: hin; right.
- exact: canon_fromP.
- exact: cr.
- rewrite re. exact: fromP_ne (PsiX2_ne d0).
- exact: canon_fromP.
- exact: pcanon_nil.
- have := fromP_ne (PsiX2_ne d0). rewrite -re. case: (r) => //= a l _. lia.
- apply: toP_inj; [exact: canon_fromP|exact: pcanon_add|]. rewrite toP_add toP_mul !toP_fromP tr big_cons addr0.
  by rewrite -comp_polyM mulrA.
Qed.
(** the code's first polynomial is the product over all divisors *)
Theorem cheb_diff_prod n : (0 < n)%N ->
  peq (cheb_diff n) (List.fold_right pmul (List.cons (Zpos xH) List.nil) (List.map (fun d => evP x2 (PsiZ d)) (divs n))).
Proof.
move=> n0 i. have E l : toP (List.fold_right pmul (List.cons (Zpos xH) List.nil) (List.map (fun d => evP x2 (PsiZ d)) l)) = (\prod_(d <- l) Psi d) \Po X2.
  elim: l => [|d l IH]; first by rewrite big_nil comp_polyC; exact: toP_one.
  rewrite big_cons comp_polyM -IH [List.map _ _]/= [List.fold_right _ _ _]/= toP_mul toP_comp toP_fromP toP_x2. by [].
apply: (can_inj int_of_ZK). rewrite -!coef_toP E cheb_diff_fn fn_Psi //. by rewrite (perm_big _ (divs_perm n0)).
Qed.
Theorem PsiZ_alt n (q : list Z) : (0 < n)%N ->
  (exists u, peq q (pmul (PsiZ n) u)) \/
  exists u v (c : Z), c <> Z0 /\ peq (padd (pmul u (PsiZ n)) (pmul v q)) (List.cons c List.nil).
Proof.
move=> n0. have I p r : toP p = toP r -> peq p r.
  move=> e i. apply: (can_inj int_of_ZK). by rewrite -!coef_toP e.
case: (Psi_alt (toP q) n0) => [[u e]|[u [v [c [c0 e]]]]]; [left|right].
- exists (fromP u). apply: I. by rewrite toP_mul !toP_fromP.
- exists (fromP u), (fromP v), (Z_of_int c). split.
    move=> h. move/eqP: c0; apply. by apply: (can_inj Z_of_intK).
  apply: I. rewrite toP_add !toP_mul !toP_fromP e. rewrite /toP /= mulr0 addr0 /phiP. by rewrite Z_of_intK.
Qed.
