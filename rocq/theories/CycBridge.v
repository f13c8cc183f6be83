(** CycBridge.v – coefficient lists as mathcomp polynomials over int. *)
From Coq Require Import ZArith List Ring Setoid Morphisms Lia.
From Verif Require Import Base ModelPoly SpecPoly PolyTheory PolyDiv EvalTheory.
From mathcomp Require Import all_ssreflect ssralg ssrint poly polydiv cyclotomic.
From mathcomp Require Import ssrZ.
Import GRing.Theory.
Set Implicit Arguments. Unset Strict Implicit.
Local Open Scope ring_scope.

Notation zi := int_of_Z.
Lemma zi_add a b : zi (Z.add a b) = zi a + zi b. Proof. exact: (rmorphD [rmorphism of zi]). Qed.
Lemma zi_mul a b : zi (Z.mul a b) = zi a * zi b. Proof. exact: (rmorphM [rmorphism of zi]). Qed.

Definition phiP (z : Z) : {poly int} := (zi z)%:P.
Definition toP (p : list Z) : {poly int} := evh {poly int} 0 +%R *%R phiP 'X p.

Lemma mcring : ring_theory (0 : {poly int}) 1 +%R *%R (fun a b => a - b) -%R eq.
Proof.
split => //.
- exact: add0r.
- exact: addrC.
- exact: addrA.
- exact: mul1r.
- exact: mulrC.
- exact: mulrA.
- exact: mulrDl.
- exact: addrN.
Qed.
Lemma mcext : ring_eq_ext (+%R : {poly int} -> _) *%R -%R eq.
Proof. by split=> [? ? -> ? ? ->|? ? -> ? ? ->|? ? ->]. Qed.
Lemma phiP0 : phiP Z0 = 0. Proof. by []. Qed.
Lemma phiP1 : phiP (Zpos xH) = 1. Proof. by []. Qed.
Lemma phiPA a b : phiP (Z.add a b) = phiP a + phiP b. Proof. by rewrite /phiP zi_add polyCD. Qed.
Lemma phiPM a b : phiP (Z.mul a b) = phiP a * phiP b. Proof. by rewrite /phiP zi_mul polyCM. Qed.

Lemma toP_mul p q : toP (pmul p q) = toP p * toP q.
Proof. exact: (evh_mul {poly int} 0 1 +%R *%R _ -%R eq _ mcext mcring phiP phiP0 phiPA phiPM). Qed.
Lemma toP_add p q : toP (padd p q) = toP p + toP q.
Proof. exact: (evh_add {poly int} 0 1 +%R *%R _ -%R eq _ mcext mcring phiP phiP0 phiPA). Qed.
Lemma toP_peq p q : peq p q -> toP p = toP q.
Proof. exact: (evh_peq {poly int} 0 1 +%R *%R _ -%R eq _ mcext mcring phiP phiP0). Qed.
Lemma coef_toP p i : (toP p)`_i = zi (pc p i).
Proof.
elim: p i => [|c p IH] i; first by rewrite coef0 /pc; case: i.
rewrite /toP /= -/(toP p) coefD coefC coefXM. case: i => [|i] /=; first by rewrite addr0.
by rewrite add0r IH.
Qed.
Lemma toP_inj p q : pcanon p -> pcanon q -> toP p = toP q -> p = q.
Proof.
move=> hp hq e. apply: pcanon_eq => // i. have: (toP p)`_i = (toP q)`_i by rewrite e.
by rewrite !coef_toP => /(can_inj int_of_ZK).
Qed.
Definition fromP (P : {poly int}) : list Z := [seq Z_of_int c | c <- (P : seq int)].
Lemma toP_fromP P : toP (fromP P) = P.
Proof.
apply/polyP => i. rewrite coef_toP /pc /fromP.
have -> : List.nth i [seq Z_of_int c | c <- (P : seq int)] Z0 = Z_of_int (P`_i).
  move: (P : seq int) i. elim=> [|c s IH] [|i] //=. 
by rewrite Z_of_intK.
Qed.
Lemma canon_fromP P : pcanon (fromP P).
Proof.
rewrite /fromP. case: P => s /= hs. case: (lastP s) hs => [|s' c]; first by move=> _; left.
rewrite last_rcons => nz; right. rewrite map_rcons -cats1 List.last_last => e.
move/eqP: nz; apply. by apply: (can_inj Z_of_intK).
Qed.
Lemma toP_one : toP (List.cons (Zpos xH) List.nil) = 1.
Proof. by apply/polyP => i; rewrite coef_toP coef1 /pc; case: i => [|[|i]]. Qed.
Lemma toP_xn n : (0 < n)%N -> toP (poly_make (List.cons (Zneg xH) (List.app (List.repeat Z0 (n - 1)) (List.cons (Zpos xH) List.nil)))) = 'X^n - 1.
Proof.
case: n => // n _. rewrite subn1 /=. apply/polyP => i. rewrite coef_toP (make_peq _ i) coefB coefXn coef1 /pc.
case: i => [|i] //=. rewrite eqSS subr0.
have -> : List.nth i (List.app (List.repeat Z0 n) (List.cons (Zpos xH) List.nil)) Z0 = (if i == n then (Zpos xH) else Z0).
  elim: n i => [|n IH] [|i] //=; first by case: i.
  by rewrite eqSS; exact: IH.
by case: (i == n).
Qed.
Lemma fromP_toP p : pcanon p -> fromP (toP p) = p.
Proof. by move=> h; apply: toP_inj => //; [exact: canon_fromP | exact: toP_fromP]. Qed.

(** the divisor list of the code is mathcomp's [divisors] *)
Definition divs (n : nat) : list nat := List.filter (fun d => Nat.eqb (Nat.modulo n d) 0) (List.seq 1 n).
Lemma divs_perm n : (0 < n)%N -> perm_eq (divs n) (divisors n).
Proof.
move=> n0. apply: uniq_perm.
- have: List.NoDup (divs n) by apply: List.NoDup_filter; apply: List.seq_NoDup.
  elim => //= x l hx _ ->. rewrite andbT. apply/negP => hin. apply: hx. move: hin. elim: l => //= y l IH. rewrite in_cons => /orP [/eqP ->|/IH]; [by left|by right].
- exact: divisors_uniq.
move=> d. rewrite -dvdn_divisors //.
have -> : (d \in divs n) = List.existsb (Nat.eqb d) (divs n).
  elim: (divs n) => //= y l IH. rewrite in_cons IH.
  have -> // : (d == y) = Nat.eqb d y.
  apply/idP/idP => [/eqP ->|/Nat.eqb_eq ->]; [exact: Nat.eqb_refl | exact: eqxx].
apply/idP/idP.
- move=> /List.existsb_exists [y [/List.filter_In [hy /Nat.eqb_eq hm] /Nat.eqb_eq ->]].
  apply/dvdnP. exists (Nat.div n y). 
  have := Nat.div_mod n y. move/List.in_seq: hy => [hy _]. rewrite hm Nat.add_0_r mulnC. apply. lia.
- move=> /dvdnP [k hk]. apply/List.existsb_exists. exists d; split; last exact: Nat.eqb_refl.
  move/ltP: n0 => n0. have hkz : k <> 0%N by move=> h; rewrite h mul0n in hk; lia.
  have hd : d <> 0%N by move=> h; rewrite h muln0 in hk; lia.
  apply/List.filter_In; split; first by apply/List.in_seq; rewrite hk mulnE; nia.
  apply/Nat.eqb_eq. rewrite hk. exact: Nat.mod_mul.
Qed.
Lemma divs_split n : (0 < n)%N -> divs n = List.app (List.filter (fun d => Nat.eqb (Nat.modulo n d) 0) (List.seq 1 (n - 1))) (List.cons n List.nil).
Proof.
case: n => // n _. rewrite /divs subn1 [(n.+1).-1]/=. rewrite -{2}addn1 List.seq_app List.filter_app. congr List.app.
cbn [List.seq List.filter]. by rewrite Nat.mod_same.
Qed.
Lemma prod_divs n : (0 < n)%N -> \prod_(d <- divs n) Cyclotomic d = 'X^n - 1.
Proof. move=> n0. by rewrite (perm_big _ (divs_perm n0)) prod_Cyclotomic. Qed.

Lemma Phi_ne d : fromP (Cyclotomic d) <> List.nil.
Proof.
move=> h. have := toP_fromP (Cyclotomic d). rewrite h. have -> : toP List.nil = 0 by []. move/esym/eqP.
by rewrite (negbTE (monic_neq0 (Cyclotomic_monic d))).
Qed.
Theorem cyclotomic_Phi fuel n : (0 < n)%N -> (n < fuel)%N -> cyclotomic_fuel fuel n = Ok (fromP (Cyclotomic n)).
Proof.
elim: fuel n => // fuel IH n n0 hf. rewrite [cyclotomic_fuel _ _]/=.
set ds := List.filter _ _.
have hx : poly_make (List.cons (Zneg xH) (List.app (List.repeat Z0 (n - 1)) (List.cons (Zpos xH) List.nil))) = fromP (\prod_(d <- ds) Cyclotomic d * Cyclotomic n).
  apply: toP_inj; [exact: pcanon_make|exact: canon_fromP|].
  rewrite toP_xn // toP_fromP -(prod_divs n0) (divs_split n0) -/ds.
  have -> : forall a b : list nat, List.app a b = a ++ b by [].
  by rewrite big_cat big_seq1.
change (poly_make (List.cons (Zneg xH) _)) with (poly_make (List.cons (Zneg xH) (List.app (List.repeat Z0 (n - 1)) (List.cons (Zpos xH) List.nil)))).
rewrite hx.
have hin : forall d, List.In d ds -> (0 < d)%N /\ (d < n)%N.
  move=> d /List.filter_In [/List.in_seq [h1 h2] _]. split; apply/ltP; first lia. 
  have /ltP h0 := n0. lia.
clear hx. elim: ds hin => [|d ds IHd] hin; first by rewrite big_nil mul1r.
cbn [foldM]. have [d0 dn] := hin d (or_introl erefl). rewrite IH //; last by apply: leq_trans dn _.
cbn [bind]. rewrite (@pdivmod_complete _ _ (fromP (\prod_(d0 <- ds) Cyclotomic d0 * Cyclotomic n)) List.nil).
- cbn. apply: IHd => e he. by apply: hin; right.
- exact: canon_fromP.
- exact: canon_fromP.
- exact: Phi_ne.
- exact: canon_fromP.
- exact: pcanon_nil.
- have := @Phi_ne d. case: (fromP _) => //= a l _. lia.
- apply: toP_inj; [exact: canon_fromP|exact: pcanon_add|]. rewrite toP_add toP_mul !toP_fromP big_cons addr0. by rewrite mulrA.
Qed.
