(** PropsPoly.v – properties C12 to C19 and C22: LPoly and Poly arithmetic. *)
From Verif Require Import Base ModelPoly SpecPoly PolyTheory PolyDiv EvalTheory.
From Coq Require Import Ring Setoid Morphisms.
Local Open Scope Z_scope.

(** An LPoly object: something a constructor call returned.  (Every operation
    of the class ends in a constructor call or returns an operand.) *)
Definition is_lpoly (p : lpoly) : Prop := exists v cs, p = lpoly_make v cs.
Definition is_poly (p : poly) : Prop := exists cs, p = poly_make cs.
Lemma is_lpoly_canon p : is_lpoly p -> lcanon p.
Proof. intros [v [cs ->]]. apply canon_make. Qed.
Lemma is_poly_canon p : is_poly p -> pcanon p.
Proof. intros [cs ->]. apply pcanon_make. Qed.
Lemma canon_is_lpoly p : lcanon p -> is_lpoly p.
Proof.
  intros H. exists (lval p), (lcoeffs p). apply canon_eq; [exact H|apply canon_make|].
  apply leq_L. intros g. rewrite L_make. reflexivity.
Qed.
Lemma canon_is_poly p : pcanon p -> is_poly p.
Proof. intros H. exists p. symmetry. now apply make_canon. Qed.
#[local] Hint Resolve is_lpoly_canon is_poly_canon canon_make canon_add canon_mul canon_neg canon_int canon_muli : lc.
Lemma canon_sub p q : lcanon (lsub p q). Proof. apply canon_make. Qed.
Lemma canon_addi p c : lcanon (laddi p c). Proof. apply canon_make. Qed.
#[local] Hint Resolve canon_sub canon_addi : lc.
Ltac leqtac := apply canon_eq; auto with lc; try ring.

(** ** C12 *)
(** [LPoly(v, cs)] represents sum_i cs[i] v^(v+i) ... *)
Theorem C12_represents v cs k :
  coeff_at (lval (lpoly_make v cs)) (lcoeffs (lpoly_make v cs)) k = coeff_at v cs k.
Proof. change (coef (lpoly_make v cs) k = coeff_at v cs k). rewrite coef_L, L_make. apply delta_lin. Qed.
(** ... in trimmed form ... *)
Theorem C12_canonical p : is_lpoly p ->
  (lval p = 0 /\ lcoeffs p = []) \/ (lcoeffs p <> [] /\ hd 0 (lcoeffs p) <> 0 /\ last (lcoeffs p) 0 <> 0).
Proof.
  intros H. destruct (is_lpoly_canon p H) as [A B]. destruct (lcoeffs p) as [|c l] eqn:E; [left; auto|right].
  split; [discriminate|]. apply B. discriminate.
Qed.
(** ... and [==] decides equality of coefficient functions. *)
Theorem C12_equality v cs w ds :
  leqb (lpoly_make v cs) (lpoly_make w ds) = true <-> forall k, coeff_at v cs k = coeff_at w ds k.
Proof.
  rewrite leqb_eq. split.
  - intros E k. rewrite <- (C12_represents v cs k), <- (C12_represents w ds k). now rewrite E.
  - intros H. apply canon_eq; auto with lc. intros k. unfold coef. rewrite !C12_represents. apply H.
Qed.
Example C12_example : lpoly_make (-2) [0; 0; 3; 0; -1; 0] = mkL 0 [3; 0; -1] /\ lpoly_make 7 [0; 0] = mkL 0 []
  /\ is_lpoly (mkL 0 [3; 0; -1]).
Proof. repeat split. exists 0, [3; 0; -1]. reflexivity. Qed.

(** The empty range and the degree/valuation/is_zero/is_unit queries. *)
Theorem C12_queries p : is_lpoly p ->
  (lis_zero p = true <-> forall k, coef p k = 0) /\
  (lis_zero p = false ->
     coef p (lval p) <> 0 /\ coef p (ldegree p) <> 0 /\ forall k, coef p k <> 0 -> lval p <= k <= ldegree p).
Proof.
  intros H. pose proof (C12_canonical p H) as C. unfold lis_zero, ldegree, coef.
  destruct p as [v cs]. cbn [lval lcoeffs] in *. destruct C as [[-> ->]|[N [A B]]].
  - split; [|discriminate]. split; [|reflexivity]. intros _ k. unfold coeff_at. destruct (k <? 0); [reflexivity|]. now destruct (Z.to_nat _).
  - assert (D : (match cs with [] => true | _ => false end) = false) by now destruct cs.
    rewrite D. split; [split; [discriminate|]|].
    + intros K. specialize (K v). rewrite coeff_at_hd in K by exact N. contradiction.
    + intros _. rewrite coeff_at_hd, coeff_at_last by exact N. split; [exact A|]. split; [exact B|].
      intros k Hk. destruct (Z.lt_ge_cases k v); [rewrite coeff_at_below in Hk by lia; contradiction|].
      destruct (Z.lt_ge_cases (v + Z.of_nat (length cs) - 1) k); [rewrite coeff_at_above in Hk by lia; contradiction|lia].
Qed.

(** ** C13 *)
(** coefficients of the results *)
Theorem C13_add_coefficients p q k : coef (ladd p q) k = coef p k + coef q k.
Proof. rewrite !coef_L. apply L_add. Qed.
Theorem C13_sub_coefficients p q k : coef (lsub p q) k = coef p k - coef q k.
Proof. rewrite !coef_L. apply L_sub. Qed.
Theorem C13_neg_coefficients p k : coef (lneg p) k = - coef p k.
Proof. rewrite !coef_L. apply L_neg. Qed.
(** the product is the convolution: the sum over any window of exponents
    containing those of [p] *)
Theorem C13_mul_coefficients p q k w n :
  w <= lval p -> lval p + Z.of_nat (length (lcoeffs p)) <= w + Z.of_nat n ->
  coef (lmul p q) k = zsum n (fun i => coef p (w + Z.of_nat i) * coef q (k - (w + Z.of_nat i))).
Proof.
  intros H1 H2. rewrite coef_L, L_mul. unfold L at 1. rewrite (lin_of_coeff _ _ _ w n H1 H2).
  clear H1 H2. induction n as [|n IH]; cbn [zsum]; [reflexivity|]. rewrite IH. f_equal. f_equal.
  rewrite coef_L. apply L_ext. intros e. unfold delta.
  destruct (Z.eqb_spec (w + Z.of_nat n + e) k), (Z.eqb_spec e (k - (w + Z.of_nat n))); lia.
Qed.
(** int operands, on either side, behave as the constant polynomial *)
Theorem C13_int_operands p c : is_lpoly p ->
  laddi p c = ladd p (lint c) /\ lsubi p c = lsub p (lint c) /\ lrsubi p c = lsub (lint c) p /\ lmuli p c = lmul p (lint c) /\
  (forall k, coef (lint c) k = if k =? 0 then c else 0).
Proof.
  intros _. repeat split; try reflexivity.
  - apply canon_eq; try apply canon_make. apply leq_L. intros g. unfold lsubi. rewrite L_addi, L_sub, L_int. lia.
  - apply canon_eq; try apply canon_make. apply leq_L. intros g. unfold lrsubi. rewrite L_addi, L_neg, L_sub, L_int. lia.
  - apply canon_eq; try apply canon_make. apply leq_L. intros g. rewrite L_muli, L_mul.
    rewrite (L_ext p (fun e => L (lint c) (fun f => g (e + f))) (fun e => c * g e)) by (intros e; now rewrite L_int, Z.add_0_r). unfold L. rewrite lin_scaleg. lia.
  - intros k. rewrite coef_L, L_int. unfold delta. destruct (Z.eqb_spec 0 k), (Z.eqb_spec k 0); lia.
Qed.
(** the commutative ring laws, as equalities of objects *)
Theorem C13_ring p q r : is_lpoly p -> is_lpoly q -> is_lpoly r ->
  ladd p q = ladd q p /\ ladd (ladd p q) r = ladd p (ladd q r) /\ ladd p (lint 0) = p /\ ladd p (lneg p) = lint 0 /\
  lsub p q = ladd p (lneg q) /\
  lmul p q = lmul q p /\ lmul (lmul p q) r = lmul p (lmul q r) /\ lmul p (lint 1) = p /\
  lmul p (ladd q r) = ladd (lmul p q) (lmul p r) /\ lmul p (lint 0) = lint 0.
Proof. intros Hp Hq Hr. repeat split; leqtac. Qed.
(** no zero divisors *)
Lemma pc0_mul a p b q : pc (pmul (a :: p) (b :: q)) 0 = a * b.
Proof.
  rewrite (pmul_cons a p (b :: q) O). rewrite pc_add, pc_delta, P_muli, <- pc_delta. cbn. lia.
Qed.
Lemma hd_pc p : hd 0 p = pc p 0. Proof. now destruct p. Qed.
Lemma lmul_nonzero p q : lcanon p -> lcanon q -> lcoeffs p <> [] -> lcoeffs q <> [] ->
  lmul p q = mkL (lval p + lval q) (pmul (lcoeffs p) (lcoeffs q)).
Proof.
  intros [_ Cp] [_ Cq] Np Nq. destruct (Cp Np) as [Hp Lp], (Cq Nq) as [Hq Lq].
  assert (Pp : pcanon (lcoeffs p)) by now right. assert (Pq : pcanon (lcoeffs q)) by now right.
  assert (N : pmul (lcoeffs p) (lcoeffs q) <> []).
  { intros E. apply pmul_zero in E; tauto. }
  apply canon_eq; [apply canon_make| |].
  - split; [intros E; contradiction|]. intros _. cbn [lcoeffs]. split.
    + rewrite hd_pc. destruct (lcoeffs p) as [|a p'], (lcoeffs q) as [|b q']; try contradiction. rewrite pc0_mul. cbn in Hp, Hq. nia.
    + rewrite pmul_last by assumption. nia.
  - apply leq_L. intros g. unfold lmul. rewrite L_make. unfold L. cbn [lval lcoeffs]. unfold pmul, poly_make. now rewrite lin_trim_right.
Qed.
Theorem C13_domain p q : is_lpoly p -> is_lpoly q -> lmul p q = lint 0 -> p = lint 0 \/ q = lint 0.
Proof.
  intros Hp Hq E. assert (Z0 : forall x, lcanon x -> lcoeffs x = [] -> x = lint 0).
  { intros [v cs] [A _] K. cbn in K. subst cs. specialize (A eq_refl). cbn in A. now subst v. }
  destruct (lcoeffs p) as [|a p'] eqn:Ep; [left; apply Z0; auto with lc|]. destruct (lcoeffs q) as [|b q'] eqn:Eq; [right; apply Z0; auto with lc|].
  exfalso. rewrite lmul_nonzero in E; auto with lc; [|now rewrite Ep|now rewrite Eq]. apply (f_equal lcoeffs) in E.
  cbn [lcoeffs] in E. change (lcoeffs (lint 0)) with (@nil Z) in E. apply pmul_zero in E; [rewrite Ep, Eq in E; destruct E; discriminate| |];
  right; [destruct (is_lpoly_canon p Hp) as [_ C]|destruct (is_lpoly_canon q Hq) as [_ C]]; apply C; congruence.
Qed.
Example C13_example : is_lpoly (mkL (-1) [1; 0; 1]) /\ lmul (mkL (-1) [1; 0; 1]) (mkL (-1) [1; 0; 1]) = mkL (-2) [1; 0; 2; 0; 1].
Proof. split; [exists (-1), [1; 0; 1]; reflexivity|reflexivity]. Qed.

(** ** C14 *)
(** [lprod p k] = p * p * ... * p, k factors *)
Definition lprod (p : lpoly) (k : nat) : lpoly := Nat.iter k (lmul p) (lint 1).
Lemma lprod_lpn p k : lprod p k = lpn p k.
Proof. induction k as [|k IH]; [reflexivity|]. unfold lprod in *. cbn [Nat.iter nat_rect lpn]. now rewrite <- IH. Qed.
Theorem C14_nonnegative p n : is_lpoly p -> 0 <= n -> lpow p n = Ok (lprod p (Z.to_nat n)).
Proof. intros H Hn. rewrite lprod_lpn. apply lpow_pos; auto with lc. Qed.

Lemma unit_inv c k : c = 1 \/ c = -1 -> lmul (lpoly_make k [c]) (lpoly_make (- k) [c]) = lint 1.
Proof.
  intros H. apply canon_eq; auto with lc. apply leq_L. intros g. rewrite L_mul, L_make. cbn [lin]. rewrite L_make, L_int. cbn [lin].
  rewrite Z.add_opp_diag_r. destruct H as [-> | ->]; lia.
Qed.
Lemma lpn_inv p u k : leq (lmul p u) (lint 1) -> leq (lmul (lpn p k) (lpn u k)) (lint 1).
Proof.
  intros H. induction k as [|k IH]; cbn [lpn]; [ring|].
  transitivity (lmul (lmul p u) (lmul (lpn p k) (lpn u k))); [ring|]. rewrite H, IH. ring.
Qed.
Lemma unit_make k c : c <> 0 -> lpoly_make k [c] = mkL k [c].
Proof. intros H. unfold lpoly_make. cbn. destruct (Z.eqb_spec c 0); [contradiction|]. unfold trim_right. cbn. destruct (Z.eqb_spec c 0); [contradiction|reflexivity]. Qed.
(** for a unit +-v^k and n < 0 the result is the inverse of the (-n)-th power *)
Theorem C14_negative_unit k c n : c = 1 \/ c = -1 -> n < 0 ->
  exists r, lpow (lpoly_make k [c]) n = Ok r /\ is_lpoly r /\ lmul (lprod (lpoly_make k [c]) (Z.to_nat (- n))) r = lint 1.
Proof.
  intros H Hn. assert (c <> 0) by lia. unfold lpow. destruct (Z.ltb_spec n 0); [|lia]. rewrite unit_make by assumption. cbn [lcoeffs lval].
  assert (E : (c =? 1) || (c =? -1) = true) by (destruct H as [-> | ->]; reflexivity). rewrite E.
  destruct (lpow_nat_ok (pow_fuel (- n)) (lpoly_make (- k) [c]) (- n) ltac:(lia) ltac:(unfold pow_fuel; lia)) as [r [-> [K C]]].
  exists r. split; [reflexivity|]. split; [apply canon_is_lpoly; auto with lc|]. rewrite lprod_lpn. apply canon_eq; auto with lc. rewrite K.
  apply lpn_inv. rewrite <- unit_make by assumption. rewrite unit_inv by assumption. reflexivity.
Qed.
(** the invertible objects are exactly the +-v^k *)
Lemma invertible_unit p q : lcanon p -> lcanon q -> lmul p q = lint 1 -> exists k c, p = lpoly_make k [c] /\ (c = 1 \/ c = -1).
Proof.
  intros Hp Hq E. destruct (list_eq_dec Z.eq_dec (lcoeffs p) []) as [Ep|Np].
  { exfalso. assert (K : leq (lmul p q) (lint 0)).
    { apply leq_L. intros g. rewrite L_mul, L_int. unfold L at 1. now rewrite Ep. }
    rewrite E in K. specialize (K 0). discriminate. }
  destruct (list_eq_dec Z.eq_dec (lcoeffs q) []) as [Eq|Nq].
  { exfalso. assert (K : leq (lmul p q) (lint 0)).
    { transitivity (lmul q p); [ring|]. apply leq_L. intros g. rewrite L_mul, L_int. unfold L at 1. now rewrite Eq. }
    rewrite E in K. specialize (K 0). discriminate. }
  rewrite lmul_nonzero in E by assumption. apply (f_equal lcoeffs) in E. cbn [lcoeffs] in E. change (lcoeffs (lint 1)) with [1] in E.
  destruct Hp as [_ Cp], Hq as [_ Cq]. destruct (Cp Np) as [Hp Lp], (Cq Nq) as [Hq Lq].
  pose proof (pmul_len (lcoeffs p) (lcoeffs q) (or_intror Lp) (or_intror Lq) Np Nq) as L. rewrite E in L. cbn [length] in L.
  destruct p as [v [|a p]]; [contradiction|]. destruct q as [w [|b q]]; [contradiction|]. cbn [lcoeffs length hd lval] in *.
  assert (p = []) by (destruct p; [reflexivity|cbn [length] in L; lia]). subst p.
  assert (K : pc (pmul [a] (b :: q)) 0 = 1) by now rewrite E. rewrite pc0_mul in K.
  exists v, a. rewrite unit_make by exact Hp. split; [reflexivity|].
  destruct (Z.mul_eq_1 _ _ K); auto.
Qed.
Theorem C14_negative_other p n : is_lpoly p -> n < 0 ->
  (lpow p n = Err ValueError <-> ~ exists q, is_lpoly q /\ lmul p q = lint 1).
Proof.
  intros H Hn. split.
  - intros E [q [Hq K]]. destruct (invertible_unit p q) as [k [c [-> Hc]]]; auto with lc.
    destruct (C14_negative_unit k c n Hc Hn) as [r [E' _]]. congruence.
  - intros K. unfold lpow. destruct (Z.ltb_spec n 0); [|lia]. destruct (lcoeffs p) as [|c [|d l]] eqn:E; [reflexivity| |reflexivity].
    destruct ((c =? 1) || (c =? -1)) eqn:B; [exfalso|reflexivity]. apply K. exists (lpoly_make (- lval p) [c]).
    split; [now exists (- lval p), [c]|]. assert (Hc : c = 1 \/ c = -1) by (apply orb_prop in B; rewrite !Z.eqb_eq in B; exact B).
    rewrite <- (unit_inv c (lval p) Hc). f_equal. rewrite unit_make by lia. destruct p; cbn in *; now subst.
Qed.
(** x**(m+n) = x**m * x**n, whenever the right-hand side is defined *)
Lemma lpow_val p n r : lcanon p -> lpow p n = Ok r ->
  lcanon r /\ ((0 <= n /\ leq r (lpn p (Z.to_nat n))) \/
  (n < 0 /\ exists u, lcanon u /\ leq (lmul p u) (lint 1) /\ leq r (lpn u (Z.to_nat (- n))))).
Proof.
  intros Hp E. destruct (Z.lt_ge_cases n 0) as [L|L].
  - unfold lpow in E. destruct (Z.ltb_spec n 0); [|lia]. destruct (lcoeffs p) as [|c [|d l]] eqn:Ec; try discriminate.
    destruct ((c =? 1) || (c =? -1)) eqn:B; [|discriminate]. assert (Hc : c = 1 \/ c = -1) by (apply orb_prop in B; rewrite !Z.eqb_eq in B; exact B).
    destruct (lpow_nat_ok (pow_fuel (- n)) (lpoly_make (- lval p) [c]) (- n) ltac:(lia) ltac:(unfold pow_fuel; lia)) as [r' [E' [K C]]].
    rewrite E' in E. injection E as <-. split; [auto with lc|]. right. split; [exact L|]. exists (lpoly_make (- lval p) [c]).
    split; [auto with lc|]. split; [|exact K]. replace p with (lpoly_make (lval p) [c]) at 1.
    + rewrite unit_inv by exact Hc. reflexivity.
    + rewrite unit_make by lia. destruct p; cbn in *; now subst.
  - rewrite lpow_pos in E by assumption. injection E as <-. split; [apply canon_lpn|]. left. split; [lia|reflexivity].
Qed.
Lemma lpn_cancel p u i j : leq (lmul p u) (lint 1) -> leq (lmul (lpn p (i + j)) (lpn u j)) (lpn p i).
Proof. intros H. rewrite lpn_add. transitivity (lmul (lpn p i) (lmul (lpn p j) (lpn u j))); [ring|]. rewrite lpn_inv by exact H. ring. Qed.
Lemma linv_unique p u u' : leq (lmul p u) (lint 1) -> leq (lmul p u') (lint 1) -> leq u u'.
Proof.
  intros H H'. transitivity (lmul (lmul p u') u); [rewrite H'; ring|]. transitivity (lmul u' (lmul p u)); [ring|]. rewrite H. ring.
Qed.
#[global] Instance lpn_proper : Proper (leq ==> eq ==> leq) lpn.
Proof. intros p q H k ? <-. induction k as [|k IH]; cbn [lpn]; [reflexivity|]. now apply lmul_proper. Qed.
Theorem C14_additive p m n a b : is_lpoly p -> lpow p m = Ok a -> lpow p n = Ok b -> lpow p (m + n) = Ok (lmul a b).
Proof.
  intros H Ea Eb. apply is_lpoly_canon in H.
  assert (D : exists c, lpow p (m + n) = Ok c).
  { destruct (Z.lt_ge_cases (m + n) 0) as [L|L]; [|eexists; apply lpow_pos; [exact H|lia]].
    assert (U : exists u, lcanon u /\ leq (lmul p u) (lint 1)).
    { destruct (lpow_val p m a H Ea) as [_ [[? _]|[_ [u [? [? _]]]]]]; [|now exists u].
      destruct (lpow_val p n b H Eb) as [_ [[? _]|[_ [u [? [? _]]]]]]; [lia|now exists u]. }
    destruct U as [u [Hu K]]. destruct (invertible_unit p u H Hu) as [k [c [-> Hc]]]; [apply canon_eq; auto with lc|].
    destruct (C14_negative_unit k c (m + n) Hc L) as [r [E' _]]. now exists r. }
  destruct D as [c Ec]. rewrite Ec. f_equal.
  destruct (lpow_val p m a H Ea) as [Ca Va], (lpow_val p n b H Eb) as [Cb Vb], (lpow_val p (m + n) c H Ec) as [Cc Vc].
  apply canon_eq; auto with lc.
  destruct Va as [[Sm Va]|[Sm [u [Hu [U Va]]]]], Vb as [[Sn Vb]|[Sn [w [Hw [W Vb]]]]].
  - destruct Vc as [[Sc Vc]|[Sc _]]; [|lia]. rewrite Va, Vb, Vc, Z2Nat.inj_add by lia. apply lpn_add.
  - destruct Vc as [[Sc Vc]|[Sc [x [Hx [X Vc]]]]].
    + rewrite Va, Vb, Vc. replace (Z.to_nat m) with (Z.to_nat (m + n) + Z.to_nat (- n))%nat by lia. symmetry. now apply lpn_cancel.
    + rewrite Va, Vb, Vc, (linv_unique p w x W X). replace (Z.to_nat (- n)) with (Z.to_nat (- (m + n)) + Z.to_nat m)%nat by lia.
      rewrite (lpn_add x). symmetry. transitivity (lmul (lpn x (Z.to_nat (- (m + n)))) (lmul (lpn p (Z.to_nat m)) (lpn x (Z.to_nat m)))); [ring|].
      rewrite (lpn_inv p x) by exact X. ring.
  - destruct Vc as [[Sc Vc]|[Sc [x [Hx [X Vc]]]]].
    + rewrite Va, Vb, Vc. replace (Z.to_nat n) with (Z.to_nat (m + n) + Z.to_nat (- m))%nat by lia.
      symmetry. transitivity (lmul (lpn p (Z.to_nat (m + n) + Z.to_nat (- m))) (lpn u (Z.to_nat (- m)))); [ring|]. now apply lpn_cancel.
    + rewrite Va, Vb, Vc, (linv_unique p u x U X). replace (Z.to_nat (- m)) with (Z.to_nat (- (m + n)) + Z.to_nat n)%nat by lia.
      rewrite (lpn_add x). symmetry. transitivity (lmul (lpn x (Z.to_nat (- (m + n)))) (lmul (lpn p (Z.to_nat n)) (lpn x (Z.to_nat n)))); [ring|].
      rewrite (lpn_inv p x) by exact X. ring.
  - destruct Vc as [[Sc Vc]|[Sc [x [Hx [X Vc]]]]]; [lia|]. rewrite Va, Vb, Vc, (linv_unique p u x U X), (linv_unique p w x W X).
    replace (Z.to_nat (- (m + n))) with (Z.to_nat (- m) + Z.to_nat (- n))%nat by lia. apply lpn_add.
Qed.
Example C14_example : lpow (mkL 3 [-1]) (-5) = Ok (mkL (-15) [-1]) /\ lpow (mkL 0 [1; 1]) 3 = Ok (mkL 0 [1; 3; 3; 1])
  /\ lpow (mkL 0 [1; 1]) (-1) = Err ValueError.
Proof. repeat split. Qed.

(** ** C16 *)
Theorem C16_sound n d q r : is_poly n -> is_poly d -> pdivmod n d = Ok (q, r) ->
  is_poly q /\ is_poly r /\ n = padd (pmul d q) r /\ pdeg r < pdeg d.
Proof.
  intros Hn Hd E. destruct (list_eq_dec Z.eq_dec d []) as [->|N]; [discriminate|].
  destruct (pdivmod_spec n d) as [[q' [r' [E' [A [B [C D]]]]]]|E']; auto with lc; [|congruence].
  rewrite E in E'. injection E' as <- <-. repeat split; auto using canon_is_poly. unfold pdeg. lia.
Qed.
(** it never diverges, and only refuses a zero divisor (AssertionError) or a
    non-divisible leading coefficient (ValueError), in which case there is no
    Euclidean quotient over Z at all *)
Theorem C16_total n d : is_poly n -> is_poly d ->
  (exists q r, pdivmod n d = Ok (q, r)) \/
  (pdivmod n d = Err AssertionError /\ d = poly_make []) \/
  (pdivmod n d = Err ValueError /\ d <> poly_make [] /\ ~ exists q r, is_poly q /\ is_poly r /\ n = padd (pmul d q) r /\ pdeg r < pdeg d).
Proof.
  intros Hn Hd. destruct (list_eq_dec Z.eq_dec d []) as [->|N]; [right; left; split; reflexivity|].
  destruct (pdivmod_spec n d) as [[q' [r' [E' [A [B [C D]]]]]]|E']; auto with lc; [left; eauto|right; right].
  split; [exact E'|]. split; [exact N|]. intros [q [r [Hq [Hr [E L]]]]].
  rewrite (pdivmod_complete n d q r) in E'; auto with lc; [discriminate|]. unfold pdeg in L. lia.
Qed.
Theorem C16_unique n d q r q' r' : is_poly d -> is_poly q -> is_poly r -> is_poly q' -> is_poly r' ->
  n = padd (pmul d q) r -> pdeg r < pdeg d -> n = padd (pmul d q') r' -> pdeg r' < pdeg d -> q = q' /\ r = r'.
Proof.
  intros Hd Hq Hr Hq' Hr' E L E' L'. assert (pcanon n) by (rewrite E; auto with pcanon).
  assert (d <> []) by (intros ->; unfold pdeg in L; cbn in L; lia).
  assert (A : pdivmod n d = Ok (q, r)) by (apply pdivmod_complete; auto with lc; unfold pdeg in L; lia).
  assert (B : pdivmod n d = Ok (q', r')) by (apply pdivmod_complete; auto with lc; unfold pdeg in L'; lia).
  rewrite A in B. now injection B.
Qed.
Theorem C16_complete n d q r : is_poly n -> is_poly d -> is_poly q -> is_poly r ->
  n = padd (pmul d q) r -> pdeg r < pdeg d -> pdivmod n d = Ok (q, r).
Proof.
  intros Hn Hd Hq Hr E L. apply pdivmod_complete; auto with lc; [|unfold pdeg in L; lia].
  intros ->; unfold pdeg in L; cbn in L; lia.
Qed.
(** [n / d]: the exact quotient, or a refusal when there is none *)
Theorem C16_truediv n d : is_poly n -> is_poly d -> d <> poly_make [] ->
  (exists q, pdiv n d = Ok q /\ is_poly q /\ n = pmul d q) \/
  (pdiv n d = Err ValueError /\ ~ exists q, is_poly q /\ n = pmul d q).
Proof.
  intros Hn Hd N. change (poly_make []) with (@nil Z) in N. unfold pdiv.
  destruct (pdivmod_spec n d) as [[q [r [E [A [B [C D]]]]]]|E]; auto with lc; rewrite E; cbn [bind].
  - destruct r as [|c r]; cbn [pis_zero negb].
    + left. exists q. split; [reflexivity|]. split; [now apply canon_is_poly|]. rewrite D. apply pcanon_eq; auto with pcanon. ring.
    + right. split; [reflexivity|]. intros [q' [Hq' E']].
      rewrite (pdivmod_complete n d q' []) in E; auto with lc pcanon; [discriminate|destruct d; [contradiction|cbn; lia]|].
      rewrite E'. apply pcanon_eq; auto with pcanon. ring.
  - right. split; [reflexivity|]. intros [q' [Hq' E']].
    rewrite (pdivmod_complete n d q' []) in E; auto with lc pcanon; [discriminate|destruct d; [contradiction|cbn; lia]|].
    rewrite E'. apply pcanon_eq; auto with pcanon. ring.
Qed.
Example C16_example : pdivmod [-1; 0; 0; 1] [-1; 1] = Ok ([1; 1; 1], []) /\ pdivmod [0; 0; 1] [1; 2] = Err ValueError
  /\ pdivmod [7; 5] [1; 1] = Ok ([5], [2]).
Proof. repeat split. Qed.

(** ** C15 *)
Lemma coeffs_pcanon p : lcanon p -> pcanon (lcoeffs p).
Proof. intros [_ C]. destruct (list_eq_dec Z.eq_dec (lcoeffs p) []) as [E|N]; [now left|right; now apply C]. Qed.
Lemma ldiv_eq p q : lcanon p -> lcanon q ->
  ldiv p q = (c <- pdiv (lcoeffs p) (lcoeffs q) ;; Ok (lpoly_make (lval p - lval q) c)).
Proof. intros Hp Hq. unfold ldiv. now rewrite !make_canon by now apply coeffs_pcanon. Qed.
Lemma lmul_shift q v c : leq (lmul (lpoly_make (v - lval q) c) q) (mkL v (pmul (lcoeffs q) c)) .
Proof.
  apply leq_L. intros g. rewrite L_mul, L_make. unfold L. cbn [lval lcoeffs]. unfold pmul, poly_make. rewrite lin_trim_right.
  rewrite (lin_conv v). rewrite lin_swap. set (w := lval q). transitivity (lin (w + (v - w)) (lcoeffs q) (fun e => lin 0 c (fun f => g (e + f)))); [|f_equal; lia]. rewrite lin_shift. apply lin_ext. intros e.
  transitivity (lin (0 + (v - w)) c (fun f => g (f + e))); [reflexivity|]. rewrite lin_shift. apply lin_ext. intros f. f_equal. lia.
Qed.
(** whenever it returns, the answer is exact; it refuses precisely when there
    is no exact answer; dividing by zero is an AssertionError *)
Theorem C15_division p q : is_lpoly p -> is_lpoly q -> q <> lint 0 ->
  (exists r, ldiv p q = Ok r /\ is_lpoly r /\ lmul r q = p) \/
  (ldiv p q = Err ValueError /\ ~ exists r, is_lpoly r /\ lmul r q = p).
Proof.
  intros Hp Hq N. apply is_lpoly_canon in Hp, Hq. rewrite ldiv_eq by assumption.
  assert (Nq : lcoeffs q <> []).
  { intros E. apply N. destruct Hq as [A _]. specialize (A E). destruct q; cbn in *; now subst. }
  destruct (C16_truediv (lcoeffs p) (lcoeffs q)) as [[c [E [Hc K]]]|[E K]]; auto using canon_is_poly, coeffs_pcanon; rewrite E; cbn [bind].
  - left. eexists. split; [reflexivity|]. split; [eexists _, _; reflexivity|]. apply canon_eq; auto with lc.
    rewrite (lmul_shift q (lval p) c), <- K. destruct p; reflexivity.
  - right. split; [reflexivity|]. intros [r [Hr Er]]. apply K. apply is_lpoly_canon in Hr.
    destruct (list_eq_dec Z.eq_dec (lcoeffs r) []) as [Zr|Nr].
    + exists []. split; [apply canon_is_poly; auto with pcanon|]. assert (p = lint 0) as ->.
      { rewrite <- Er. apply canon_eq; auto with lc. apply leq_L. intros g. rewrite L_mul, L_int. unfold L at 1. now rewrite Zr. }
      change (lcoeffs (lint 0)) with (@nil Z). apply pcanon_eq; auto with pcanon. ring.
    + exists (lcoeffs r). split; [now apply canon_is_poly, coeffs_pcanon|]. rewrite <- Er, lmul_nonzero by assumption. cbn [lcoeffs].
      apply pcanon_eq; auto with pcanon. ring.
Qed.
Theorem C15_of_product q b : is_lpoly q -> is_lpoly b -> b <> lint 0 -> ldiv (lmul q b) b = Ok q.
Proof.
  intros Hq Hb N. assert (Hm : is_lpoly (lmul q b)) by (eexists _, _; reflexivity).
  destruct (C15_division (lmul q b) b Hm Hb N) as [[r [E [Hr K]]]|[_ K]]; [|exfalso; apply K; now exists q].
  rewrite E. f_equal.
  assert (D : lmul (lsub r q) b = lint 0).
  { apply canon_eq; auto with lc. transitivity (lsub (lmul r b) (lmul q b)); [ring|]. rewrite K. ring. }
  apply C13_domain in D; auto; [|eexists _, _; reflexivity]. destruct D as [D|D]; [|contradiction].
  apply canon_eq; auto with lc. transitivity (ladd (lsub r q) q); [ring|]. rewrite D. ring.
Qed.
Theorem C15_zero p : is_lpoly p -> ldiv p (lint 0) = Err AssertionError.
Proof. intros H. reflexivity. Qed.
Example C15_example : ldiv (mkL (-2) [1; 0; 0; 0; -1]) (mkL (-1) [1; 0; -1]) = Ok (mkL (-1) [1; 0; 1])
  /\ ldiv (mkL 0 [1; 0; 1]) (mkL 0 [1; 1]) = Err ValueError.
Proof. split; reflexivity. Qed.

(** ** C18 *)
Lemma coef_make v cs k : coef (lpoly_make v cs) k = coeff_at v cs k. Proof. apply C12_represents. Qed.
Lemma coef_mono k c e : coef (lpoly_make k [c]) e = if e =? k then c else 0.
Proof. rewrite coef_L, L_make. cbn [lin]. unfold delta. destruct (Z.eqb_spec k e), (Z.eqb_spec e k); lia. Qed.
Lemma coef_qi n k : coef (quantum_integer n) k =
  if (Z.abs k <? Z.abs n) && ((k + n - 1) mod 2 =? 0) then Z.sgn n else 0.
Proof.
  unfold quantum_integer. destruct (Z.leb_spec (Z.abs n) 1) as [L|L].
  - rewrite coef_mono. destruct (Z.eqb_spec k 0) as [->|N].
    + assert (n = -1 \/ n = 0 \/ n = 1) as [-> | [-> | ->]] by lia; reflexivity.
    + destruct (Z.ltb_spec (Z.abs k) (Z.abs n)); [lia|reflexivity].
  - rewrite coef_make. set (s := if n >=? 1 then 1 else -1).
    assert (S : s = Z.sgn n) by (unfold s; rewrite Z.geb_leb; destruct (Z.leb_spec 1 n); [rewrite Z.sgn_pos|rewrite Z.sgn_neg]; lia).
    rewrite S. unfold coeff_at. destruct (Z.ltb_spec k (- Z.abs n + 1)) as [K|K].
    + destruct (Z.ltb_spec (Z.abs k) (Z.abs n)); [lia|reflexivity].
    + destruct (Z.ltb_spec (Z.abs k) (Z.abs n)) as [K2|K2]; cbn [andb].
      * rewrite (nth_indep _ 0 (if (Z.of_nat 0 mod 2 =? 0) then Z.sgn n else 0)) by (rewrite map_length, seq_length; lia).
        rewrite (map_nth (fun i => if (Z.of_nat i mod 2 =? 0)%Z then Z.sgn n else 0)). rewrite seq_nth by lia.
        replace (Z.of_nat (0 + Z.to_nat (k - (- Z.abs n + 1)))) with (k + Z.abs n - 1) by lia.
        replace ((k + Z.abs n - 1) mod 2) with ((k + n - 1) mod 2); [reflexivity|].
        destruct (Z.abs_spec n) as [[_ ->]|[_ ->]]; [reflexivity|]. replace (k + n - 1) with (k + - n - 1 + n * 2) by lia. apply Z.mod_add. lia.
      * apply nth_overflow. rewrite map_length, seq_length. lia.
Qed.
Definition vpow (k : Z) : lpoly := lpoly_make k [1].
Theorem C18_quotient n : lmul (quantum_integer n) (lsub (vpow 1) (vpow (-1))) = lsub (vpow n) (vpow (- n)).
Proof.
  apply canon_eq; auto with lc. intros k.
  assert (E : coef (lmul (quantum_integer n) (lsub (vpow 1) (vpow (-1)))) k = coef (quantum_integer n) (k - 1) - coef (quantum_integer n) (k + 1)).
  { transitivity (L (lmul (lsub (vpow 1) (vpow (-1))) (quantum_integer n)) (delta k)).
    - rewrite coef_L. apply leq_L. ring.
    - rewrite L_mul, L_sub. unfold vpow. rewrite !L_make. cbn [lin]. rewrite !coef_L.
      rewrite (L_ext _ (fun f => delta k (1 + f)) (delta (k - 1))) by (intros e; unfold delta; destruct (Z.eqb_spec (1 + e) k), (Z.eqb_spec e (k - 1)); lia).
      rewrite (L_ext _ (fun f => delta k (-1 + f)) (delta (k + 1))) by (intros e; unfold delta; destruct (Z.eqb_spec (-1 + e) k), (Z.eqb_spec e (k + 1)); lia).
      lia. }
  rewrite E, !coef_qi, C13_sub_coefficients. unfold vpow. rewrite !coef_mono.
  replace ((k - 1 + n - 1) mod 2) with ((k + n) mod 2) by (replace (k - 1 + n - 1) with (k + n + (-1) * 2) by lia; symmetry; apply Z.mod_add; lia).
  replace (k + 1 + n - 1) with (k + n) by lia.
  destruct (Z.eqb_spec ((k + n) mod 2) 0) as [M|M].
  - apply Z.mod_divide in M; [|lia]. destruct M as [t M]. rewrite !andb_true_r.
    destruct (Z.ltb_spec (Z.abs (k - 1)) (Z.abs n)), (Z.ltb_spec (Z.abs (k + 1)) (Z.abs n)), (Z.eqb_spec k n), (Z.eqb_spec k (- n)); lia.
  - rewrite !andb_false_r. destruct (Z.eqb_spec k n) as [->|]; [exfalso; apply M; replace (n + n) with (n * 2) by lia; apply Z.mod_mul; lia|].
    destruct (Z.eqb_spec k (- n)) as [->|]; [exfalso; apply M; rewrite Z.add_opp_diag_l; reflexivity|reflexivity].
Qed.
Lemma qi_canon n : lcanon (quantum_integer n).
Proof. unfold quantum_integer. destruct (Z.abs n <=? 1); auto with lc. Qed.
Theorem C18_negate n : quantum_integer (- n) = lneg (quantum_integer n).
Proof.
  apply canon_eq; auto using qi_canon with lc. intros k. rewrite C13_neg_coefficients, !coef_qi, Z.abs_opp, Z.sgn_opp.
  replace ((k + - n - 1) mod 2) with ((k + n - 1) mod 2); [destruct (_ && _); lia|].
  replace (k + n - 1) with (k + - n - 1 + n * 2) by lia. apply Z.mod_add. lia.
Qed.
(** the quotient is unique: [quantum_integer n] is the only solution *)
Theorem C18_unique n x : is_lpoly x -> lmul x (lsub (vpow 1) (vpow (-1))) = lsub (vpow n) (vpow (- n)) -> x = quantum_integer n.
Proof.
  intros Hx E. assert (Hn : is_lpoly (quantum_integer n)) by apply canon_is_lpoly, qi_canon.
  pose proof (C15_of_product x (lsub (vpow 1) (vpow (-1))) Hx) as A. pose proof (C15_of_product (quantum_integer n) (lsub (vpow 1) (vpow (-1))) Hn) as B.
  rewrite C18_quotient in B. rewrite E in A. specialize (A ltac:(eexists _, _; reflexivity) ltac:(discriminate)). specialize (B ltac:(eexists _, _; reflexivity) ltac:(discriminate)).
  congruence.
Qed.
Example C18_example : quantum_integer 4 = mkL (-3) [1; 0; 1; 0; 1; 0; 1] /\ quantum_integer (-2) = mkL (-1) [-1; 0; -1].
Proof. split; reflexivity. Qed.

(** ** C19 *)
(** [x.map_coeffs(lambda c: c % m)] *)
Definition lmod (m : Z) (p : lpoly) : lpoly := lmap (fun c => c mod m) p.
Lemma coef_lmap f p k : f 0 = 0 -> coef (lmap f p) k = f (coef p k).
Proof.
  intros H. unfold lmap. rewrite coef_make. unfold coef, coeff_at. destruct (k <? lval p); [now rewrite H|].
  rewrite <- H at 1. apply map_nth.
Qed.
Theorem C19_coefficients m p k : 0 < m -> coef (lmod m p) k = (coef p k) mod m /\ 0 <= coef (lmod m p) k < m.
Proof.
  intros H. unfold lmod. rewrite coef_lmap by (apply Z.mod_0_l; lia). split; [reflexivity|]. now apply Z.mod_pos_bound.
Qed.
Lemma lmod_split m p : 0 < m -> leq p (ladd (lmod m p) (lmul (lint m) (lmap (fun c => c / m) p))).
Proof.
  intros H k. rewrite C13_add_coefficients. rewrite (proj1 (C19_coefficients m p k H)).
  rewrite (coef_L (lmul _ _)), L_mul, L_int. change (fun f => delta k (0 + f)) with (fun f => delta k f).
  change (L (lmap (fun c => c / m) p) (fun f => delta k f)) with (L (lmap (fun c => c / m) p) (delta k)).
  rewrite <- !coef_L. rewrite coef_lmap by (apply Z.div_0_l; lia). rewrite (Z.div_mod (coef p k) m) at 1; lia.
Qed.
Lemma lmod_cong m p q x : 0 < m -> leq p (ladd q (lmul (lint m) x)) -> lmod m p = lmod m q.
Proof.
  intros H E. apply canon_eq; try apply canon_make. intros k. rewrite !(fun a => proj1 (C19_coefficients m a k H)).
  rewrite (E k), C13_add_coefficients, (coef_L (lmul _ _)), L_mul, L_int.
  rewrite (Z.mul_comm m). apply Z.mod_add. lia.
Qed.
Theorem C19_homomorphism m p q : 0 < m ->
  lmod m (ladd p q) = lmod m (ladd (lmod m p) (lmod m q)) /\
  lmod m (lsub p q) = lmod m (lsub (lmod m p) (lmod m q)) /\
  lmod m (lmul p q) = lmod m (lmul (lmod m p) (lmod m q)) /\
  lmod m (lmod m p) = lmod m p.
Proof.
  intros H. pose proof (lmod_split m p H) as Ep. pose proof (lmod_split m q H) as Eq.
  set (a := lmap (fun c => c / m) p) in *. set (b := lmap (fun c => c / m) q) in *. repeat split.
  - apply (lmod_cong m _ _ (ladd a b) H). rewrite Ep, Eq at 1. ring.
  - apply (lmod_cong m _ _ (lsub a b) H). rewrite Ep, Eq at 1. ring.
  - apply (lmod_cong m _ _ (ladd (ladd (lmul (lmod m p) b) (lmul a (lmod m q))) (lmul (lint m) (lmul a b))) H). rewrite Ep, Eq at 1. ring.
  - symmetry. apply (lmod_cong m _ _ a H). exact Ep.
Qed.
(** two objects reduce to the same object iff they are congruent *)
Theorem C19_decides m p q : 0 < m -> (lmod m p = lmod m q <-> forall k, (coef p k) mod m = (coef q k) mod m).
Proof.
  intros H. split.
  - intros E k. rewrite <- !(fun a => proj1 (C19_coefficients m a k H)). now rewrite E.
  - intros E. apply canon_eq; try apply canon_make. intros k. rewrite !(fun a => proj1 (C19_coefficients m a k H)). apply E.
Qed.
Example C19_example : lmod 3 (mkL (-1) [3; -1; 4; 6]) = mkL 0 [2; 1].
Proof. reflexivity. Qed.

(** ** C22 *)
Theorem C22_ring p q r : is_poly p -> is_poly q -> is_poly r ->
  padd p q = padd q p /\ padd (padd p q) r = padd p (padd q r) /\ padd p (poly_make []) = p /\ padd p (pneg p) = poly_make [] /\
  psub p q = padd p (pneg q) /\
  pmul p q = pmul q p /\ pmul (pmul p q) r = pmul p (pmul q r) /\ pmul p (poly_make [1]) = p /\
  pmul p (padd q r) = padd (pmul p q) (pmul p r).
Proof.
  intros Hp Hq Hr. change (poly_make []) with (@nil Z). change (poly_make [1]) with [1].
  repeat split; apply pcanon_eq; auto with pcanon lc; ring.
Qed.
Theorem C22_equality p q : is_poly p -> is_poly q -> (p = q <-> forall i, nth i p 0 = nth i q 0).
Proof. intros Hp Hq. split; [intros ->; reflexivity|]. intros H. apply pcanon_eq; auto with lc. Qed.
Theorem C22_mul_coefficients p q i :
  nth i (pmul p q) 0 = zsum (length p) (fun a => nth a p 0 * (if (a <=? i)%nat then nth (i - a) q 0 else 0)).
Proof.
  change (pc (pmul p q) i = zsum (length p) (fun a => nth a p 0 * (if (a <=? i)%nat then nth (i - a) q 0 else 0))).
  rewrite pc_mul. rewrite (lin_of_coeff 0 p _ 0 (length p)) by lia. generalize (length p) as n.
  induction n as [|n IH]; cbn [zsum]; [reflexivity|]. rewrite IH. f_equal. unfold coeff_at. rewrite !Z.add_0_l, !Z.sub_0_r, Nat2Z.id.
  destruct (Z.ltb_spec (Z.of_nat n) 0); [lia|]. f_equal.
  destruct (Z.ltb_spec (Z.of_nat i - Z.of_nat n) 0), (Nat.leb_spec n i); try lia. f_equal. lia.
Qed.
Definition pprod (p : poly) (k : nat) : poly := Nat.iter k (pmul p) (poly_make [1]).
Theorem C22_power p n : is_poly p ->
  ppow p n = if n <? 0 then Err ValueError else Ok (pprod p (Z.to_nat n)).
Proof.
  intros H. destruct (Z.ltb_spec n 0) as [L|L].
  - unfold ppow. now destruct (Z.ltb_spec n 0); [|lia].
  - rewrite ppow_pos by (auto with lc; lia). f_equal. generalize (Z.to_nat n) as k. clear L.
    induction k as [|k IH]; [reflexivity|]. change (pmul p (pn p k) = pmul p (pprod p k)). now rewrite IH.
Qed.
(** evaluation at an int: sum of c_i x^i, a ring homomorphism *)
Theorem C22_evaluate_int p q x :
  peval_int p x = zsum (length p) (fun i => nth i p 0 * x ^ Z.of_nat i) /\
  peval_int (padd p q) x = peval_int p x + peval_int q x /\
  peval_int (psub p q) x = peval_int p x - peval_int q x /\
  peval_int (pmul p q) x = peval_int p x * peval_int q x /\
  peval_int (poly_make [0; 1]) x = x /\ (forall c, peval_int (poly_make [c]) x = c).
Proof.
  rewrite !peval_int_ev. unfold evZ. repeat split.
  - induction p as [|c p IH] using rev_ind; [reflexivity|].
    rewrite (evh_snoc Z 0 1 Z.add Z.mul Z.sub Z.opp eq _ Zext InitialRing.Zth (fun c => c) x p c), rpow_Z, IH.
    rewrite app_length, Nat.add_1_r. cbn [zsum]. rewrite nth_middle. f_equal.
    assert (K : forall n, (n <= length p)%nat -> zsum n (fun i => nth i p 0 * x ^ Z.of_nat i) = zsum n (fun i => nth i (p ++ [c]) 0 * x ^ Z.of_nat i)).
    { induction n as [|n IHn]; intros L; cbn [zsum]; [reflexivity|]. rewrite IHn by lia. now rewrite app_nth1 by lia. }
    now apply K.
  - now apply (evh_add Z 0 1 Z.add Z.mul Z.sub Z.opp eq _ Zext InitialRing.Zth).
  - now apply (evh_sub Z 0 1 Z.add Z.mul Z.sub Z.opp eq _ Zext InitialRing.Zth).
  - now apply (evh_mul Z 0 1 Z.add Z.mul Z.sub Z.opp eq _ Zext InitialRing.Zth).
  - change (0 + x * (1 + x * 0) = x). lia.
  - intros c. rewrite peval_int_ev. unfold evZ. rewrite (evh_peq Z 0 1 Z.add Z.mul Z.sub Z.opp eq _ Zext InitialRing.Zth (fun c => c) eq_refl x _ _ (make_peq [c])).
    change (c + x * 0 = c). lia.
Qed.
(** evaluation at a Poly never raises and is a ring homomorphism *)
Theorem C22_evaluate_poly p q x : is_poly x -> exists a b,
  peval_poly p x = Ok a /\ peval_poly q x = Ok b /\ is_poly a /\ is_poly b /\
  peval_poly (padd p q) x = Ok (padd a b) /\ peval_poly (psub p q) x = Ok (psub a b) /\
  peval_poly (pmul p q) x = Ok (pmul a b) /\ peval_poly (poly_make [0; 1]) x = Ok x /\
  (forall c, peval_poly (poly_make [c]) x = Ok (poly_make [c])).
Proof.
  intros Hx. apply is_poly_canon in Hx.
  assert (V : forall p r, peq r (evP x p) -> pcanon r -> peval_poly p x = Ok r).
  { intros p' r E C. destruct (peval_poly_ev p' x Hx) as [r' [-> [C' E']]]. f_equal. apply pcanon_eq; auto. now rewrite E, E'. }
  destruct (peval_poly_ev p x Hx) as [a [Ea [Ca Va]]], (peval_poly_ev q x Hx) as [b [Eb [Cb Vb]]]. exists a, b.
  repeat split; auto using canon_is_poly; try intros c; apply V; auto with pcanon; unfold evP in *.
  - rewrite (evh_add _ [] [1] padd pmul psub pneg peq _ pring_ext pring pconst pconst0 pconstA x p q). now rewrite Va, Vb.
  - rewrite (evh_sub _ [] [1] padd pmul psub pneg peq _ pring_ext pring pconst pconst0 pconstA x p q). now rewrite Va, Vb.
  - rewrite (evh_mul _ [] [1] padd pmul psub pneg peq _ pring_ext pring pconst pconst0 pconstA pconstM x p q). now rewrite Va, Vb.
  - change (evh (list Z) [] padd pmul pconst x (poly_make [0; 1])) with (padd (pconst 0) (pmul x (padd (pconst 1) (pmul x [])))).
    rewrite pconst0, pconst1. ring.
  - rewrite (evh_peq _ [] [1] padd pmul psub pneg peq _ pring_ext pring pconst pconst0 x _ _ (make_peq [c])). cbn [evh]. unfold pconst. ring.
Qed.
Example C22_example : pmul [1; 1] [-1; 1] = [-1; 0; 1] /\ peval_int [1; 2; 3] (-2) = 9 /\ is_poly [1; 2; 3]
  /\ peval_poly [1; 1; 1] [0; 2] = Ok [1; 2; 4].
Proof. repeat split. now exists [1; 2; 3]. Qed.
