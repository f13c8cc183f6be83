(** EvalTheory.v – evaluating an integer polynomial in a commutative ring. *)
From Verif Require Import Base ModelPoly SpecPoly PolyTheory PolyDiv.
From Coq Require Import Ring Setoid Morphisms.
Local Open Scope Z_scope.

Section Ev.
Variables (R : Type) (rO rI : R) (radd rmul rsub : R -> R -> R) (ropp : R -> R) (req : R -> R -> Prop).
Hypothesis Req : Equivalence req.
Hypothesis Rext : ring_eq_ext radd rmul ropp req.
Hypothesis Rth : ring_theory rO rI radd rmul rsub ropp req.
Variable phi : Z -> R.
Hypothesis phi0 : req (phi 0) rO.
Hypothesis phi1 : req (phi 1) rI.
Hypothesis phiA : forall a b, req (phi (a + b)) (radd (phi a) (phi b)).
Hypothesis phiM : forall a b, req (phi (a * b)) (rmul (phi a) (phi b)).
Add Ring Rr : Rth (setoid Req Rext).
Instance radd_p : Proper (req ==> req ==> req) radd. Proof. apply Rext. Qed.
Instance rmul_p : Proper (req ==> req ==> req) rmul. Proof. apply Rext. Qed.
Variable x : R.

Fixpoint evh (p : list Z) : R := match p with [] => rO | c :: p' => radd (phi c) (rmul x (evh p')) end.
Fixpoint rpow (y : R) (k : nat) : R := match k with O => rI | S k' => rmul y (rpow y k') end.

Lemma evh_zero p : (forall i, pc p i = 0) -> req (evh p) rO.
Proof.
  induction p as [|c p IH]; intros H; cbn [evh]; [reflexivity|]. pose proof (H O) as E. cbn in E. subst c.
  rewrite phi0, IH by (intros i; exact (H (S i))). ring.
Qed.
Lemma evh_peq p : forall q, peq p q -> req (evh p) (evh q).
Proof.
  induction p as [|c p IH]; intros q H.
  - symmetry. apply evh_zero. intros i. rewrite <- H. now destruct i.
  - destruct q as [|d q].
    + apply evh_zero. intros i. rewrite H. now destruct i.
    + cbn [evh]. pose proof (H O) as E. cbn in E. subst d. rewrite (IH q); [reflexivity|]. intros i. exact (H (S i)).
Qed.
Lemma phiN a : req (phi (- a)) (ropp (phi a)).
Proof.
  assert (E : req (radd (phi (- a)) (phi a)) rO) by (rewrite <- phiA; replace (- a + a) with 0 by lia; exact phi0).
  transitivity (radd (radd (phi (- a)) (phi a)) (ropp (phi a))); [ring|]. rewrite E. ring.
Qed.
Lemma phiS a b : req (phi (a - b)) (rsub (phi a) (phi b)).
Proof. unfold Z.sub. rewrite phiA, phiN. ring. Qed.
Lemma evh_add p : forall q, req (evh (padd p q)) (radd (evh p) (evh q)).
Proof.
  assert (K : forall p q, req (evh (map (fun '(c, d) => c + d) (zip_longest p q))) (radd (evh p) (evh q))).
  { clear p. induction p as [|c p IH]; intros q.
    - cbn [zip_longest evh]. rewrite map_map, (map_ext _ (fun d => d)), map_id by reflexivity. ring.
    - destruct q as [|d q]; cbn [zip_longest].
      + rewrite map_map, (map_ext _ (fun d => d)), map_id by (intros; lia). cbn [evh]. ring.
      + cbn [map evh]. rewrite IH, phiA. ring. }
  intros q. unfold padd. rewrite (evh_peq _ _ (make_peq _)). apply K.
Qed.
Lemma evh_muli p c : req (evh (pmuli p c)) (rmul (evh p) (phi c)).
Proof.
  unfold pmuli. rewrite (evh_peq _ _ (make_peq _)). induction p as [|d p IH]; cbn [map evh]; [ring|]. rewrite IH, phiM. ring.
Qed.
Lemma evh_neg p : req (evh (pneg p)) (ropp (evh p)).
Proof.
  unfold pneg. rewrite (evh_peq _ _ (make_peq _)). induction p as [|d p IH]; cbn [map evh]; [ring|]. rewrite IH, phiN. ring.
Qed.
Lemma evh_sub p q : req (evh (psub p q)) (rsub (evh p) (evh q)).
Proof.
  assert (E : peq (psub p q) (padd p (pneg q))).
  { apply peq_P. intros g. rewrite P_sub, P_add, P_neg. lia. }
  rewrite (evh_peq _ _ E), evh_add, evh_neg. ring.
Qed.
Lemma pmul_cons c p q : peq (pmul (c :: p) q) (padd (pmuli q c) (0 :: pmul p q)).
Proof.
  apply peq_P. intros g. rewrite P_mul, P_add, P_muli. unfold P0 at 1. cbn [lin]. rewrite Z.mul_comm. f_equal.
  unfold P0 at 2. cbn [lin]. rewrite (lin_shift 0 1 (pmul p q) g). fold (P0 (pmul p q) (fun e => g (e + 1))). rewrite P_mul.
  unfold P0. rewrite (lin_shift 0 1 p). apply lin_ext. intros e. apply lin_ext. intros f. f_equal. lia.
Qed.
Lemma evh_mul p q : req (evh (pmul p q)) (rmul (evh p) (evh q)).
Proof.
  induction p as [|c p IH]; cbn [evh].
  - rewrite (evh_zero (pmul [] q)); [ring|]. intros i. rewrite pc_delta, P_mul. reflexivity.
  - rewrite (evh_peq _ _ (pmul_cons c p q)), evh_add, evh_muli. cbn [evh]. rewrite phi0, IH. ring.
Qed.
Lemma rpow_add y a b : req (rpow y (a + b)) (rmul (rpow y a) (rpow y b)).
Proof. induction a as [|a IH]; cbn [rpow Nat.add]; [ring|]. rewrite IH. ring. Qed.
(** the sum of c_i x^i, as [evaluate] computes it *)
Lemma evh_snoc p c : req (evh (p ++ [c])) (radd (evh p) (rmul (phi c) (rpow x (length p)))).
Proof.
  induction p as [|d p IH]; cbn [evh app rpow length]; [ring|]. rewrite IH. ring.
Qed.
Lemma evh_pn p k : req (evh (pn p k)) (rpow (evh p) k).
Proof.
  induction k as [|k IH]; cbn [pn rpow].
  - cbn. rewrite phi1. ring.
  - rewrite evh_mul, IH. reflexivity.
Qed.
End Ev.

(** evaluation at an int *)
Definition evZ (x : Z) (p : list Z) : Z := evh Z 0 Z.add Z.mul (fun c => c) x p.
Lemma rpow_Z y k : rpow Z 1 Z.mul y k = y ^ Z.of_nat k.
Proof. induction k as [|k IH]; [reflexivity|]. cbn [rpow]. rewrite IH, Nat2Z.inj_succ, Z.pow_succ_r by lia. reflexivity. Qed.
Lemma Zext : ring_eq_ext Z.add Z.mul Z.opp (@eq Z).
Proof. split; [intros ? ? -> ? ? -> |intros ? ? -> ? ? -> |intros ? ? ->]; reflexivity. Qed.
Lemma enumerate_app {A} (a b : list A) s : enumerate s (a ++ b) = enumerate s a ++ enumerate (s + Z.of_nat (length a)) b.
Proof.
  revert s. induction a as [|x a IH]; intros s; cbn [app enumerate length]; [now rewrite Z.add_0_r|].
  rewrite IH. do 3 f_equal. lia.
Qed.
Lemma peval_int_ev p x : peval_int p x = evZ x p.
Proof.
  unfold peval_int, evZ. induction p as [|c p IH] using rev_ind; [reflexivity|].
  rewrite enumerate_app, fold_left_app, IH. cbn [enumerate fold_left].
  rewrite (evh_snoc Z 0 1 Z.add Z.mul Z.sub Z.opp eq _ Zext InitialRing.Zth (fun c => c) x p c).
  rewrite rpow_Z, Z.add_0_l. destruct (Z.eqb_spec c 0) as [->|N]; lia.
Qed.

(** evaluation at a Poly *)
Definition pconst (c : Z) : poly := poly_make [c].
Definition evP (x : poly) (p : poly) : poly := evh (list Z) [] padd pmul pconst x p.
Lemma pconst_peq c : peq (pconst c) [c]. Proof. apply make_peq. Qed.
Lemma pconst0 : peq (pconst 0) []. Proof. reflexivity. Qed.
Lemma pconst1 : peq (pconst 1) [1]. Proof. reflexivity. Qed.
Lemma pconstA a b : peq (pconst (a + b)) (padd (pconst a) (pconst b)).
Proof. apply peq_P. intros g. unfold pconst. rewrite P_add, !P_make, !P_const. lia. Qed.
Lemma pconstM a b : peq (pconst (a * b)) (pmul (pconst a) (pconst b)).
Proof. apply peq_P. intros g. unfold pconst. rewrite P_mul, !P_make, !P_const. rewrite P_make, P_const, Z.add_0_r. apply eq_sym, Z.mul_assoc. Qed.
Lemma pmuli_const p c : peq (pmuli p c) (pmul (pconst c) p).
Proof. apply peq_P. intros g. unfold pconst. rewrite P_mul, P_muli, P_make, P_const. apply Z.mul_comm. Qed.
Lemma rpow_pn x k : rpow (list Z) [1] pmul x k = pn x k.
Proof. induction k as [|k IH]; [reflexivity|]. cbn. now rewrite IH. Qed.
Lemma peval_poly_ev p x : pcanon x -> exists r, peval_poly p x = Ok r /\ pcanon r /\ peq r (evP x p).
Proof.
  intros Hx. unfold peval_poly, evP. induction p as [|c p [r [E1 [E2 E3]]]] using rev_ind.
  - exists []. split; [reflexivity|]. split; [apply pcanon_nil|]. reflexivity.
  - rewrite enumerate_app, foldM_app, E1. cbn [bind enumerate foldM]. rewrite Z.add_0_l.
    pose proof (evh_snoc _ [] [1] padd pmul psub pneg peq _ pring_ext pring pconst x p c) as S.
    rewrite rpow_pn in S. destruct (Z.eqb_spec c 0) as [->|N].
    + cbn [bind]. exists r. split; [reflexivity|]. split; [exact E2|]. rewrite S, E3, pconst0. ring.
    + rewrite ppow_pos by (auto; lia). cbn [bind]. eexists. split; [reflexivity|]. split; [auto with pcanon|].
      rewrite S, E3, pmuli_const, Nat2Z.id. reflexivity.
Qed.
