(** PolyRepSpan.v – the exponents that occur in the matrix of a word. *)
From Verif Require Import Base ModelPoly SpecPoly PolyTheory PolyDiv EvalTheory PropsPoly ModelTL SpecTL TLTheory TLAlg TLAlg2 TLBasis TLCells TLRel PropsTL ModelMatrix SpecMatrix MatrixTheory PropsMatrix ModelTLMor TLMorTheory TLGens TLFlip PropsTLMor PropsTLMor2 JonesTheory TLTrace PropsTLMor3 MarkovTheory TLCup.
From Verif Require Import ModelPerm PermTheory WeakOrder SpecPerm ModelBraid SpecBraid BraidTheory FullTwistBraid FullTwist ModelRep SpecRep NumTheory RepTheory RepCanon PropsRep FullTwistRep.
From Verif Require Import ModelPolymat SpecPolymat PropsPolymat3 PropsTwist TableTheory PolyRepTheory.
From Coq Require Import Ring Setoid Morphisms Relations.
Local Open Scope nat_scope.
#[local] Existing Instance neqp_equiv.
Local Notation isid := (MatrixTheory.is_identity (NI 0) (NI 1)).

(** stacking e_k on a diagram closes at most one loop *)
Lemma e_loops n m k x : typed n m x -> k + 1 < n -> snd (dprod (de k n) x) <= 1.
Proof.
  intros Tx Hk. pose proof Tx as [D0 [T B]]. pose proof D0 as [C L]. pose proof (crossingless_e k n Hk) as Ce. pose proof (e_seq_length k n) as Le.
  destruct (C29_compose (e_seq k n) (dseq x) n Ce C ltac:(lia) ltac:(lia)) as [r [c [Ec [Cr [Lr [J [[l Ll] U]]]]]]].
  assert (Q : dprod (de k n) x = (mkD n m r, c)).
  { unfold dprod. rewrite (tld_mul_ok (de k n) x r c); [cbn [de dtop]; now rewrite B|now apply diagram_e|exact D0|now rewrite T|exact Ec]. }
  rewrite Q. cbn [snd]. rewrite <- (U l Ll). destruct Ll as (K1 & K2 & _).
  assert (KK : forall a, In a l -> a = k \/ a = k + 1).
  { intros a Ha. destruct (K1 a Ha) as [La Na]. destruct (Nat.eq_dec a k) as [|N1]; [auto|]. destruct (Nat.eq_dec a (k + 1)) as [|N2]; [auto|]. exfalso.
    apply (Na (length (dseq x) - n + (n - 1 - a))); [rewrite Le; lia|]. apply rst_step. unfold outer. destruct (Nat.ltb_spec (length (dseq x) - n + (n - 1 - a)) (length (dseq x) - n)); [lia|].
    pose proof (arc_upper (e_seq k n) (dseq x) n a ltac:(lia)) as A. rewrite nth_e in A by lia.
    destruct (Nat.eqb_spec a k); [lia|]. destruct (Nat.eqb_spec a (k + 1)); [lia|]. destruct (Nat.eqb_spec a (2 * n - k - 1)); [lia|]. destruct (Nat.eqb_spec a (2 * n - k - 2)); [lia|].
    replace (length (dseq x) - n + (n - 1 - a) - (length (dseq x) - n) + n) with (2 * n - 1 - a) by lia. exact A. }
  destruct l as [|a [|b l]]; cbn [length]; [lia|lia|]. exfalso. assert (F : Forall (fun k' => ~ joined (e_seq k n) (dseq x) n (Up a) (Up k')) (b :: l)) by (inversion K2; assumption). rewrite Forall_forall in F. apply (F b); [now left|].
  pose proof (KK a ltac:(now left)) as Ka. pose proof (KK b ltac:(right; now left)) as Kb.
  assert (Ar : joined (e_seq k n) (dseq x) n (Up k) (Up (k + 1))) by (apply rst_step; pose proof (arc_upper (e_seq k n) (dseq x) n k ltac:(lia)) as A; now rewrite nth_e, Nat.eqb_refl in A by lia).
  destruct Ka as [-> | ->], Kb as [-> | ->]; first [apply rst_refl|exact Ar|now apply rst_sym].
Qed.

(** ** exponents of the action on the cell module *)
Definition npos (w : bword) : Z := Z.of_nat (length (filter (fun l => snd l) w)).
Definition nneg' (w : bword) : Z := Z.of_nat (length (filter (fun l => negb (snd l)) w)).
Definition rng (n m : nat) (F : diag -> lpoly) (lo hi : Z) : Prop := forall x, typed n m x -> forall e, coef (F x) e <> 0%Z -> (lo <= e <= hi)%Z.
Lemma coef_ladd a b e : coef (ladd a b) e = (coef a e + coef b e)%Z. Proof. now rewrite !coef_L, L_add. Qed.
Lemma coef_lneg a e : coef (lneg a) e = (- coef a e)%Z. Proof. now rewrite !coef_L, L_neg. Qed.
Lemma rng_sgm n m F lo hi i e : i + 1 < n -> rng n m F lo hi -> rng n m (sgm n F (i, e)) (if e then lo else lo - 2) (if e then hi + 2 else hi).
Proof.
  intros Hi K x Tx k N. unfold sgm, EE, DE in N. cbn [fst snd] in N. pose proof (e_loops n m i x Tx Hi) as Q. set (y := fst (dprod (de i n) x)) in *. set (c := snd (dprod (de i n) x)) in *.
  assert (Ty : typed n m y) by (apply (dprod_typed n n m); [split; [now apply diagram_e|auto]|exact Tx]).
  pose proof (K x Tx) as K1. pose proof (K y Ty) as K2.
  assert (V : forall s t, leq (lmul (vpow s) (vpow t)) (vpow (s + t))) by apply vpow_add.
  assert (Z : (coef (F x) k <> 0 \/ coef (F y) (k - (if e then 1 else -1)) <> 0 \/ coef (F y) (k - (if e then 2 else -2)) <> 0 \/ coef (F y) k <> 0)%Z).
  { destruct (Z.eq_dec (coef (F x) k) 0) as [Z1|Z1]; [|auto]. right. rewrite coef_ladd, Z1, Z.add_0_l in N. assert (c = 0 \/ c = 1) as [Ec|Ec] by lia; rewrite Ec in N.
    - left. assert (W : leq (lmul (cf e) (lmul (q2 0) (F y))) (lneg (lmul (vpow (if e then 1 else -1)%Z) (F y)))).
      { rewrite q2_0. destruct e; cbn [cf]; [change vL with (vpow 1)|change vinv with (vpow (-1))]; ring. }
      rewrite (W k), coef_lneg, vpow_coef in N. lia.
    - right. assert (W : leq (lmul (cf e) (lmul (q2 1) (F y))) (lneg (ladd (lmul (vpow (if e then 2 else -2)%Z) (F y)) (F y)))).
      { rewrite q2_1, Q2_v. change vL with (vpow 1). change vinv with (vpow (-1)). pose proof (V 1 1)%Z as V1. pose proof (V 1 (-1))%Z as V2. pose proof (V (-1) (-1))%Z as V3. change (vpow (1 + -1)) with (lint 1) in V2. change (1 + 1)%Z with 2%Z in V1. change (-1 + -1)%Z with (-2)%Z in V3.
        destruct e; cbn [cf]; change vL with (vpow 1); change vinv with (vpow (-1)).
        - transitivity (lneg (ladd (lmul (lmul (vpow 1) (vpow 1)) (F y)) (lmul (lmul (vpow 1) (vpow (-1))) (F y)))); [ring|]. rewrite V1, V2. ring.
        - transitivity (lneg (ladd (lmul (lmul (vpow (-1)) (vpow (-1))) (F y)) (lmul (lmul (vpow 1) (vpow (-1))) (F y)))); [ring|]. rewrite V3, V2. ring. }
      rewrite (W k), coef_lneg, coef_ladd, vpow_coef in N. destruct (Z.eq_dec (coef (F y) k) 0) as [Z2|Z2]; [left; lia|right; exact Z2]. }
  destruct Z as [Z|[Z|[Z|Z]]]; [specialize (K1 _ Z)|specialize (K2 _ Z)|specialize (K2 _ Z)|specialize (K2 _ Z)]; destruct e; lia.
Qed.
Lemma rng_ev n m w : in_range n w -> forall F lo hi, rng n m F lo hi -> rng n m (ev n w F) (lo - 2 * nneg' w) (hi + 2 * npos w).
Proof.
  induction 1 as [|[i e] w Hl Hw IH]; intros F lo hi K.
  - cbn [ev fold_left]. unfold nneg', npos. cbn. replace (lo - 0)%Z with lo by lia. replace (hi + 0)%Z with hi by lia. exact K.
  - cbn [ev fold_left]. specialize (IH _ _ _ (rng_sgm n m F lo hi i e Hl K)). unfold nneg', npos in *. cbn [filter snd negb]. intros x Tx k N. specialize (IH x Tx k N). destruct e; cbn [negb length] in *; lia.
Qed.
Lemma npos_nneg w : (npos w + nneg' w = Z.of_nat (length w))%Z.
Proof. unfold npos, nneg'. induction w as [|[i [|]] w IH]; cbn [filter snd negb length]; lia. Qed.

Lemma M_span n r p R d gens invs E w : jones_rep n r p = Ok R -> rep_dimension R = Ok (Z.of_nat d) -> rep_artin_gens_invs R = Ok (gens, invs) -> isid d E -> in_range n w ->
  forall i j e, i < d -> j < d -> ~ (p | numcoef (mentry (M gens invs E w) i j) e)%Z -> (- 2 * nneg' w <= e <= 2 * npos w)%Z.
Proof.
  intros EJ ED EG HE Hw i j e Hi Hj N. destruct (jones_rep_ok n r p R EJ) as [Hn [Hr [Hp ER]]]. subst R. cbn [rep_dimension rep_artin_gens_invs] in *.
  destruct (C32_cell_basis n r Hr) as [B [EB _]]. pose proof (jones_dim n r B Hr EB) as ED'. rewrite ED in ED'. injection ED' as ED'. assert (Ed : d = length B) by lia. subst d.
  destruct (C31_gens_invs n) as [gs [hs [Et _]]]. destruct (gens_ok n r p Hr Hp B EB gs hs Et) as [gens' [invs' [EG' [FG [FH _]]]]]. rewrite EG in EG'. injection EG' as <- <-.
  pose proof (Mev n r p Hr Hp B EB gs hs Et gens invs E HE FG FH w Hw i j Hi Hj) as Q. cbv zeta in Q. apply neqp_congr in Q. specialize (Q e). change (ent (NI 0) (M gens invs E w) i j) with (mentry (M gens invs E w) i j) in Q.
  set (P := ev n w (ddelta (nth i B (did 0))) (nth j B (did 0))) in *. change (numcoef (NL P) e) with (coef P e) in Q.
  assert (NZ : coef P e <> 0%Z) by (intros Z; apply N; rewrite Z, Z.sub_0_r in Q; exact Q).
  assert (R0 : rng n (n - 2 * r) (ddelta (nth i B (did 0))) 0 0).
  { intros x _ k. unfold ddelta. destruct (diag_eqb _ _); rewrite coef_L, L_int; [|lia]. destruct (Z.eq_dec k 0); [lia|]. unfold delta. intros K. exfalso. apply K. destruct (Z.eqb_spec 0 k); [lia|]. reflexivity. }
  specialize (rng_ev n (n - 2 * r) w Hw _ _ _ R0 (nth j B (did 0)) (b_typed n r Hr B EB j Hj) e NZ). lia.
Qed.
