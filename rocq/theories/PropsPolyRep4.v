(** PropsPolyRep4.v – C60: polymat_artin_gens_invs and polymat_evaluate_artin_word. *)
From Verif Require Import Base ModelPoly SpecPoly PolyTheory PolyDiv EvalTheory PropsPoly ModelTL SpecTL TLTheory TLAlg TLAlg2 TLBasis TLCells TLRel PropsTL ModelMatrix SpecMatrix MatrixTheory PropsMatrix ModelTLMor TLMorTheory TLGens TLFlip PropsTLMor PropsTLMor2 JonesTheory TLTrace PropsTLMor3 MarkovTheory TLCup.
From Verif Require Import ModelPerm PermTheory WeakOrder SpecPerm ModelBraid SpecBraid BraidTheory FullTwistBraid FullTwist ModelRep SpecRep NumTheory RepTheory RepCanon PropsRep FullTwistRep.
From Verif Require Import ModelPolymat SpecPolymat PolymatTheory PropsPolymat PropsPolymat2 PropsPolymat3 PropsTwist TableTheory ModelPolyRep PolyRepTheory PolyRepSpan.
From Verif Require PropsPolyRep2.
From Coq Require Import Ring Setoid Morphisms Relations.
Local Open Scope nat_scope.
#[local] Existing Instance neqp_equiv.
Local Notation isid := (MatrixTheory.is_identity (NI 0) (NI 1)).

Lemma ddelta_coef x y k : coef (ddelta x y) k = if diag_eqb x y && (k =? 0)%Z then 1%Z else 0%Z.
Proof. unfold ddelta. destruct (diag_eqb x y); cbn [andb]; rewrite coef_L, L_int; unfold delta; rewrite Z.eqb_sym; destruct (Z.eqb_spec k 0); lia. Qed.
(** the coefficients of a generator *)
Lemma sgm_coef n m z i e x k : typed n m x -> i + 1 < n ->
  (Z.abs (coef (sgm n (ddelta z) (i, e) x) k) <= 3)%Z.
Proof.
  intros Tx Hi. unfold sgm, EE, DE. cbn [fst snd]. pose proof (e_loops n m i x Tx Hi) as Q. set (y := fst (dprod (de i n) x)) in *. set (c := snd (dprod (de i n) x)) in *.
  assert (V : forall s t, leq (lmul (vpow s) (vpow t)) (vpow (s + t))) by apply vpow_add. set (F := ddelta z).
  assert (B : forall d t, (Z.abs (coef (F d) t) <= 1)%Z) by (intros d t; unfold F; rewrite ddelta_coef; destruct (_ && _); lia).
  rewrite coef_ladd. pose proof (B x k) as B1. assert (c = 0 \/ c = 1) as [Ec|Ec] by lia; rewrite Ec.
  - assert (W : leq (lmul (cf e) (lmul (q2 0) (F y))) (lneg (lmul (vpow (if e then 1 else -1)%Z) (F y)))).
    { rewrite q2_0. destruct e; cbn [cf]; [change vL with (vpow 1)|change vinv with (vpow (-1))]; ring. }
    rewrite (W k), coef_lneg, vpow_coef. pose proof (B y (k - (if e then 1 else -1))%Z). lia.
  - assert (W : leq (lmul (cf e) (lmul (q2 1) (F y))) (lneg (ladd (lmul (vpow (if e then 2 else -2)%Z) (F y)) (F y)))).
    { rewrite q2_1, Q2_v. change vL with (vpow 1). change vinv with (vpow (-1)). pose proof (V 1 1)%Z as V1. pose proof (V 1 (-1))%Z as V2. pose proof (V (-1) (-1))%Z as V3. change (vpow (1 + -1)) with (lint 1) in V2. change (1 + 1)%Z with 2%Z in V1. change (-1 + -1)%Z with (-2)%Z in V3.
      destruct e; cbn [cf]; change vL with (vpow 1); change vinv with (vpow (-1)).
      - transitivity (lneg (ladd (lmul (lmul (vpow 1) (vpow 1)) (F y)) (lmul (lmul (vpow 1) (vpow (-1))) (F y)))); [ring|]. rewrite V1, V2. ring.
      - transitivity (lneg (ladd (lmul (lmul (vpow (-1)) (vpow (-1))) (F y)) (lmul (lmul (vpow 1) (vpow (-1))) (F y)))); [ring|]. rewrite V3, V2. ring. }
    rewrite (W k), coef_lneg, coef_ladd, vpow_coef. pose proof (B y (k - (if e then 2 else -2))%Z). pose proof (B y k). lia.
Qed.

Section G.
Variables (n r : nat) (p : Z) (R : rep) (d : nat) (gens invs : list (mat num)).
Hypothesis (EJ : jones_rep n r p = Ok R) (ED : rep_dimension R = Ok (Z.of_nat d)) (EG : rep_artin_gens_invs R = Ok (gens, invs)).
Hypothesis Hp1 : p <> 1%Z.

(** everything about the generators that is needed below *)
Lemma gen_facts : exists E B, rep_id R = Ok E /\ isid d E /\ d = length B /\ 0 < d /\ 2 * r <= n /\ (0 <= p)%Z /\ length gens = n - 1 /\ length invs = n - 1 /\
  (forall l, fst l + 1 < n -> sq d (lt gens invs E l) /\ reduced_matrix p (lt gens invs E l) /\
     forall i j k, i < d -> j < d -> (p | numcoef (mentry (lt gens invs E l) i j) k - coef (sgm n (ddelta (nth i B (did 0))) l (nth j B (did 0))) k)%Z) /\
  cell_basis n r = Ok B.
Proof using EJ ED EG.
  destruct (jones_all n r p R EJ) as (d' & gens' & invs' & E & EN & EP & Hp & Hd & ED' & EG' & EI & HE & L1 & L2 & S1 & S2 & R1 & R2 & _).
  rewrite ED in ED'. injection ED' as ED'. apply Nat2Z.inj in ED'. subst d'. rewrite EG in EG'. injection EG' as <- <-.
  destruct (jones_rep_ok n r p R EJ) as [Hn [Hr [_ ER]]]. pose proof EG as EG0. pose proof ED as ED0. rewrite ER in EG0, ED0. cbn [rep_artin_gens_invs rep_dimension] in EG0, ED0.
  destruct (C32_cell_basis n r Hr) as [B [EB _]]. pose proof (jones_dim n r B Hr EB) as ED1. rewrite ED0 in ED1. injection ED1 as ED1. apply Nat2Z.inj in ED1.
  destruct (C31_gens_invs n) as [gs [hs [Et _]]]. destruct (gens_ok n r p Hr Hp B EB gs hs Et) as [g' [h' [EG' [FG [FH _]]]]]. rewrite EG0 in EG'. injection EG' as <- <-.
  exists E, B. split; [exact EI|]. split; [exact HE|]. split; [exact ED1|]. split; [exact Hd|]. split; [exact Hr|]. split; [exact Hp|]. split; [exact L1|]. split; [exact L2|]. split; [|exact EB].
  intros l Hl. split; [|split].
  - unfold lt, G, H. rewrite Forall_forall in S1, S2. destruct (snd l); [apply S1|apply S2]; apply nth_In; lia.
  - unfold lt, G, H. rewrite Forall_forall in R1, R2. destruct (snd l); [apply R1|apply R2]; apply nth_In; lia.
  - intros i j k Hi Hj. rewrite ED1 in Hi, Hj, HE. pose proof (letter_ent n r p Hr Hp B EB gs hs Et gens invs E FG FH l i j Hl Hi Hj) as Q. cbv zeta in Q. apply neqp_congr in Q. exact (Q k).
Qed.

Lemma red_coef X i j k : reduced_matrix p X -> (0 <= p)%Z -> p <> 0%Z -> sq d X -> i < d -> j < d -> (0 <= numcoef (mentry X i j) k < p)%Z.
Proof using Type.
  clear. intros RX P0 Np (W & R1 & C1) Hi Hj. unfold reduced_matrix in RX. rewrite Forall_forall in RX. destruct (RX (mentry X i j)) as (l & El & _ & Rl); [apply nth_In; rewrite W; nia|]. rewrite El. change (numcoef (NL l) k) with (coef l k). apply coef_range; [exact Rl|lia].
Qed.
Lemma mod_val c x : (0 <= p)%Z -> (p <> 0 -> 0 <= c < p)%Z -> (p | c - x)%Z -> c = if (p =? 0)%Z then x else (x mod p)%Z.
Proof using Type.
  clear. intros P0 Rc D. destruct (Z.eqb_spec p 0) as [E|N].
  - subst p. apply Z.divide_0_l in D. lia.
  - specialize (Rc N). destruct D as [q D]. apply (Z.mod_unique_pos x p (- q)); [exact Rc|]. lia.
Qed.
(** numpy's element type for the representation *)
Hypothesis Hp31 : (p <= 2 ^ 31)%Z.
Lemma letter_array l E B : (forall l, fst l + 1 < n -> sq d (lt gens invs E l) /\ reduced_matrix p (lt gens invs E l) /\
     forall i j k, i < d -> j < d -> (p | numcoef (mentry (lt gens invs E l) i j) k - coef (sgm n (ddelta (nth i B (did 0))) l (nth j B (did 0))) k)%Z) ->
  cell_basis n r = Ok B -> d = length B -> 2 * r <= n -> (0 <= p)%Z -> 0 < d -> isid d E -> fst l + 1 < n ->
  let X := lt gens invs E l in
  (forall k, has_exponent X k -> (0 <= k)%Z) ->
  exists A, from_matrix X false (polymat_dtype p) = Ok (Some A) /\ wfa A /\ apre A = [] /\ aI A = d /\ aJ A = d /\ adt A = polymat_dtype p /\
    forall i j k, i < d -> j < d -> acoef A [] i j k = numcoef (mentry X i j) (Z.of_nat k).
Proof using EJ ED EG Hp1 Hp31.
  intros F EB ED1 Hr Hp Hd HE Hl X HX. destruct (F l Hl) as (SX & RX & CX). fold X in SX, RX, CX. pose proof SX as (W & R1 & C1).
  assert (PM : poly_matrix X) by (split; [exact W|eapply reduced_0; exact RX]).
  assert (IN : forall i j k, i < d -> j < d -> in_dtype (polymat_dtype p) (numcoef (mentry X i j) k)).
  { intros i j k Hi Hj. pose proof (CX i j k Hi Hj) as D. unfold polymat_dtype. destruct (Z.ltb_spec 0 p) as [P|P].
    - pose proof (red_coef X i j k RX Hp ltac:(lia) SX Hi Hj). unfold in_dtype. cbn. lia.
    - assert (P0 : p = 0%Z) by lia. rewrite P0 in D. apply Z.divide_0_l in D. rewrite ED1 in Hj. pose proof (sgm_coef n (n - 2 * r) (nth i B (did 0)) (fst l) (snd l) (nth j B (did 0)) k (b_typed n r Hr B EB j Hj) Hl) as K.
      replace (fst l, snd l) with l in K by now destruct l. unfold in_dtype. cbn. lia. }
  destruct (C67_from_matrix X false (polymat_dtype p) PM ltac:(lia) ltac:(lia)) as (A & EA & WA & A1 & A2 & A3 & _ & _ & KA); [intros i j k Hi Hj; apply IN; congruence|exact HX|].
  exists A. split; [exact EA|]. split; [exact WA|]. split; [exact A1|]. split; [congruence|]. split; [congruence|]. split.
  - apply (from_matrix_dtype _ _ _ _ EA). right. split; [destruct (fm_int X PM) as [K _]; [lia|lia|exact K]|].
    destruct (forallb lis_zero (map lentry (mdata X))) eqn:Z0; [|reflexivity]. exfalso.
    destruct (eval_ok n r p R [] EJ ltac:(constructor)) as (d2 & gens2 & invs2 & E2 & A' & ED2 & EG2 & EI2 & HE2 & _). rewrite ED in ED2. injection ED2 as ED2. apply Nat2Z.inj in ED2. subst d2. rewrite EG in EG2. injection EG2 as <- <-.
    assert (Hin : in_range n [l]) by (constructor; [destruct l; exact Hl|constructor]).
    destruct (M_nonzero n r p R d gens invs E2 EJ ED EG EI2 Hp1 [l] Hin) as (i & j & k & Hi & Hj & N).
    assert (EE2 : lt gens invs E2 l = X). { unfold X, lt, G, H. destruct (gen_facts) as (E' & B' & _ & _ & _ & _ & _ & _ & L1 & L2 & _). destruct (snd l); apply nth_indep; lia. }
    destruct (jones_all n r p R EJ) as (d' & gens' & invs' & E3 & EN & EP & _ & _ & ED' & EG' & EI3 & HE3 & _ & _ & S1 & S2 & _). rewrite ED in ED'. injection ED' as ED'. apply Nat2Z.inj in ED'. subst d'. rewrite EG in EG'. injection EG' as <- <-.
    pose proof (M_one p d gens invs E2 HE2 S1 S2 l) as Q. rewrite EE2 in Q.
    apply (meq_ent (NI 0) (neqp p)) in Q; [|apply (M_sq d gens invs E2 HE2 S1 S2)|exact W]. destruct Q as (_ & _ & Q). pose proof (M_sq d gens invs E2 HE2 S1 S2 [l]) as (_ & R2 & C2). specialize (Q i j ltac:(lia) ltac:(lia)). apply neqp_congr in Q. specialize (Q k).
    change (ent (NI 0) (M gens invs E2 [l]) i j) with (mentry (M gens invs E2 [l]) i j) in Q. change (ent (NI 0) X i j) with (mentry X i j) in Q.
    assert (ZX : numcoef (mentry X i j) k = 0%Z). { destruct (Z.eq_dec (numcoef (mentry X i j) k) 0) as [K|K]; [exact K|]. exfalso. apply (proj1 (fm_zero X PM) Z0 k). exists i, j. split; [congruence|]. split; [congruence|exact K]. }
    apply N. rewrite ZX, Z.sub_0_r in Q. exact Q.
  - intros i j k Hi Hj. rewrite KA by congruence. destruct (Z.ltb_spec (Z.of_nat k) 0); [lia|]. now rewrite Nat2Z.id.
Qed.
(** a positive generator has no negative exponents *)
Lemma gen_nonneg E B i : (forall l, fst l + 1 < n -> sq d (lt gens invs E l) /\ reduced_matrix p (lt gens invs E l) /\
     forall i j k, i < d -> j < d -> (p | numcoef (mentry (lt gens invs E l) i j) k - coef (sgm n (ddelta (nth i B (did 0))) l (nth j B (did 0))) k)%Z) ->
  cell_basis n r = Ok B -> d = length B -> 2 * r <= n -> (0 <= p)%Z -> i + 1 < n -> forall k, has_exponent (lt gens invs E (i, true)) k -> (0 <= k)%Z.
Proof using Type.
  clear. intros F EB ED1 Hr Hp Hi k (a & b & Ha & Hb & N). destruct (F (i, true) Hi) as (SX & RX & CX). set (X := lt gens invs E (i, true)) in *. pose proof SX as (_ & R1 & C1). rewrite R1 in Ha. rewrite C1 in Hb.
  pose proof (CX a b k Ha Hb) as D. apply mod_val in D; [|exact Hp|intros Np; now apply red_coef].
  assert (NZ : coef (sgm n (ddelta (nth a B (did 0))) (i, true) (nth b B (did 0))) k <> 0%Z). { intros Z. rewrite Z in D. rewrite D in N. destruct (p =? 0)%Z; [lia|]. apply N. apply Z.mod_0_l. intros Q. rewrite Q in *. rewrite Zmod_0_r in N. lia. }
  assert (R0 : rng n (n - 2 * r) (ddelta (nth a B (did 0))) 0 0).
  { intros x _ t. rewrite ddelta_coef. destruct (Z.eqb_spec t 0); [lia|]. rewrite andb_false_r. lia. }
  rewrite ED1 in Hb. pose proof (rng_sgm n (n - 2 * r) _ 0 0 i true Hi R0 (nth b B (did 0)) (b_typed n r Hr B EB b Hb) k NZ). cbn in *. lia.
Qed.
(** for r >= 1, some inverse generator has a negative exponent *)
Lemma inv_negative E B : (forall l, fst l + 1 < n -> sq d (lt gens invs E l) /\ reduced_matrix p (lt gens invs E l) /\
     forall i j k, i < d -> j < d -> (p | numcoef (mentry (lt gens invs E l) i j) k - coef (sgm n (ddelta (nth i B (did 0))) l (nth j B (did 0))) k)%Z) ->
  cell_basis n r = Ok B -> d = length B -> 2 * r <= n -> (0 <= p)%Z -> 0 < d -> 1 <= r -> exists i, i + 1 < n /\ has_exponent (lt gens invs E (i, false)) (-2).
Proof using Hp1.
  intros F EB ED1 Hr Hp Hd H1. pose proof (b_typed n r Hr B EB 0 ltac:(lia)) as Tb. destruct (top_cup _ n (n - 2 * r) Tb ltac:(lia)) as [i [Hi Q]]. exists i. split; [exact Hi|].
  destruct (F (i, false) Hi) as (SX & RX & CX). pose proof SX as (_ & R1 & C1). exists 0, 0. split; [lia|]. split; [lia|]. intros N. pose proof (CX 0 0 (-2)%Z Hd Hd) as D. rewrite N in D.
  assert (W : leq (sgm n (ddelta (nth 0 B (did 0))) (i, false) (nth 0 B (did 0))) (lneg (vpow (-2)))).
  { unfold sgm, EE, DE. cbn [fst snd cf]. rewrite Q. cbn [fst snd]. rewrite ddelta_refl, q2_1, Q2_v. change vL with (vpow 1). change vinv with (vpow (-1)).
    pose proof (vpow_add 1 (-1))%Z as V2. pose proof (vpow_add (-1) (-1))%Z as V3. change (vpow (1 + -1)) with (lint 1) in V2. change (-1 + -1)%Z with (-2)%Z in V3. rewrite <- V3. rewrite <- V2 at 1. ring. }
  rewrite (W (-2)%Z), coef_lneg in D. change (coef (vpow (-2)) (-2)) with 1%Z in D. change (0 - - (1))%Z with 1%Z in D. apply Z.divide_1_r_nonneg in D; [contradiction|exact Hp].
Qed.
End G.

Lemma mapM_err {A B} (f : A -> res B) (e : exn) l : (forall x, In x l -> (exists y, f x = Ok y) \/ f x = Err e) -> (exists x, In x l /\ f x = Err e) -> mapM f l = Err e.
Proof.
  induction l as [|x l IH]; intros H [y [Hy Ey]]; [destruct Hy|]. cbn [mapM]. destruct (H x ltac:(now left)) as [[z Ez]|Ez]; rewrite Ez; cbn [bind]; [|reflexivity].
  rewrite IH; [reflexivity|intros w Hw; apply H; now right|]. destruct Hy as [->|Hy]; [congruence|]. exists y. auto.
Qed.
Lemma In_lt_true gens invs E n x : length gens = n - 1 -> In x gens -> exists i, i + 1 < n /\ x = lt gens invs E (i, true).
Proof. intros L H. destruct (In_nth _ _ E H) as [i [Hi Q]]. exists i. split; [lia|]. now rewrite <- Q. Qed.
Lemma In_lt_false gens invs E n x : length invs = n - 1 -> In x invs -> exists i, i + 1 < n /\ x = lt gens invs E (i, false).
Proof. intros L H. destruct (In_nth _ _ E H) as [i [Hi Q]]. exists i. split; [lia|]. now rewrite <- Q. Qed.

(** C60 is false: for every n >= 2, 1 <= r <= n / 2 and modulus other than 1, and for
    every word (also the empty one), polymat_evaluate_artin_word raises ValueError:
    the images of the inverse generators have negative powers of v, and
    polymat_artin_gens_invs calls from_matrix without proj=True. *)
Theorem C60_evaluate_artin_word_refuted n r p R : jones_rep n r p = Ok R -> 2 <= n -> 1 <= r -> p <> 1%Z -> (p <= 2 ^ 31)%Z ->
  polymat_artin_gens_invs R = Err ValueError /\ forall w, polymat_evaluate_artin_word R w = Err ValueError.
Proof.
  intros EJ n2 H1 Hp1 Hp31. cut (polymat_artin_gens_invs R = Err ValueError); [intros K; split; [exact K|]; intros w; unfold polymat_evaluate_artin_word; now rewrite K|].
  destruct (jones_all n r p R EJ) as (d & gens & invs & E0 & EN & EP & _ & _ & ED & EG & _).
  destruct (gen_facts n r p R d gens invs EJ ED EG) as (E & B & EI & HE & ED1 & Hd & Hr & Hp & L1 & L2 & F & EB).
  unfold polymat_artin_gens_invs. rewrite EG, EP. cbn [bind].
  set (f := fun x => some_array (from_matrix x false (polymat_dtype p))).
  assert (KG : forall x, In x gens -> exists A, f x = Ok A /\ wfa A /\ apre A = [] /\ aI A = d /\ aJ A = d /\ adt A = polymat_dtype p).
  { intros x Hx. destruct (In_lt_true gens invs E n x L1 Hx) as [i [Hi ->]]. destruct (letter_array n r p R d gens invs EJ ED EG Hp1 Hp31 (i, true) E B F EB ED1 Hr Hp Hd HE Hi (gen_nonneg n r p d gens invs E B i F EB ED1 Hr Hp Hi)) as (A & EA & K1 & K2 & K3 & K4 & K5 & _).
    exists A. unfold f. rewrite EA. cbn [bind some_array]. auto 10. }
  destruct (mapM_Forall2 f (fun _ A => wfa A /\ apre A = [] /\ aI A = d /\ aJ A = d /\ adt A = polymat_dtype p) gens KG) as [gs [Egs Fgs]]. rewrite Egs. cbn [bind].
  assert (PK : exists P, pack gs = Ok P).
  { assert (Lg : length gs = n - 1) by (rewrite <- L1; symmetry; clear -Fgs; induction Fgs; cbn; congruence).
    assert (HI : forall A, In A gs -> wfa A /\ apre A = [] /\ aI A = d /\ aJ A = d /\ adt A = polymat_dtype p). { clear -Fgs. induction Fgs as [|x A l l' K _ IH]; [intros A []|]. intros A' [<-|HA]; auto. }
    destruct gs as [|A0 gs']; [cbn in Lg; lia|]. destruct (HI A0 ltac:(now left)) as (W0 & P0 & I0 & J0 & T0). destruct (C67_pack A0 gs') as (P & EPk & _); [| |exists P; exact EPk].
    - apply Forall_forall. intros A HA. destruct (HI A HA) as (? & ? & ? & ? & ?). split; [assumption|]. split; [assumption|]. split; congruence.
    - intros A i j e HA Hi Hj. destruct (HI A HA) as (WA & PA & IA & JA & TA). rewrite T0, <- TA. apply acoef_range; [exact WA|rewrite PA; constructor|lia|lia]. }
  destruct PK as [P ->]. cbn [bind].
  assert (NEG : forall i k, i + 1 < n -> has_exponent (lt gens invs E (i, false)) k -> (k < 0)%Z -> f (lt gens invs E (i, false)) = Err ValueError).
  { intros i k Hi HX Hk. destruct (F (i, false) Hi) as ((W & R1 & C1) & RX & _). unfold f. rewrite (C67_from_matrix_negative _ _ k); [reflexivity| |exact HX|exact Hk]. split; [exact W|]. eapply reduced_0; exact RX. }
  rewrite (mapM_err f ValueError invs); [reflexivity| |].
  - intros x Hx. destruct (In_lt_false gens invs E n x L2 Hx) as [i [Hi ->]]. set (X := lt gens invs E (i, false)) in *.
    assert (DEC : (exists k, (k < 0)%Z /\ has_exponent X k) \/ forall k, has_exponent X k -> (0 <= k)%Z).
    { destruct (F (i, false) Hi) as ((W & R1 & C1) & RX & _). fold X in W, R1, C1, RX. assert (PM : poly_matrix X) by (split; [exact W|eapply reduced_0; exact RX]).
      destruct (forallb lis_zero (map lentry (mdata X))) eqn:Z0; [right; intros k HX; exfalso; exact (proj1 (fm_zero X PM) Z0 k HX)|]. destruct (fm_min X PM Z0) as [MI ML]. cbv zeta in MI, ML.
      destruct (Z_lt_le_dec (ModelPolymat.zmin (map lval (filter (fun x => negb (lis_zero x)) (map lentry (mdata X))))) 0) as [L|L]; [left; eexists; split; [exact L|exact MI]|right; intros k HX; specialize (ML k HX); lia]. }
    destruct DEC as [[k [Hk HX]]|HX]; [right; now apply (NEG i k)|left].
    destruct (letter_array n r p R d gens invs EJ ED EG Hp1 Hp31 (i, false) E B F EB ED1 Hr Hp Hd HE Hi HX) as (A & EA & _). exists A. unfold f, X. rewrite EA. reflexivity.
  - destruct (inv_negative n r p d gens invs Hp1 E B F EB ED1 Hr Hp Hd H1) as [i [Hi HX]]. exists (lt gens invs E (i, false)). split; [unfold lt, H; cbn [snd fst]; apply nth_In; lia|]. apply (NEG i (-2)%Z Hi HX). lia.
Qed.
Theorem C60_one_strand_refuted p R w : jones_rep 1 0 p = Ok R -> polymat_evaluate_artin_word R w = Err AssertionError.
Proof.
  intros EJ. destruct (jones_rep_ok _ _ _ _ EJ) as (_ & _ & _ & ->). unfold polymat_evaluate_artin_word, polymat_artin_gens_invs. cbn [rep_artin_gens_invs rep_p].
  assert (K : jones_gens_invs 1 0 p = Ok ([], [])) by (unfold jones_gens_invs; destruct (p =? 0)%Z; reflexivity). rewrite K. reflexivity.
Qed.

(** ** r = 0: the one-dimensional representation *)
Definition dlt (k : nat) : Z := if k =? 0 then 1%Z else 0%Z.
Definition one_arr (t : dtype) (pre : list nat) (A : parr) : Prop :=
  wfa A /\ apre A = pre /\ aI A = 1 /\ aJ A = 1 /\ adt A = t /\ forall idx k, valid_index pre idx -> acoef A idx 0 0 k = dlt k.
Lemma one_aD t pre A idx : one_arr t pre A -> valid_index pre idx -> 1 <= aD A.
Proof. intros (_ & _ & _ & _ & _ & K) V. specialize (K idx 0 V). unfold acoef in K. destruct (Nat.ltb_spec 0 (aD A)); [lia|discriminate]. Qed.
Lemma one_projectivise t pre A : one_arr t pre A -> 1 <= nitems pre -> exists C, projectivise A = Ok C /\ one_arr t pre C.
Proof.
  intros (W & P & I & J & T & K) N. destruct (C65_projectivise A W) as (C & E & WC & C1 & C2 & C3 & C4 & KC & _); [now rewrite P| |].
  - intros idx V. rewrite P in V. exists 0, 0, 0. rewrite I, J, (K idx 0 V). cbn. lia.
  - exists C. split; [exact E|]. rewrite P, I, J, T in *. split; [exact WC|]. do 4 (split; [congruence|]). intros idx k V. destruct (KC idx V) as (q & LD & S & _).
    assert (q = 0). { destruct q as [|q]; [reflexivity|]. pose proof (proj2 LD 0 0 0 ltac:(lia) ltac:(lia) ltac:(lia)) as Z. rewrite (K idx 0 V) in Z. discriminate. }
    subst q. specialize (S 0 0 k ltac:(lia) ltac:(lia)). rewrite (K idx k V) in S. unfold shift in S. cbn [Nat.ltb Nat.leb] in S. rewrite Nat.sub_0_r in S. now symmetry.
Qed.
Lemma one_reduce p pre A : one_arr (polymat_dtype p) pre A -> (0 <= p)%Z -> p <> 1%Z -> (p < 2 ^ 31)%Z -> exists C, reduce_arr p A = Ok C /\ one_arr (polymat_dtype p) pre C.
Proof.
  intros (W & P & I & J & T & K) Hp Hp1 Hp2. unfold reduce_arr. destruct (Z.eqb_spec p 0) as [E|N]; [exists A; split; [reflexivity|]; split; auto 10|].
  assert (ET : polymat_dtype p = I32) by (unfold polymat_dtype; destruct (Z.ltb_spec 0 p); [reflexivity|lia]).
  destruct (arr_mod_ok A p W ltac:(lia)) as (C & E & WC & C1 & C2 & C3 & C4 & C5 & KC); [rewrite T, ET; cbn; lia|unfold in_dtype; cbn; lia|].
  exists C. split; [exact E|]. split; [exact WC|]. do 3 (split; [congruence|]). split; [rewrite C5; [exact T|]; rewrite T, ET; apply fits_ok; unfold in_dtype; cbn; lia|].
  intros idx k V. rewrite KC; [|now rewrite P|lia|lia]. rewrite (K idx k V). unfold dlt. destruct (k =? 0); [apply Z.mod_1_l; lia|apply Z.mod_0_l; lia].
Qed.
Lemma zsum_first n f : (forall i, 0 < i -> i < n -> f i = 0%Z) -> zsum n f = if 0 <? n then f 0 else 0%Z.
Proof.
  induction n as [|n IH]; intros H; [reflexivity|]. cbn [zsum]. rewrite IH by (intros i A B; apply H; lia). change (0 <? S n) with true. cbv iota.
  destruct (Nat.ltb_spec 0 n); [rewrite (H n) by lia; lia|]. assert (n = 0) by lia. subst n. lia.
Qed.
Lemma one_mul t A B : one_arr t [] A -> one_arr t [] B -> exists C, mul A B None = Ok C /\ one_arr t [] C.
Proof.
  intros OA OB. assert (V0 : valid_index [] []) by constructor. pose proof (one_aD _ _ _ _ OA V0) as DA. pose proof (one_aD _ _ _ _ OB V0) as DB.
  destruct OA as (W & P & I & J & T & K). destruct OB as (W' & P' & I' & J' & T' & K').
  destruct (C64_mul A B W W' ltac:(congruence)) as (C & E & WC & BC & C2 & C3 & C4 & C5 & _); [rewrite P, P'; apply compatible_self|lia|].
  rewrite P, P' in BC. apply broadcasts_self in BC. exists C. split; [exact E|]. split; [exact WC|]. split; [exact BC|]. split; [congruence|]. split; [congruence|]. split; [congruence|].
  assert (PC : forall d, prod_coef (aJ A) (acoef A []) (acoef B []) 0 0 d = dlt d).
  { intros d. unfold prod_coef. rewrite J. rewrite zsum_first by (intros; lia). change (0 <? 1) with true. cbv iota. rewrite zsum_first; [|intros i Hi _; rewrite (K [] i V0); unfold dlt; destruct (Nat.eqb_spec i 0); lia].
    change (0 <? S d) with true. cbv iota. rewrite (K [] 0 V0), (K' [] _ V0), Nat.sub_0_r. unfold dlt. change (0 =? 0) with true. cbv iota. lia. }
  intros idx k V. inversion V; subst idx.
  rewrite (C64_mul_exact A B C W W' E).
  - rewrite P, P'. change (operand_index [] []) with (@nil nat). apply PC.
  - intros idx i k' d' V' Hi Hk. rewrite BC in V'. inversion V'; subst idx. rewrite P, P'. change (operand_index [] []) with (@nil nat). rewrite C2, I in Hi. rewrite C3, J' in Hk. replace i with 0 by lia. replace k' with 0 by lia. rewrite PC. unfold in_dtype, dlt. rewrite T. destruct (d' =? 0), t; cbn; lia.
  - now rewrite BC.
  - lia.
  - lia.
Qed.
Lemma one_item t N A k : one_arr t [N] A -> k < N -> exists C, arr_item A (Z.of_nat k) = Ok C /\ one_arr t [] C.
Proof.
  intros (W & P & I & J & T & K) Hk. assert (V : valid_index (apre A) [k]) by (rewrite P; constructor; [exact Hk|constructor]). destruct (wfa_block A [k] W V) as [L F].
  destruct (PropsPolyRep2.item_ok A N k W P Hk) as (C & EC & WC & C1 & C2 & C3 & C4 & C5 & KC). exists C. split; [exact EC|]. split; [exact WC|]. split; [exact C1|]. split; [congruence|]. split; [congruence|]. split; [congruence|].
  intros idx e V'. inversion V'; subst idx. rewrite KC by lia. apply K. now rewrite <- P.
Qed.
Lemma did_ne_e n i : i + 1 < n -> diag_eqb (did n) (de i n) = false.
Proof.
  intros H. destruct (diag_eqb_spec (did n) (de i n)) as [Q|]; [|reflexivity]. exfalso. assert (E : nth i (dseq (did n)) 0 = nth i (dseq (de i n)) 0) by now rewrite Q.
  cbn [did de dseq] in E. rewrite nth_e in E by lia. rewrite Nat.eqb_refl in E. rewrite nth_id in E by lia. lia.
Qed.
Section Z0.
Variables (n : nat) (p : Z) (R : rep).
Hypothesis (EJ : jones_rep n 0 p = Ok R) (n2 : 2 <= n) (Hp1 : p <> 1%Z) (Hp31 : (p < 2 ^ 31)%Z).
Lemma zero_letters : exists gens invs E, rep_artin_gens_invs R = Ok (gens, invs) /\ rep_id R = Ok E /\ rep_dimension R = Ok 1%Z /\ rep_p R = p /\ (0 <= p)%Z /\ isid 1 E /\ length gens = n - 1 /\ length invs = n - 1 /\
  Forall (sq 1) gens /\ Forall (sq 1) invs /\
  forall l, fst l + 1 < n -> (forall k, numcoef (mentry (lt gens invs E l) 0 0) k = if (k =? 0)%Z then 1%Z else 0%Z) /\
    exists A, some_array (from_matrix (lt gens invs E l) false (polymat_dtype p)) = Ok A /\ one_arr (polymat_dtype p) [] A.
Proof using EJ Hp1 Hp31 n2.
  destruct (jones_all n 0 p R EJ) as (d & gens & invs & E0 & EN & EP & _ & _ & ED & EG & EI0 & _ & _ & _ & S1 & S2 & _).
  destruct (gen_facts n 0 p R d gens invs EJ ED EG) as (E & B & EI & HE & ED1 & Hd & Hr & Hp & L1 & L2 & F & EB).
  assert (D1 : rep_dimension R = Ok 1%Z) by (destruct (jones_rep_ok _ _ _ _ EJ) as (_ & _ & _ & ->); reflexivity). rewrite D1 in ED. injection ED as ED. assert (Q1 : 1 = d) by lia. clear ED. rename ED1 into ED2. assert (ED1 : 1 = length B) by congruence. clear ED2. subst d.
  rewrite EI in EI0. injection EI0 as <-.
  exists gens, invs, E. do 10 (split; [assumption|]).
  assert (IB : In (nth 0 B (did 0)) B) by (apply nth_In; lia). apply (B_spec n 0 Hr B EB) in IB. destruct IB as [TB KB]. replace (n - 2 * 0) with n in TB, KB by lia.
  assert (EBd : nth 0 B (did 0) = did n) by (now apply through_id).
  intros l Hl. assert (NC : forall k, numcoef (mentry (lt gens invs E l) 0 0) k = if (k =? 0)%Z then 1%Z else 0%Z).
  { intros k. destruct (F l Hl) as (SX & RX & CX). pose proof (CX 0 0 k ltac:(lia) ltac:(lia)) as D. apply mod_val in D; [|exact Hp|intros Np; now apply (red_coef p 1)]. rewrite D.
    assert (C : coef (sgm n (ddelta (nth 0 B (did 0))) l (nth 0 B (did 0))) k = if (k =? 0)%Z then 1%Z else 0%Z).
    { rewrite EBd. assert (W : leq (sgm n (ddelta (did n)) l (did n)) (lint 1)).
      { destruct l as [i e]. cbn [fst] in Hl. unfold sgm, EE, DE. cbn [fst snd]. rewrite dp_idr by (split; [now apply diagram_e|auto]). cbn [fst snd]. rewrite ddelta_refl. unfold ddelta. rewrite did_ne_e by exact Hl. ring. }
      rewrite (W k), coef_L, L_int. unfold delta. rewrite Z.eqb_sym. destruct (Z.eqb_spec k 0); lia. }
    rewrite C. destruct (Z.eqb_spec p 0); [reflexivity|]. destruct (k =? 0)%Z; [apply Z.mod_1_l; lia|apply Z.mod_0_l; lia]. }
  split; [exact NC|].
  destruct (letter_array n 0 p R 1 gens invs EJ D1 EG Hp1 ltac:(lia) l E B F EB ED1 Hr Hp Hd HE Hl) as (A & EA & K1 & K2 & K3 & K4 & K5 & KA).
  - intros k (a & b & Ha & Hb & N). destruct (F l Hl) as ((_ & R1 & C1) & _). rewrite R1 in Ha. rewrite C1 in Hb. assert (a = 0) by lia. assert (b = 0) by lia. subst a b. rewrite NC in N. destruct (Z.eqb_spec k 0); [lia|contradiction].
  - exists A. split; [unfold some_array; rewrite EA; reflexivity|]. split; [exact K1|]. do 4 (split; [assumption|]). intros idx k V. inversion V; subst idx. rewrite KA by lia. rewrite NC. unfold dlt. destruct (Z.eqb_spec (Z.of_nat k) 0), (Nat.eqb_spec k 0); lia.
Qed.
Lemma one_pack t gs : gs <> [] -> Forall (one_arr t []) gs -> exists P, pack gs = Ok P /\ one_arr t [length gs] P.
Proof using Type.
  clear. intros NE F. destruct gs as [|A0 gs']; [contradiction|]. rewrite Forall_forall in F. destruct (F A0 ltac:(now left)) as (W0 & P0 & I0 & J0 & T0 & K0).
  destruct (C67_pack A0 gs') as (P & EP & WP & P1 & P2 & P3 & P4 & KP & _).
  - apply Forall_forall. intros A HA. destruct (F A HA) as (? & ? & ? & ? & ? & _). split; [assumption|]. split; [assumption|]. split; congruence.
  - intros A i j e HA Hi Hj. destruct (F A HA) as (WA & PA & IA & JA & TA & _). rewrite T0, <- TA. apply acoef_range; [exact WA|rewrite PA; constructor|lia|lia].
  - exists P. split; [exact EP|]. split; [exact WP|]. split; [exact P1|]. split; [congruence|]. split; [congruence|]. split; [congruence|].
    intros idx k V. inversion V as [|x y l l' Hx Hl]; subst. inversion Hl; subst. rewrite (KP x Hx 0 0 k ltac:(lia) ltac:(lia)). destruct (F (nth x (A0 :: gs') A_default)) as (_ & _ & _ & _ & _ & K); [now apply nth_In|]. apply K. constructor.
Qed.
(** for r = 0 and n >= 2, every word gives the matrix (1), which is its image *)
Theorem C60_r_zero w : word_ok n w -> exists P X, polymat_evaluate_artin_word R w = Ok P /\ wfa P /\ apre P = [] /\ aI P = 1 /\ aJ P = 1 /\
  (forall k, acoef P [] 0 0 k = if k =? 0 then 1%Z else 0%Z) /\
  rep_evaluate_artin_word R w = Ok X /\ mrows X = 1 /\ mcols X = 1 /\ forall k, (p | numcoef (mentry X 0 0) k - (if k =? 0 then 1 else 0))%Z.
Proof using EJ Hp1 Hp31 n2.
  intros Hw. destruct zero_letters as (gens & invs & E & EG & EI & ED & EP & Hp & HE & L1 & L2 & S1 & S2 & F).
  set (t := polymat_dtype p) in *. set (f := fun x => some_array (from_matrix x false t)).
  assert (MG : exists gs, mapM f gens = Ok gs /\ Forall2 (fun _ A => one_arr t [] A) gens gs).
  { apply mapM_Forall2. intros x Hx. destruct (In_lt_true gens invs E n x L1 Hx) as [i [Hi ->]]. apply (F (i, true) Hi). }
  assert (MH : exists hs, mapM f invs = Ok hs /\ Forall2 (fun _ A => one_arr t [] A) invs hs).
  { apply mapM_Forall2. intros x Hx. destruct (In_lt_false gens invs E n x L2 Hx) as [i [Hi ->]]. apply (F (i, false) Hi). }
  assert (F2 : forall (a : list (mat num)) b, Forall2 (fun _ A => one_arr t [] A) a b -> length b = length a /\ Forall (one_arr t []) b) by (induction 1 as [|x y a b K _ [IH1 IH2]]; [auto|split; [cbn; congruence|now constructor]]).
  destruct MG as [gs [Egs Fgs]]. destruct MH as [hs [Ehs Fhs]]. apply F2 in Fgs, Fhs. destruct Fgs as [Lg Fg]. destruct Fhs as [Lh Fh]. rewrite L1 in Lg. rewrite L2 in Lh.
  destruct (one_pack t gs) as (P1 & EP1 & O1); [destruct gs; [cbn in Lg; lia|discriminate]|exact Fg|]. destruct (one_pack t hs) as (P2 & EP2 & O2); [destruct hs; [cbn in Lh; lia|discriminate]|exact Fh|].
  rewrite Lg in O1. rewrite Lh in O2.
  destruct (one_reduce p _ P1 O1 Hp Hp1 Hp31) as (Q1 & EQ1 & O1'). destruct (one_reduce p _ P2 O2 Hp Hp1 Hp31) as (Q2 & EQ2 & O2').
  assert (N1 : 1 <= nitems [n - 1]) by (cbn; lia).
  destruct (one_projectivise _ _ Q1 O1' N1) as (G1 & EG1 & OG). destruct (one_projectivise _ _ Q2 O2' N1) as (H1 & EH1 & OH).
  assert (PG : polymat_artin_gens_invs R = Ok (G1, H1)).
  { unfold polymat_artin_gens_invs. rewrite EG, EP. cbn [bind]. fold t. fold f. rewrite Egs. cbn [bind]. rewrite EP1. cbn [bind]. rewrite Ehs. cbn [bind]. rewrite EP2. cbn [bind]. rewrite EQ1. cbn [bind]. rewrite EQ2. cbn [bind]. rewrite EG1. cbn [bind]. rewrite EH1. reflexivity. }
  assert (ID : exists I1, polymat_id R = Ok I1 /\ one_arr t [] I1).
  { unfold polymat_id. rewrite ED, EP. cbn [bind]. fold t. eexists. split; [reflexivity|]. split; [|split; [reflexivity|split; [reflexivity|split; [reflexivity|split; [reflexivity|]]]]].
    - split; [reflexivity|]. split; [repeat constructor|]. repeat constructor; cbn [ModelPolymat.adt]; destruct t; cbn; lia.
    - intros idx k V. inversion V; subst idx. destruct k; reflexivity. }
  destruct ID as (I1 & EI1 & OI).
  set (stepz := fun (e i : Z) product (_ : nat) => x <- arr_item (if (0 <=? e)%Z then G1 else H1) i ;; product <- mul product x None ;; reduce_arr p product).
  assert (IN : forall e i l A, (0 <= i)%Z -> (i + 1 < Z.of_nat n)%Z -> one_arr t [] A -> exists C, foldM (stepz e i) l A = Ok C /\ one_arr t [] C).
  { intros e i l. induction l as [|y l IH]; intros A H0 Hi OA; [exists A; auto|]. cbn [foldM]. unfold stepz at 1.
    destruct (one_item t (n - 1) (if (0 <=? e)%Z then G1 else H1) (Z.to_nat i)) as (C & EC & OC); [destruct (0 <=? e)%Z; assumption|lia|]. rewrite Z2Nat.id in EC by lia. rewrite EC. cbn [bind].
    destruct (one_mul t A C OA OC) as (C' & EC' & OC'). rewrite EC'. cbn [bind]. destruct (one_reduce p _ C' OC' Hp Hp1 Hp31) as (C'' & EC'' & OC''). rewrite EC''. cbn [bind]. now apply IH. }
  assert (OUT : forall w A, word_ok n w -> one_arr t [] A -> exists C, foldM (fun product '(i, e) => foldM (stepz e i) (seq 0 (Z.abs_nat e)) product) w A = Ok C /\ one_arr t [] C).
  { clear w Hw. intros w. induction w as [|[i e] w IH]; intros A Hw OA; [exists A; auto|]. cbn [foldM]. inversion Hw as [|? ? [K1 K2] Hw']; subst. cbn [fst] in K1, K2. destruct (IN e i (seq 0 (Z.abs_nat e)) A K1 K2 OA) as (C & EC & OC). rewrite EC. cbn [bind]. now apply IH. }
  destruct (OUT w I1 Hw OI) as (C & EC & OC). destruct (one_projectivise _ _ C OC ltac:(cbn; lia)) as (P & EPr & OP).
  destruct (eval_ok n 0 p R w EJ Hw) as (d2 & gens2 & invs2 & E2 & X & ED2 & EG2 & EI2 & _ & _ & EX & SX & PX & _).
  rewrite ED in ED2. injection ED2 as ED2. assert (d2 = 1) by lia. subst d2. rewrite EG in EG2. injection EG2 as <- <-. rewrite EI in EI2. injection EI2 as <-.
  exists P, X. split.
  - unfold polymat_evaluate_artin_word. rewrite PG. cbn [bind]. rewrite EI1, EP. cbn [bind]. unfold stepz in EC. rewrite EC. cbn [bind]. exact EPr.
  - destruct OP as (WP & PP & IP & JP & TP & KP). split; [exact WP|]. do 3 (split; [assumption|]). split; [intros k; apply KP; constructor|]. split; [exact EX|]. pose proof SX as (_ & R1 & C1). split; [exact R1|]. split; [exact C1|].
    assert (ME : forall u, in_range n u -> neqp p (ent (NI 0) (M gens invs E u) 0 0) (NI 1)).
    { induction 1 as [|l u Hl Hu IH]; [cbn [M fold_right]; destruct HE as (_ & _ & _ & K); rewrite (K 0 0) by lia; reflexivity|].
      cbn [M fold_right]. fold (M gens invs E u). pose proof (lt_sq 1 gens invs E HE S1 S2 l) as (_ & R2 & C2). pose proof (M_sq 1 gens invs E HE S1 S2 u) as (_ & R3 & C3).
      rewrite (prod_e (NI 0) nadd nmul) by lia. rewrite C2. cbn [rsum].
      assert (Q : neqp p (ent (NI 0) (lt gens invs E l) 0 0) (NI 1)). { apply neqp_congr. intros k. destruct l as [i e]. destruct (F (i, e) Hl) as [NC _]. change (ent (NI 0) (lt gens invs E (i, e)) 0 0) with (mentry (lt gens invs E (i, e)) 0 0). rewrite NC. cbn [numcoef]. rewrite Z.sub_diag. apply Z.divide_0_r. }
      destruct Q as [z1 Q1']. destruct IH as [z2 Q2']. exists (ladd z1 (ladd z2 (lmul (lint p) (lmul z1 z2)))). rewrite coerce_add, coerce_mul, Q1', Q2'. cbn [coerce]. ring. }
    intros k. apply (meq_ent (NI 0) (neqp p)) in PX; [|apply SX|apply (M_sq 1 gens invs E HE S1 S2)]. destruct PX as (_ & _ & PX). specialize (PX 0 0 ltac:(lia) ltac:(lia)).
    rewrite (ME _ (word_ok_range n w Hw)) in PX. apply neqp_congr in PX. specialize (PX k). cbn [numcoef] in PX. exact PX.
Qed.
End Z0.
(** cases: r = 1 raises ValueError for the empty word too; r = 0 works *)
Example C60_case : exists R, jones_rep 3 1 5 = Ok R /\ polymat_evaluate_artin_word R [(0, 1)]%Z = Err ValueError /\ polymat_evaluate_artin_word R [] = Err ValueError.
Proof. destruct (proj1 (proj1 (C58_constructor 3 1 5)) ltac:(lia)) as [R EJ]. exists R. split; [exact EJ|]. split; apply (C60_evaluate_artin_word_refuted 3 1 5 R EJ); lia. Qed.
Example C60_zero_case : exists R P, jones_rep 3 0 5 = Ok R /\ polymat_evaluate_artin_word R [(0, 1); (1, -2)]%Z = Ok P.
Proof. destruct (proj1 (proj1 (C58_constructor 3 0 5)) ltac:(lia)) as [R EJ]. exists R. destruct (C60_r_zero 3 5 R EJ ltac:(lia) ltac:(lia) ltac:(lia) [(0, 1); (1, -2)]%Z) as (P & _ & EP & _); [repeat constructor; cbn; lia|]. exists P. auto. Qed.
