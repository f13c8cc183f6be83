(** JSTheory.v – the evaluation functions of braidsearch.py: the table of the images
    of the permutation braids. *)
From Verif Require Import Base ModelPoly SpecPoly PolyTheory PolyDiv EvalTheory PropsPoly ModelTL SpecTL TLTheory TLAlg TLAlg2 TLBasis TLCells TLRel PropsTL ModelMatrix SpecMatrix MatrixTheory PropsMatrix ModelTLMor TLMorTheory TLGens TLFlip PropsTLMor PropsTLMor2 JonesTheory TLTrace PropsTLMor3 MarkovTheory TLCup.
From Verif Require Import ModelPerm PermTheory WeakOrder SpecPerm ModelBraid SpecBraid BraidTheory FullTwistBraid FullTwist ModelRep SpecRep NumTheory RepTheory RepCanon PropsRep FullTwistRep.
From Verif Require Import ModelPolymat SpecPolymat PolymatTheory PropsPolymat PropsPolymat2 PropsPolymat3 PropsTwist TableTheory ModelPolyRep PolyRepTheory PolyRepSpan PropsPolyRep PropsPolyRep4.
From Verif Require PropsPolyRep2.
From Coq Require Import Ring Setoid Morphisms Relations.
Local Open Scope nat_scope.
#[local] Existing Instance neqp_equiv.
#[local] Existing Instance pmeq_equiv.
Local Notation isid := (MatrixTheory.is_identity (NI 0) (NI 1)).
Local Notation pr := (MatrixTheory.prod (NI 0) nadd nmul).

(** ** the coefficients of the matrix of a word: at most 3^length *)
Definition cbound (n m : nat) (F : diag -> lpoly) (c : Z) : Prop := forall x, typed n m x -> forall e, (Z.abs (coef (F x) e) <= c)%Z.
Lemma cbound_sgm n m F c i e : i + 1 < n -> cbound n m F c -> cbound n m (sgm n F (i, e)) (3 * c).
Proof.
  intros Hi K x Tx k. unfold sgm, EE, DE. cbn [fst snd]. pose proof (e_loops n m i x Tx Hi) as Q. set (y := fst (dprod (de i n) x)) in *. set (c' := snd (dprod (de i n) x)) in *.
  assert (Ty : typed n m y) by (apply (dprod_typed n n m); [split; [now apply diagram_e|auto]|exact Tx]).
  assert (V : forall s t, leq (lmul (vpow s) (vpow t)) (vpow (s + t))) by apply vpow_add.
  rewrite coef_ladd. pose proof (K x Tx k) as B1. assert (c' = 0 \/ c' = 1) as [Ec|Ec] by lia; rewrite Ec.
  - assert (W : leq (lmul (cf e) (lmul (q2 0) (F y))) (lneg (lmul (vpow (if e then 1 else -1)%Z) (F y)))).
    { rewrite q2_0. destruct e; cbn [cf]; [change vL with (vpow 1)|change vinv with (vpow (-1))]; ring. }
    rewrite (W k), coef_lneg, vpow_coef. pose proof (K y Ty (k - (if e then 1 else -1))%Z). lia.
  - assert (W : leq (lmul (cf e) (lmul (q2 1) (F y))) (lneg (ladd (lmul (vpow (if e then 2 else -2)%Z) (F y)) (F y)))).
    { rewrite q2_1, Q2_v. change vL with (vpow 1). change vinv with (vpow (-1)). pose proof (V 1 1)%Z as V1. pose proof (V 1 (-1))%Z as V2. pose proof (V (-1) (-1))%Z as V3. change (vpow (1 + -1)) with (lint 1) in V2. change (1 + 1)%Z with 2%Z in V1. change (-1 + -1)%Z with (-2)%Z in V3.
      destruct e; cbn [cf]; change vL with (vpow 1); change vinv with (vpow (-1)).
      - transitivity (lneg (ladd (lmul (lmul (vpow 1) (vpow 1)) (F y)) (lmul (lmul (vpow 1) (vpow (-1))) (F y)))); [ring|]. rewrite V1, V2. ring.
      - transitivity (lneg (ladd (lmul (lmul (vpow (-1)) (vpow (-1))) (F y)) (lmul (lmul (vpow 1) (vpow (-1))) (F y)))); [ring|]. rewrite V3, V2. ring. }
    rewrite (W k), coef_lneg, coef_ladd, vpow_coef. pose proof (K y Ty (k - (if e then 2 else -2))%Z). pose proof (K y Ty k). lia.
Qed.
Lemma cbound_ev n m w : in_range n w -> forall F c, (0 <= c)%Z -> cbound n m F c -> cbound n m (ev n w F) (3 ^ Z.of_nat (length w) * c).
Proof.
  induction 1 as [|[i e] w Hl Hw IH]; intros F c Hc K; cbn [ev fold_left].
  - cbn [length Z.of_nat Z.pow]. now rewrite Z.mul_1_l.
  - assert (Hc3 : (0 <= 3 * c)%Z) by lia. specialize (IH _ _ Hc3 (cbound_sgm n m F c i e Hl K)). cbn [length]. rewrite Nat2Z.inj_succ, Z.pow_succ_r by lia. intros x Tx k. specialize (IH x Tx k). unfold ev in *. lia.
Qed.
Lemma M_coef n r R d gens invs E w : jones_rep n r 0 = Ok R -> rep_dimension R = Ok (Z.of_nat d) -> rep_artin_gens_invs R = Ok (gens, invs) -> isid d E -> in_range n w ->
  forall i j e, i < d -> j < d -> (Z.abs (numcoef (mentry (M gens invs E w) i j) e) <= 3 ^ Z.of_nat (length w))%Z.
Proof.
  intros EJ ED EG HE Hw i j e Hi Hj. destruct (jones_rep_ok n r 0 R EJ) as [Hn [Hr [Hp ER]]]. subst R. cbn [rep_dimension rep_artin_gens_invs] in *.
  destruct (C32_cell_basis n r Hr) as [B [EB _]]. pose proof (jones_dim n r B Hr EB) as ED'. rewrite ED in ED'. injection ED' as ED'. assert (Ed : d = length B) by lia. subst d.
  destruct (C31_gens_invs n) as [gs [hs [Et _]]]. destruct (gens_ok n r 0 Hr Hp B EB gs hs Et) as [gens' [invs' [EG' [FG [FH _]]]]]. rewrite EG in EG'. injection EG' as <- <-.
  pose proof (Mev n r 0 Hr Hp B EB gs hs Et gens invs E HE FG FH w Hw i j Hi Hj) as Q. cbv zeta in Q. apply neqp_congr in Q. specialize (Q e). change (ent (NI 0) (M gens invs E w) i j) with (mentry (M gens invs E w) i j) in Q.
  set (P := ev n w (ddelta (nth i B (did 0))) (nth j B (did 0))) in *. change (numcoef (NL P) e) with (coef P e) in Q. apply Z.divide_0_l in Q.
  assert (K0 : cbound n (n - 2 * r) (ddelta (nth i B (did 0))) 1) by (intros x _ k; rewrite ddelta_coef; destruct (_ && _); lia).
  assert (Z1 : (0 <= 1)%Z) by lia. pose proof (cbound_ev n (n - 2 * r) w Hw _ _ Z1 K0 (nth j B (did 0)) (b_typed n r Hr B EB j Hj) e) as K. fold P in K. lia.
Qed.

(** ** projectivise without the assumption that the coefficients are reduced *)
Lemma proj_gen p t d pre X A : 1 <= nitems pre -> batch_ok p t d pre X A -> (forall idx, valid_index pre idx -> exists i j e, i < d /\ j < d /\ acoef A idx i j e <> 0%Z) ->
  exists C, projectivise A = Ok C /\ batch_ok p t d pre X C /\ forall idx, valid_index pre idx -> least_degree (acoef C idx) d d 0 /\ exists k, forall i j e, i < d -> j < d -> acoef C idx i j e = acoef A idx i j (k + e).
Proof.
  intros NE (W & EP & EI & EJ & ET & K) NZ. assert (N : all_nonzero A). { intros idx V. rewrite EP in V. destruct (NZ idx V) as (i & j & e & Hi & Hj & Q). exists i, j, e. rewrite EI, EJ. auto. }
  destruct (C65_projectivise A W ltac:(now rewrite EP) N) as (C & E & WC & C1 & C2 & C3 & C4 & KC & _). exists C. split; [exact E|]. rewrite EP, EI, EJ in *. split.
  - split; [exact WC|]. do 3 (split; [congruence|]). split; [congruence|]. intros idx V. destruct (KC idx V) as (k & _ & S & _). apply (agrees_shift p d (X idx) A C idx idx k); [exact S|now apply K].
  - intros idx V. destruct (KC idx V) as (k & _ & S & L). split; [exact L|]. exists k. intros i j e Hi Hj. rewrite (S i j (k + e) Hi Hj). unfold shift. destruct (Nat.ltb_spec (k + e) k); [lia|]. now replace (k + e - k) with e by lia.
Qed.
(** the number of degrees is not larger than needed *)
Lemma mul_top p A B C pre d : polymat_mul p A B = Ok C -> wfa C -> apre C = pre -> aI C = d -> aJ C = d -> 1 <= nitems pre -> (0 <= p)%Z -> wfa A -> wfa B ->
  aJ A = aI B -> apre A = pre -> apre B = pre -> 1 <= aD A + aD B -> (p <> 0%Z -> fits (adt A) p = true) ->
  exists idx, valid_index pre idx /\ greatest_degree (acoef C idx) d d (aD C - 1).
Proof.
  intros EC WC C1 C2 C3 NE Hp WA WB HJ A1 B1 HD HF. unfold polymat_mul in EC.
  destruct (C64_mul A B WA WB HJ ltac:(rewrite A1, B1; apply compatible_self) HD) as (P & EP & WP & BP & IP & JP & _ & TP & _). rewrite A1, B1 in BP. apply broadcasts_self in BP.
  rewrite EP in EC. cbn [bind] in EC. assert (K : exists Q, projectivise Q = Ok C /\ wfa Q /\ apre Q = pre).
  { unfold reduce_arr in EC. destruct (Z.eqb_spec p 0) as [P0|P0]; [cbn [bind] in EC; exists P; auto|]. specialize (HF P0). rewrite <- TP in HF.
    pose proof HF as HF'. apply fits_ok in HF'. unfold in_dtype in HF'. assert (I : in_dtype I64 p) by (unfold in_dtype; destruct (adt P); cbn in *; lia).
    destruct (arr_mod_ok P p WP ltac:(lia) ltac:(lia) I) as (Q & EQ & WQ & Q1 & _). rewrite EQ in EC. cbn [bind] in EC. exists Q. split; [exact EC|]. split; [exact WQ|congruence]. }
  destruct K as (Q & EQ & WQ & Q1). pose proof (C65_idempotent Q C WQ EQ ltac:(now rewrite Q1)) as ID.
  assert (N : all_nonzero C). { intros idx V. pose proof ID as E. unfold projectivise in E. destruct (forallb bany (ablocks C)) eqn:F; [|discriminate]. rewrite (forallb_blocks C bany WC) in F. apply bany_acoef; auto. }
  destruct (C65_projectivise C WC ltac:(now rewrite C1) N) as (C' & EC' & _ & _ & _ & _ & _ & _ & idx & V & GD). assert (C' = C) by congruence. subst C'. exists idx. rewrite C1, C2, C3 in *. auto.
Qed.

Section JS.
Variables (n r : nat) (p : Z) (R : rep) (d : nat) (gens invs : list (mat num)) (E : mat num).
Hypothesis (EJ : jones_rep n r p = Ok R) (ED : rep_dimension R = Ok (Z.of_nat d)) (EG : rep_artin_gens_invs R = Ok (gens, invs)) (EI : rep_id R = Ok E).
Hypothesis Hp1 : p <> 1%Z.
Hypothesis Hr1 : 1 <= r.
Local Notation MM := (M gens invs E).
Local Notation S0 := (mkJS n r p).
Local Notation t := (polymat_dtype p).

Lemma small_dtype z : (Z.abs z <= 3)%Z -> in_dtype t z.
Proof using Type. clear. intros K. unfold in_dtype, polymat_dtype. destruct (0 <? p)%Z; cbn; lia. Qed.

(** the unreduced matrices of the generators *)
Lemma js_letters : 2 <= n /\ exists G0 H0, cell_matrices n r = Ok (G0, H0) /\ length G0 = n - 1 /\ length H0 = n - 1 /\
  forall k (s : bool) x, nth_error (if s then G0 else H0) k = Some x -> let X := mat_map NL x in
    sq d X /\ reduced_matrix 0 X /\ (exists i j e, i < d /\ j < d /\ ~ (p | numcoef (mentry X i j) e)%Z) /\
    (forall i j e, i < d -> j < d -> (Z.abs (numcoef (mentry X i j) e) <= 3)%Z) /\
    (forall i j e, i < d -> j < d -> numcoef (mentry X i j) e <> 0%Z -> if s then (0 <= e <= 2)%Z else (-2 <= e <= 0)%Z) /\
    (forall i j e, i < d -> j < d -> (p | numcoef (mentry (MM [(k, s)]) i j) e - numcoef (mentry X i j) e)%Z).
Proof using EJ ED EG EI Hp1 Hr1.
  destruct (jones_rep_ok n r p R EJ) as [Hn [Hr [Hp ER]]]. split; [lia|].
  destruct (proj1 (proj1 (C58_constructor n r 0)) ltac:(lia)) as [R0 EJ0]. destruct (jones_rep_ok n r 0 R0 EJ0) as (_ & _ & _ & ER0).
  assert (ED0 : rep_dimension R0 = Ok (Z.of_nat d)) by (rewrite ER0; rewrite ER in ED; exact ED).
  destruct (jones_all n r 0 R0 EJ0) as (d' & gens0 & invs0 & E0 & _ & _ & _ & Hd & ED' & EG0 & EI0 & HE0 & L1 & L2 & _).
  rewrite ED0 in ED'. injection ED' as ED'. apply Nat2Z.inj in ED'. subst d'.
  destruct (gen_facts n r 0 R0 d gens0 invs0 EJ0 ED0 EG0) as (E0' & B & EI0' & _ & ED1 & _ & _ & _ & _ & _ & F0 & EB). rewrite EI0 in EI0'. injection EI0' as <-.
  destruct (gen_facts n r p R d gens invs EJ ED EG) as (E' & B' & EI' & HE & _ & _ & _ & _ & LG & LH & F & EB'). rewrite EI in EI'. injection EI' as <-. rewrite EB in EB'. injection EB' as <-.
  pose proof EG0 as EC. rewrite ER0 in EC. cbn [rep_artin_gens_invs] in EC. unfold jones_gens_invs in EC. destruct (cell_matrices n r) as [[G0 H0]|] eqn:ECM; [|discriminate]. cbn [bind Z.eqb] in EC. injection EC as EC1 EC2.
  exists G0, H0. split; [reflexivity|]. split; [rewrite <- L1, <- EC1; symmetry; apply map_length|]. split; [rewrite <- L2, <- EC2; symmetry; apply map_length|].
  intros k s x Hk X.
  assert (Lk : k < n - 1). { assert (k < length (if s then G0 else H0)) by (apply nth_error_Some; congruence). destruct s; [rewrite <- L1, <- EC1|rewrite <- L2, <- EC2]; now rewrite map_length. }
  assert (EX : lt gens0 invs0 E0 (k, s) = X). { unfold lt, G, H. cbn [fst snd]. destruct s; apply nth_error_nth; [rewrite <- EC1|rewrite <- EC2]; rewrite nth_error_map, Hk; reflexivity. }
  destruct (F0 (k, s)) as (SX & RX & CX); [cbn; lia|]. rewrite EX in SX, RX, CX.
  destruct (F (k, s)) as (SY & RY & CY); [cbn; lia|].
  assert (CX' : forall i j e, i < d -> j < d -> numcoef (mentry X i j) e = coef (sgm n (ddelta (nth i B (did 0))) (k, s) (nth j B (did 0))) e) by (intros i j e Hi Hj; specialize (CX i j e Hi Hj); apply Z.divide_0_l in CX; lia).
  assert (CM : forall i j e, i < d -> j < d -> (p | numcoef (mentry (MM [(k, s)]) i j) e - numcoef (mentry X i j) e)%Z).
  { intros i j e Hi Hj. rewrite CX' by assumption.
    destruct (jones_all n r p R EJ) as (d' & gens' & invs' & E3 & EN & EP & _ & _ & ED' & EG' & EI3 & HE3 & _ & _ & S1 & S2 & _). rewrite ED in ED'. injection ED' as ED'. apply Nat2Z.inj in ED'. subst d'. rewrite EG in EG'. injection EG' as <- <-.
    pose proof (M_one p d gens invs E HE S1 S2 (k, s)) as Q. apply (meq_ent (NI 0) (neqp p)) in Q; [|apply (M_sq d gens invs E HE S1 S2)|apply SY]. destruct Q as (_ & _ & Q). pose proof (M_sq d gens invs E HE S1 S2 [(k, s)]) as (_ & R2 & C2). specialize (Q i j ltac:(lia) ltac:(lia)). apply neqp_congr in Q. specialize (Q e).
    change (ent (NI 0) (M gens invs E [(k, s)]) i j) with (mentry (MM [(k, s)]) i j) in Q. change (ent (NI 0) (lt gens invs E (k, s)) i j) with (mentry (lt gens invs E (k, s)) i j) in Q.
    specialize (CY i j e Hi Hj). set (a := numcoef (mentry (MM [(k, s)]) i j) e) in *. set (b := numcoef (mentry (lt gens invs E (k, s)) i j) e) in *. set (c := coef _ e) in *.
    replace (a - c)%Z with ((a - b) + (b - c))%Z by ring. now apply Z.divide_add_r. }
  split; [exact SX|]. split; [exact RX|]. split; [|split; [|split; [|exact CM]]].
  - destruct (M_nonzero n r p R d gens invs E EJ ED EG EI Hp1 [(k, s)]) as (i & j & e & Hi & Hj & N); [constructor; [cbn; lia|constructor]|]. exists i, j, e. split; [exact Hi|]. split; [exact Hj|]. intros Dv. apply N. specialize (CM i j e Hi Hj).
    replace (numcoef (mentry (MM [(k, s)]) i j) e) with ((numcoef (mentry (MM [(k, s)]) i j) e - numcoef (mentry X i j) e) + numcoef (mentry X i j) e)%Z by ring. now apply Z.divide_add_r.
  - intros i j e Hi Hj. rewrite CX' by assumption. rewrite ED1 in Hj. apply (sgm_coef n (n - 2 * r)); [apply (b_typed n r Hr B EB j Hj)|lia].
  - intros i j e Hi Hj N. rewrite CX' in N by assumption.
    assert (RG : rng n (n - 2 * r) (ddelta (nth i B (did 0))) 0 0). { intros x' _ t'. rewrite ddelta_coef. destruct (Z.eqb_spec t' 0); [lia|]. rewrite andb_false_r. lia. }
    rewrite ED1 in Hj. assert (Lk' : k + 1 < n) by lia. pose proof (rng_sgm n (n - 2 * r) _ 0 0 k s Lk' RG (nth j B (did 0)) (b_typed n r Hr B EB j Hj) e N) as Q. destruct s; lia.
Qed.
(** the array of the generators *)
Lemma js_gens_ok : exists gs hs, js_gens_invs S0 = Ok (gs, hs) /\ batch_ok p t d [n - 1] (fun idx => MM [(hd 0 idx, true)]) gs /\
  forall k i j e, k < n - 1 -> i < d -> j < d -> (Z.abs (acoef gs [k] i j e) <= 3)%Z /\ (3 <= e -> acoef gs [k] i j e = 0%Z).
Proof using EJ ED EG EI Hp1 Hr1.
  destruct js_letters as (n2 & G0 & H0 & EC & LG & LH & KL).
  destruct (Mfacts n r p R d gens invs E EJ ED EG EI) as (_ & _ & Hp & Hd & _ & SM & _ & _).
  assert (NI0 : forall X, sq d X -> reduced_matrix 0 X -> forall i j, i < d -> j < d -> True) by auto.
  (* one matrix *)
  assert (ONE : forall k (s : bool) x, nth_error (if s then G0 else H0) k = Some x -> exists A, from_matrix (mat_map NL x) (negb s) t = Ok (Some A) /\ batch_ok p t d [] (fun _ => MM [(k, s)]) A /\
    (exists i j e, i < d /\ j < d /\ acoef A [] i j e <> 0%Z) /\ (s = true -> forall i j e, i < d -> j < d -> (Z.abs (acoef A [] i j e) <= 3)%Z /\ (3 <= e -> acoef A [] i j e = 0%Z))).
  { intros k s x Hk. destruct (KL k s x Hk) as (SX & RX & (i0 & j0 & e0 & Hi0 & Hj0 & N0) & AB & RG & CM). set (X := mat_map NL x) in *. pose proof SX as (W & R1 & C1).
    assert (N1 : numcoef (mentry X i0 j0) e0 <> 0%Z) by (intros Q; apply N0; rewrite Q; apply Z.divide_0_r).
    assert (PM : poly_matrix X) by (split; [exact W|exact RX]).
    assert (V0 : forall idx, valid_index [] idx -> idx = []) by (intros idx V; now inversion V).
    destruct s; cbn [negb].
    - destruct (C67_from_matrix X false t PM ltac:(lia) ltac:(lia)) as (A & EA & WA & A1 & A2 & A3 & _ & _ & KA).
      + intros i j e Hi Hj. apply small_dtype, AB; congruence.
      + intros e (i & j & Hi & Hj & N). specialize (RG i j e ltac:(congruence) ltac:(congruence) N). cbn in RG. lia.
      + assert (KA' : forall i j e, i < d -> j < d -> acoef A [] i j e = numcoef (mentry X i j) (Z.of_nat e)) by (intros i j e Hi Hj; rewrite KA by congruence; destruct (Z.ltb_spec (Z.of_nat e) 0); [lia|now rewrite Nat2Z.id]).
        exists A. split; [exact EA|]. assert (EI2 : aI A = d) by congruence. assert (EJ2 : aJ A = d) by congruence. split; [|split].
        * split; [exact WA|]. split; [exact A1|]. split; [exact EI2|]. split; [exact EJ2|]. split.
          { apply (from_matrix_dtype _ _ _ _ EA). right. split; [destruct (fm_int X PM) as [K _]; [lia|lia|exact K]|].
            destruct (forallb lis_zero (map lentry (mdata X))) eqn:Z0; [|reflexivity]. exfalso. apply (proj1 (fm_zero X PM) Z0 e0). exists i0, j0. split; [congruence|]. split; [congruence|exact N1]. }
          { intros idx V. rewrite (V0 idx V). exists 0%Z. intros i j e Hi Hj. destruct (Z.ltb_spec e 0) as [L|L].
            - rewrite Z.sub_0_r. specialize (CM i j e Hi Hj). replace (numcoef (mentry X i j) e) with 0%Z in CM; [now rewrite Z.sub_0_r in CM|]. destruct (Z.eq_dec (numcoef (mentry X i j) e) 0) as [Q|Q]; [auto|]. specialize (RG i j e Hi Hj Q). cbn in RG. lia.
            - rewrite KA' by assumption. rewrite Z.sub_0_r, Z2Nat.id by lia. now apply CM. }
        * specialize (RG i0 j0 e0 Hi0 Hj0 N1). cbn in RG. exists i0, j0, (Z.to_nat e0). split; [exact Hi0|]. split; [exact Hj0|]. rewrite KA' by assumption. now rewrite Z2Nat.id by lia.
        * intros _ i j e Hi Hj. rewrite KA' by assumption. split; [now apply AB|]. intros He. destruct (Z.eq_dec (numcoef (mentry X i j) (Z.of_nat e)) 0) as [Q|Q]; [exact Q|]. specialize (RG i j _ Hi Hj Q). cbn in RG. lia.
    - destruct (from_matrix_image X d t SX Hd) as (A & m & EA & WA & A1 & A2 & A3 & A4 & KA & ML).
      + exists e0, i0, j0. split; [congruence|]. split; [congruence|exact N1].
      + intros i j e Hi Hj. now apply small_dtype, AB.
      + left. exact RX.
      + exists A. split; [exact EA|]. split; [|split; [|discriminate]].
        * split; [exact WA|]. do 4 (split; [assumption|]). intros idx V. rewrite (V0 idx V). exists m. intros i j e Hi Hj. specialize (CM i j e Hi Hj). destruct (Z.ltb_spec e m) as [L|L].
          { replace (numcoef (mentry X i j) e) with 0%Z in CM; [exact CM|]. destruct (Z.eq_dec (numcoef (mentry X i j) e) 0) as [Q|Q]; [auto|]. exfalso. specialize (ML e). assert (has_exponent X e) by (exists i, j; repeat split; auto; congruence). specialize (ML H). lia. }
          { rewrite KA by assumption. now replace (Z.of_nat (Z.to_nat (e - m)) + m)%Z with e by lia. }
        * assert (has_exponent X e0) by (exists i0, j0; repeat split; auto; congruence). specialize (ML e0 H). exists i0, j0, (Z.to_nat (e0 - m)). split; [exact Hi0|]. split; [exact Hj0|]. rewrite KA by assumption. now replace (Z.of_nat (Z.to_nat (e0 - m)) + m)%Z with e0 by lia. }
  (* a list *)
  assert (LST : forall (s : bool) (L : list (mat lpoly)), L = (if s then G0 else H0) -> exists gs P C, mapM (fun x => some_array (from_matrix (mat_map NL x) (negb s) t)) L = Ok gs /\ pack gs = Ok P /\ projectivise P = Ok C /\
    batch_ok p t d [n - 1] (fun idx => MM [(hd 0 idx, s)]) C /\ (s = true -> forall k i j e, k < n - 1 -> i < d -> j < d -> (Z.abs (acoef C [k] i j e) <= 3)%Z /\ (3 <= e -> acoef C [k] i j e = 0%Z))).
  { intros s L EL. assert (LL : length L = n - 1) by (rewrite EL; now destruct s).
    destruct (choice_list (fun k A => forall x, nth_error L k = Some x -> from_matrix (mat_map NL x) (negb s) t = Ok (Some A) /\ batch_ok p t d [] (fun _ => MM [(k, s)]) A /\
      (exists i j e, i < d /\ j < d /\ acoef A [] i j e <> 0%Z) /\ (s = true -> forall i j e, i < d -> j < d -> (Z.abs (acoef A [] i j e) <= 3)%Z /\ (3 <= e -> acoef A [] i j e = 0%Z))) A_default (n - 1)) as [g Hg].
    { intros k Hk. destruct (nth_error L k) as [x|] eqn:Ex; [|apply nth_error_None in Ex; lia]. destruct (ONE k s x) as (A & HA); [rewrite <- EL; exact Ex|]. exists A. intros y Ey. injection Ey as <-. exact HA. }
    set (gs := map g (seq 0 (n - 1))). exists gs. assert (EM : mapM (fun x => some_array (from_matrix (mat_map NL x) (negb s) t)) L = Ok gs).
    { unfold gs. rewrite <- LL. apply mapM_nth. intros k x Hk. assert (Lk : k < n - 1) by (rewrite <- LL; apply nth_error_Some; congruence). destruct (Hg k Lk x Hk) as (-> & _). reflexivity. }
    assert (NG : forall k A, nth_error gs k = Some A -> k < n - 1 /\ A = g k). { intros k A Hk. assert (Lk : k < n - 1) by (assert (k < length gs) by (apply nth_error_Some; congruence); unfold gs in *; now rewrite map_length, seq_length in *). split; [exact Lk|]. unfold gs in Hk. rewrite nth_error_map, (nth_error_nth' (seq 0 (n - 1)) 0), seq_nth in Hk by (rewrite ?seq_length; lia). cbn in Hk. congruence. }
    assert (GK : forall k, k < n - 1 -> exists x, nth_error L k = Some x) by (intros k Hk; destruct (nth_error L k) as [x|] eqn:Ex; [eauto|apply nth_error_None in Ex; lia]).
    assert (LGS : length gs = n - 1) by (unfold gs; now rewrite map_length, seq_length).
    destruct (pack_batch p t d gs (fun k => MM [(k, s)])) as (P & EP & BP & KP).
    { intros Q. rewrite Q in LGS. cbn in LGS. lia. }
    { intros k A Hk. destruct (NG k A Hk) as [Lk ->]. destruct (GK k Lk) as [x Hx]. now destruct (Hg k Lk x Hx) as (_ & K & _). }
    rewrite LGS in BP.
    assert (KP' : forall k i j e, k < n - 1 -> i < d -> j < d -> acoef P [k] i j e = acoef (g k) [] i j e) by (intros k i j e Hk Hi Hj; apply (KP k (g k)); auto; unfold gs; rewrite nth_error_map, (nth_error_nth' (seq 0 (n - 1)) 0), seq_nth by (rewrite ?seq_length; lia); reflexivity).
    destruct (proj_gen p t d [n - 1] _ P ltac:(cbn; lia) BP) as (C & ECC & BC & KC).
    { intros idx V. destruct (valid1 _ idx V) as [k [-> Hk]]. destruct (GK k Hk) as [x Hx]. destruct (Hg k Hk x Hx) as (_ & _ & (i & j & e & Hi & Hj & N) & _). exists i, j, e. rewrite KP' by assumption. auto. }
    exists P, C. do 4 (split; [assumption|]). intros Es k i j e Hk Hi Hj. assert (V : valid_index [n - 1] [k]) by (constructor; [exact Hk|constructor]). destruct (KC [k] V) as (_ & q & Q). rewrite Q, KP' by assumption. destruct (GK k Hk) as [x Hx]. destruct (Hg k Hk x Hx) as (_ & _ & _ & K). destruct (K Es i j (q + e) Hi Hj) as [K1 K2]. split; [exact K1|]. intros He. apply K2. lia. }
  destruct (LST true G0 eq_refl) as (gs & P & C & E1 & E2 & E3 & BC & KC). destruct (LST false H0 eq_refl) as (hs & P' & C' & F1 & F2 & F3 & _).
  exists C, C'. split; [|split; [exact BC|now apply KC]]. unfold js_gens_invs. cbn [js_n js_r js_p]. rewrite EC. cbn [bind]. cbn [negb] in E1, F1. rewrite E1. cbn [bind]. rewrite E2. cbn [bind]. rewrite E3. cbn [bind]. rewrite F1. cbn [bind]. rewrite F2. cbn [bind]. rewrite F3. reflexivity.
Qed.
(** the identity *)
Lemma js_id_ok : exists eye, js_id S0 = Ok eye /\ batch_ok p t d [] (fun _ => MM []) eye /\ batch_proj p d [] eye /\ aD eye = 1 /\ forall i j, i < d -> j < d -> acoef eye [] i j 0 = if i =? j then 1%Z else 0%Z.
Proof using EJ ED EG EI Hp1 Hr1.
  destruct (Mfacts n r p R d gens invs E EJ ED EG EI) as (_ & _ & Hp & Hd & HE & SM & _ & _).
  destruct (jones_rep_ok n r p R EJ) as (Hn & Hr & _ & ER). pose proof (proj1 (proj1 (C63_constructor n r p)) ltac:(auto)) as [S ES]. destruct (C63_dimension n r p S ES Hr1) as (R' & B & d' & ER' & EB & Ed & _ & JD & RD & _). rewrite EJ in ER'. injection ER' as <-. rewrite ED in RD. injection RD as RD. apply Nat2Z.inj in RD. rewrite <- RD in JD. clear Ed RD.
  assert (ESS : S = S0). { unfold jones_summand in ES. destruct (assert_ (1 <=? n)); [|discriminate]. cbn [bind] in ES. destruct (assert_ (2 * r <=? n)); [|discriminate]. cbn [bind] in ES. destruct (assert_ (0 <=? p)%Z); [|discriminate]. cbn [bind] in ES. congruence. } subst S.
  unfold js_id. cbn [js_p]. rewrite JD. cbn [bind]. unfold np_identity. destruct (Z.ltb_spec (Z.of_nat d) 0); [lia|]. rewrite Nat2Z.id. set (eye := mkA _ _ _ _ _ _). exists eye. split; [reflexivity|].
  set (f := fun i j (_ : nat) => if i =? j then 1%Z else 0%Z) in *.
  assert (WE : wfa eye). { split; [reflexivity|]. split; (constructor; [|constructor]); cbn [aI aJ aD adt eye]; [rewrite btab_length; cbn; lia|]. apply Forall_forall. intros x Hx. unfold btab in Hx. apply in_flat_map in Hx. destruct Hx as [i [_ Hx]]. apply in_flat_map in Hx. destruct Hx as [j [_ Hx]]. apply in_map_iff in Hx. destruct Hx as [k [<- _]]. apply small_dtype. unfold f. destruct (i =? j); cbn; lia. }
  assert (K0 : forall i j e, i < d -> j < d -> acoef eye [] i j e = if (e =? 0) && (i =? j) then 1%Z else 0%Z).
  { intros i j e Hi Hj. rewrite coef_block by (try exact WE; try (cbn [eye aI aJ]; assumption); constructor). cbn [aD aJ eye]. change (block eye []) with (btab d d 1 f). destruct e as [|e]; cbn [Nat.ltb Nat.leb Nat.eqb andb]; [|reflexivity]. now rewrite bget_btab by lia. }
  assert (V0 : forall idx, valid_index [] idx -> idx = []) by (intros idx V; now inversion V).
  split; [|split; [|split; [reflexivity|intros i j Hi Hj; now rewrite K0]]].
  - split; [exact WE|]. do 4 (split; [reflexivity|]). intros idx V. rewrite (V0 idx V). exists 0%Z. intros i j e Hi Hj. change (mentry (MM []) i j) with (ent (NI 0) E i j). destruct HE as (_ & _ & _ & KE). rewrite KE by assumption.
    assert (Q : numcoef (if i =? j then NI 1 else NI 0) e = (if e <? 0 then 0 else acoef eye [] i j (Z.to_nat (e - 0)))%Z); [|rewrite Q, Z.sub_diag; apply Z.divide_0_r].
    destruct (Z.ltb_spec e 0).
    + destruct (i =? j); cbn [numcoef]; destruct (Z.eqb_spec e 0); lia.
    + rewrite K0, Z.sub_0_r by assumption. destruct (i =? j); cbn [numcoef]; destruct (Z.eqb_spec e 0), (Nat.eqb_spec (Z.to_nat e) 0); try lia; reflexivity.
  - intros idx V. rewrite (V0 idx V). split.
    + split; [|intros; lia]. exists 0, 0. split; [exact Hd|]. split; [exact Hd|]. rewrite K0 by assumption. cbn. lia.
    + intros i j e Hi Hj P0. rewrite K0 by assumption. destruct (_ && _); lia.
Qed.
(** one multiplication *)
Lemma M_pr_ent u v i j e : i < d -> j < d -> (p | numcoef (mentry (pr (MM u) (MM v)) i j) e - numcoef (mentry (MM (u ++ v)) i j) e)%Z.
Proof using EJ ED EG EI Hp1 Hr1.
  intros Hi Hj. destruct (Mfacts n r p R d gens invs E EJ ED EG EI) as (_ & _ & _ & _ & _ & SM & _ & PM). pose proof (PM u v) as Q. symmetry in Q.
  apply (meq_ent (NI 0) (neqp p)) in Q; [|apply sq_pr with d; auto|apply SM]. destruct Q as (_ & _ & Q). pose proof (SM u) as (_ & R1 & C1). pose proof (SM v) as (_ & R2 & C2).
  specialize (Q i j ltac:(cbn [mrows MatrixTheory.prod]; lia) ltac:(cbn [mcols MatrixTheory.prod]; lia)). apply neqp_congr in Q. exact (Q e).
Qed.
Lemma js_step pre A B (u w : list nat -> bword) Ka Kb Wb : 1 <= nitems pre -> batch_ok p t d pre (fun idx => MM (u idx)) A -> batch_ok p t d pre (fun idx => MM (w idx)) B ->
  (forall idx, valid_index pre idx -> in_range n (u idx) /\ in_range n (w idx)) -> 1 <= aD A + aD B ->
  (p <> 0%Z -> (p < 2 ^ 31)%Z /\ (0 <= Ka)%Z /\ (0 <= Kb)%Z /\ (Z.of_nat d * (Z.of_nat Wb * (Ka * Kb)) < 2 ^ 31)%Z /\
     forall idx i j e, valid_index pre idx -> i < d -> j < d -> (Z.abs (acoef A idx i j e) <= Ka)%Z /\ (Z.abs (acoef B idx i j e) <= Kb)%Z /\ (Wb <= e -> acoef B idx i j e = 0%Z)) ->
  (p = 0%Z -> forall idx i j e, valid_index pre idx -> i < d -> j < d -> in_dtype I64 (numcoef (mentry (MM (u idx ++ w idx)) i j) e)) ->
  exists C, js_mul S0 A B = Ok C /\ batch_ok p t d pre (fun idx => MM (u idx ++ w idx)) C /\ batch_proj p d pre C.
Proof using EJ ED EG EI Hp1 Hr1.
  intros NE BA BB HR HD BN BZ. destruct (Mfacts n r p R d gens invs E EJ ED EG EI) as (_ & _ & Hp & Hd & _ & SM & BM & PM).
  pose proof BA as (WA & A1 & A2 & A3 & A4 & KA). pose proof BB as (WB & B1 & B2 & B3 & B4 & KB).
  destruct (polymat_mul_ok p t d pre A B (fun idx => MM (u idx)) (fun idx => MM (w idx))) as (C & EC & BC & PC); auto.
  - intros P0. destruct (BN P0) as (L & _). apply fits_ok. unfold in_dtype, polymat_dtype. destruct (Z.ltb_spec 0 p); cbn; lia.
  - intros idx V. split; [apply SM|]. split; [apply SM|]. destruct (HR idx V) as [R1 R2].
    destruct (M_nonzero n r p R d gens invs E EJ ED EG EI Hp1 (u idx ++ w idx)) as (i & j & e & Hi & Hj & NZ); [apply in_range_app; auto|].
    exists i, j, e. split; [exact Hi|]. split; [exact Hj|]. intros Dv. apply NZ. pose proof (M_pr_ent (u idx) (w idx) i j e Hi Hj) as Q.
    set (a := numcoef (mentry (MM (u idx ++ w idx)) i j) e) in *. set (b := numcoef (mentry (pr (MM (u idx)) (MM (w idx))) i j) e) in *. replace a with (b - (b - a))%Z by lia. now apply Z.divide_sub_r.
  - intros idx i k e V Hi Hk. destruct (Z.eq_dec p 0) as [P0|P0].
    + pose proof (KA idx V) as Q1. pose proof (KB idx V) as Q2. cbn beta in Q1, Q2. rewrite P0 in Q1, Q2. destruct (exact_product d (MM (u idx)) (MM (w idx)) A B idx idx WA WB (SM _) (SM _) Q1 Q2) as [s Hs]. rewrite Hs by assumption.
      pose proof (M_pr_ent (u idx) (w idx) i k (Z.of_nat e + s)%Z Hi Hk) as Q. rewrite P0 in Q. apply Z.divide_0_l in Q. specialize (BZ P0 idx i k (Z.of_nat e + s)%Z V Hi Hk).
      replace (polymat_dtype p) with I64 by (rewrite P0; reflexivity). replace (numcoef (mentry (pr (MM (u idx)) (MM (w idx))) i k) (Z.of_nat e + s)) with (numcoef (mentry (MM (u idx ++ w idx)) i k) (Z.of_nat e + s)) by lia. exact BZ.
    + destruct (BN P0) as (L1 & L2 & L3 & L4 & K). assert (U : (Z.abs (prod_coef d (acoef A idx) (acoef B idx) i k e) <= Z.of_nat d * (Z.of_nat (Nat.min (aD A) Wb) * (Ka * Kb)))%Z).
      { apply prod_coef_abs; [exact L2|exact L3| | | |].
        - intros j f Hj. now apply K.
        - intros j f Hj. now apply K.
        - intros j f Hj Hf. unfold acoef. destruct (Nat.ltb_spec f (aD A)); [lia|reflexivity].
        - intros j f Hj Hf. now apply K. }
      assert (0 <= Ka * Kb)%Z by now apply Z.mul_nonneg_nonneg.
      assert (U2 : (Z.of_nat d * (Z.of_nat (Nat.min (aD A) Wb) * (Ka * Kb)) <= Z.of_nat d * (Z.of_nat Wb * (Ka * Kb)))%Z) by (apply Z.mul_le_mono_nonneg_l; [lia|]; apply Z.mul_le_mono_nonneg_r; lia).
      unfold in_dtype, polymat_dtype. destruct (0 <? p)%Z; cbn [dbits]; [change (32 - 1)%Z with 31%Z|change (64 - 1)%Z with 63%Z]; lia.
  - exists C. split; [exact EC|]. split; [|exact PC]. destruct BC as (WC & C1 & C2 & C3 & C4 & KC). split; [exact WC|]. do 4 (split; [assumption|]). intros idx V. specialize (KC idx V). cbn beta in KC.
    assert (MX : pmeq p (pr (MM (u idx)) (MM (w idx))) (MM (u idx ++ w idx))) by (symmetry; apply PM).
    exact (agrees_pmeq p d _ _ C idx ltac:(apply sq_pr with (d := d); auto) (SM _) MX KC).
Qed.
(** the number of degrees of a projectivised image *)
Lemma image_depth w A idx i j e : in_range n w -> agrees p d (MM w) A idx -> least_degree (acoef A idx) d d 0 -> (forall i j e, i < d -> j < d -> p <> 0%Z -> (0 <= acoef A idx i j e < p)%Z) ->
  i < d -> j < d -> 2 * length w < e -> acoef A idx i j e = 0%Z.
Proof using EJ ED EG EI Hp1 Hr1.
  intros Hw [s K] [(i0 & j0 & Hi0 & Hj0 & N0) _] RG Hi Hj He. destruct (Mfacts n r p R d gens invs E EJ ED EG EI) as (_ & _ & Hp & Hd & HE & _).
  assert (ND : forall a b f, a < d -> b < d -> acoef A idx a b f <> 0%Z -> ~ (p | acoef A idx a b f)%Z).
  { intros a b f Ha Hb N Dv. destruct (Z.eq_dec p 0) as [P0|P0]; [rewrite P0 in Dv; apply Z.divide_0_l in Dv; contradiction|]. specialize (RG a b f Ha Hb P0). destruct Dv as [q Dv]. destruct (Z.eq_dec q 0) as [->|Nq]; [lia|]. assert (1 <= Z.abs q)%Z by lia. nia. }
  assert (EX : forall a b f, a < d -> b < d -> acoef A idx a b f <> 0%Z -> (- 2 * nneg' w <= Z.of_nat f + s <= 2 * npos w)%Z).
  { intros a b f Ha Hb N. apply (M_span n r p R d gens invs E w EJ ED EG HE Hw a b _ Ha Hb). intros Dv. apply (ND a b f Ha Hb N). specialize (K a b (Z.of_nat f + s)%Z Ha Hb). destruct (Z.ltb_spec (Z.of_nat f + s) s); [lia|]. replace (Z.to_nat (Z.of_nat f + s - s)) with f in K by lia.
    replace (acoef A idx a b f) with (numcoef (mentry (MM w) a b) (Z.of_nat f + s) - (numcoef (mentry (MM w) a b) (Z.of_nat f + s) - acoef A idx a b f))%Z by ring. now apply Z.divide_sub_r. }
  destruct (Z.eq_dec (acoef A idx i j e) 0) as [Q|Q]; [exact Q|]. exfalso. pose proof (EX i0 j0 0 Hi0 Hj0 N0) as Q1. pose proof (EX i j e Hi Hj Q) as Q2. pose proof (npos_nneg w). lia.
Qed.
(** the product of generators *)
Hypothesis HB9 : p <> 0%Z -> (Z.of_nat d * (9 * (p - 1)) < 2 ^ 31 /\ p < 2 ^ 31)%Z.
Lemma pword_range l : (forall i, In i l -> i < n - 1) -> in_range n (pword l).
Proof using Type. clear. intros K. apply Forall_forall. intros [i b] Hi. unfold pword in Hi. apply in_map_iff in Hi. destruct Hi as [j [Ej Hj]]. injection Ej as <- _. specialize (K j Hj). cbn. lia. Qed.
Lemma js_word gs hs : js_gens_invs S0 = Ok (gs, hs) -> forall l, (forall i, In i l -> i < n - 1) -> forall eye u, in_range n u -> batch_ok p t d [] (fun _ => MM u) eye -> batch_proj p d [] eye ->
  (p = 0%Z -> (3 ^ Z.of_nat (length u + length l) < 2 ^ 63)%Z) ->
  exists xs C, mapM (fun i => arr_item gs (Z.of_nat i)) l = Ok xs /\ foldM (js_mul S0) xs eye = Ok C /\ batch_ok p t d [] (fun _ => MM (u ++ pword l)) C /\ batch_proj p d [] C.
Proof using EJ ED EG EI Hp1 Hr1 HB9.
  intros EGS. destruct js_gens_ok as (gs' & hs' & EGS' & (WG & G1 & G2 & G3 & G4 & KG) & BG). rewrite EGS in EGS'. injection EGS' as <- <-. clear EGS.
  destruct (Mfacts n r p R d gens invs E EJ ED EG EI) as (_ & _ & Hp & Hd & HE & SM & _ & _).
  assert (V0 : forall idx, valid_index [] idx -> idx = []) by (intros idx V; now inversion V).
  induction l as [|a l IH]; intros Hl eye u Ru BE PE HZ.
  - exists [], eye. cbn [mapM foldM pword map]. rewrite app_nil_r. auto.
  - assert (Ha : a < n - 1) by (apply Hl; now left). destruct (PropsPolyRep2.item_ok gs (n - 1) a WG G1 Ha) as (x & Ex & Wx & x1 & x2 & x3 & x4 & x5 & Kx). rewrite G2, G3 in *.
    assert (Va : valid_index [n - 1] [a]) by (constructor; [exact Ha|constructor]).
    assert (Bx : batch_ok p t d [] (fun _ => MM [(a, true)]) x).
    { split; [exact Wx|]. split; [exact x1|]. split; [congruence|]. split; [congruence|]. split; [congruence|]. intros idx V. rewrite (V0 idx V). specialize (KG [a] Va). cbn [hd] in KG. apply (agrees_array p d _ gs x [a] []); [|exact KG]. intros i j e Hi Hj. rewrite Kx by congruence. rewrite Z.sub_diag. apply Z.divide_0_r. }
    assert (Ra : in_range n [(a, true)]) by (constructor; [cbn; lia|constructor]).
    destruct (js_step [] eye x (fun _ => u) (fun _ => [(a, true)]) (p - 1) 3 3) as (C & EC & BC & PC); auto.
    + destruct (PE [] ltac:(constructor)) as [[(i & j & Hi & Hj & Q) _] _]. unfold acoef in Q. destruct (Nat.ltb_spec 0 (aD eye)); [lia|contradiction].
    + intros P0. destruct (HB9 P0) as [B1 B2]. split; [exact B2|]. split; [lia|]. split; [lia|]. split; [lia|]. intros idx i j e V Hi Hj. rewrite (V0 idx V). destruct (PE [] ltac:(constructor)) as [_ RG]. specialize (RG i j e Hi Hj P0). split; [lia|]. rewrite Kx by congruence. destruct (BG a i j e Ha Hi Hj). split; auto.
    + intros P0 idx i j e V Hi Hj. specialize (HZ P0). pose proof EJ as EJ0. rewrite P0 in EJ0. pose proof (M_coef n r R d gens invs E (u ++ [(a, true)]) EJ0 ED EG HE ltac:(apply in_range_app; auto) i j e Hi Hj) as Q. rewrite app_length in Q. cbn [length] in *.
      assert (3 ^ Z.of_nat (length u + 1) <= 3 ^ Z.of_nat (length u + S (length l)))%Z by (apply Z.pow_le_mono_r; lia). unfold in_dtype. cbn [dbits]. change (64 - 1)%Z with 63%Z. lia.
    + destruct (IH ltac:(intros i Hi; apply Hl; now right) C (u ++ [(a, true)]) ltac:(apply in_range_app; auto) BC PC) as (xs & C' & EM & EF & BC' & PC').
      { intros P0. specialize (HZ P0). rewrite app_length. cbn [length] in *. replace (length u + 1 + length l) with (length u + S (length l)) by lia. exact HZ. }
      exists (x :: xs), C'. cbn [mapM foldM]. rewrite Ex. cbn [bind]. rewrite EM. cbn [bind]. rewrite EC. cbn [bind]. split; [reflexivity|]. split; [exact EF|]. split; [|exact PC']. rewrite <- app_assoc in BC'. exact BC'.
Qed.
(** ** the table *)
Definition sw (x : list nat) : bword := match shortlex x with Ok u => pword u | Err _ => [] end.
Lemma sw_ok x : isperm n x -> exists u, shortlex x = Ok u /\ redw n u x /\ sw x = pword u /\ (forall i, In i u -> i < n - 1) /\ in_range n (sw x) /\ 2 * length (sw x) <= n * (n - 1) /\ length u = length (sw x).
Proof using Type.
  clear. intros Hx. destruct (PermWords.shortlex_sl n x Hx) as [u [Eu Su]]. pose proof (PermWords.sl_redw n u x Su) as Ru. pose proof (PermWords.redw_inr n u x Ru) as Iu. unfold PermWords.inr in Iu. rewrite Forall_forall in Iu.
  assert (Es : sw x = pword u) by (unfold sw; now rewrite Eu). assert (K : forall i, In i u -> i < n - 1) by (intros i Hi; specialize (Iu i Hi); lia).
  exists u. split; [exact Eu|]. split; [exact Ru|]. split; [exact Es|]. split; [exact K|]. rewrite Es. split; [now apply pword_range|]. unfold pword. rewrite map_length. split; [|reflexivity].
  rewrite (PermWords.redw_len n u x Ru), (PermWords.llen_plength n x Hx). pose proof (plength_bound x) as Q. now rewrite (isperm_length n x Hx) in Q.
Qed.
Local Notation W := (n * (n - 1) + 1).
Hypothesis HBW : p <> 0%Z -> (Z.of_nat d * (Z.of_nat W * ((p - 1) * (p - 1))) < 2 ^ 31)%Z.
Hypothesis HN9 : p = 0%Z -> n <= 9.
Lemma small_word l : p = 0%Z -> 2 * l <= n * (n - 1) -> (3 ^ Z.of_nat l < 2 ^ 63)%Z.
Proof using HN9. clear Hr1 HB9 HBW Hp1. intros P0 Hl. specialize (HN9 P0). clear R EJ ED EG EI gens invs E. assert (l <= 36) by nia. apply Z.le_lt_trans with (3 ^ 36)%Z; [apply Z.pow_le_mono_r; lia|reflexivity]. Qed.
Lemma entry_ok gs hs eye x : js_gens_invs S0 = Ok (gs, hs) -> js_id S0 = Ok eye -> isperm n x ->
  exists A, symmetric_entry S0 gs eye x = Ok A /\ batch_ok p t d [] (fun _ => MM (sw x)) A /\ batch_proj p d [] A.
Proof using EJ ED EG EI Hp1 Hr1 HB9 HN9 HBW.
  intros EGS EE Hx. destruct (sw_ok x Hx) as (u & Eu & Ru & Es & Iu & Rw & Lw & Lu). destruct js_id_ok as (eye' & EE' & BE & PE & _). rewrite EE in EE'. injection EE' as <-.
  destruct (js_word gs hs EGS u Iu eye [] ltac:(constructor) BE PE) as (xs & C & EM & EF & BC & PC).
  { intros P0. cbn [length Nat.add]. rewrite Lu. now apply small_word. }
  cbn [List.app] in BC. unfold symmetric_entry. rewrite Eu. cbn [bind]. rewrite EM. cbn [bind]. rewrite EF. cbn [bind]. rewrite Es.
  destruct (projectivise_batch p t d [] (fun _ => MM (pword u)) C) as (A & EA & BA & PA); [cbn; lia|exact BC| | |exists A; auto].
  - intros idx V. destruct (PC idx V) as [[(i & j & Hi & Hj & N) _] _]. exists i, j, 0. auto.
  - intros idx i j e V Hi Hj P0. destruct (PC idx V) as [_ RG]. now apply RG.
Qed.
(** the square of Delta acts by a power of v *)
Lemma delta_sq_range u : redw n u (longest_element n) -> 2 <= n -> braid_eq n (pword u ++ pword u) (FTw n).
Proof using Type. clear. intros Ru n2. pose proof (Delta_word n u ltac:(lia) Ru) as K. unfold FTw. apply be_app; exact K. Qed.
Lemma FTw_coef k i j e : i < d -> j < d -> p = 0%Z -> (Z.abs (numcoef (mentry (MM (wpow (FTw n) k)) i j) e) <= 1)%Z.
Proof using EJ ED EG EI.
  clear Hr1 HB9 HBW HN9 Hp1. intros Hi Hj P0. destruct (Mfacts n r p R d gens invs E EJ ED EG EI) as (_ & _ & _ & _ & HE & _). pose proof (twist_pow n r p R d gens invs E EJ ED EG EI k [] i j Hi Hj) as Q. rewrite app_nil_r in Q. apply neqp_congr in Q. specialize (Q e). rewrite P0 in Q. apply Z.divide_0_l in Q.
  change (ent (NI 0) (MM (wpow (FTw n) k)) i j) with (mentry (MM (wpow (FTw n) k)) i j) in Q. change (ent (NI 0) (MM []) i j) with (ent (NI 0) E i j) in Q. destruct HE as (_ & _ & _ & KE). rewrite KE in Q by assumption.
  rewrite (numcoef_coerce (nmul _ _)) in Q. pose proof (coerce_mul (NL (vpow (k * Z.of_nat (2 * r * (n - r + 1))))) (if i =? j then NI 1 else NI 0)) as CM. rewrite (CM e) in Q. cbn [coerce] in Q. rewrite vpow_coef, <- numcoef_coerce in Q. destruct (i =? j); cbn [numcoef] in Q; destruct (_ =? 0)%Z; lia.
Qed.
Lemma longest_perm : isperm n (longest_element n).
Proof using Type. clear. apply isperm_longest. Qed.
Lemma table_ok : exists table g, symmetric_table S0 = Ok table /\
  forall x, isperm n x -> table_lookup table x = Ok (g x) /\ batch_ok p t d [] (fun _ => MM (sw x)) (g x) /\ batch_proj p d [] (g x).
Proof using EJ ED EG EI Hp1 Hr1 HB9 HN9 HBW.
  destruct js_gens_ok as (gs & hs & EGS & _). destruct js_id_ok as (eye & EE & BE & PE & DE & KE).
  destruct (Mfacts n r p R d gens invs E EJ ED EG EI) as (_ & _ & Hp & Hd & HE & SM & BM & _). destruct js_letters as (n2 & _).
  set (g := fun x => match symmetric_entry S0 gs eye x with Ok a => a | Err _ => A_default end).
  assert (KG : forall x, isperm n x -> symmetric_entry S0 gs eye x = Ok (g x) /\ batch_ok p t d [] (fun _ => MM (sw x)) (g x) /\ batch_proj p d [] (g x)).
  { intros x Hx. destruct (entry_ok gs hs eye x EGS EE Hx) as (A & EA & K). unfold g. rewrite EA. auto. }
  set (table := map (fun x => (x, g x)) (elements n)).
  assert (ET : mapM (fun x => a <- symmetric_entry S0 gs eye x ;; Ok (x, a)) (elements n) = Ok table).
  { apply mapM_ok. intros x Hx. apply PermWords.elements_in in Hx. destruct (KG x Hx) as (-> & _). reflexivity. }
  assert (LK : forall x, isperm n x -> table_lookup table x = Ok (g x)).
  { intros x Hx. unfold table_lookup. destruct (find _ table) as [kv|] eqn:F.
    - apply find_some in F. destruct F as [F1 F2]. unfold table in F1. apply in_map_iff in F1. destruct F1 as [y [<- _]]. cbn [fst snd] in *. apply list_eqb_eq in F2. now subst y.
    - exfalso. assert (In (x, g x) table) as I by (apply in_map_iff; exists x; split; [reflexivity|now apply PermWords.elements_in]). pose proof (find_none _ _ F _ I) as Q. cbn [fst] in Q. assert (ModelTL.list_eqb x x = true) by now apply list_eqb_eq. congruence. }
  exists table, g. split; [|intros x Hx; split; [now apply LK|now apply KG]].
  pose proof longest_perm as PL. set (w0 := longest_element n) in *. destruct (KG w0 PL) as (_ & BW & PW). destruct (sw_ok w0 PL) as (u & Eu & Ru & Es & Iu & Rw & Lw & Lu).
  pose proof (delta_sq_range u Ru n2) as BD. rewrite <- Es in BD.
  assert (V0 : forall idx, valid_index [] idx -> idx = []) by (intros idx V; now inversion V).
  assert (AD : 1 <= aD (g w0)). { destruct (PW [] ltac:(constructor)) as [[(i & j & Hi & Hj & Q) _] _]. unfold acoef in Q. destruct (Nat.ltb_spec 0 (aD (g w0))); [lia|contradiction]. }
  destruct (js_step [] (g w0) (g w0) (fun _ => sw w0) (fun _ => sw w0) (p - 1) (p - 1) W) as (C & EC & BC & PC); auto; [lia| | |].
  - intros P0. destruct (HB9 P0) as [B1 B2]. split; [exact B2|]. split; [lia|]. split; [lia|]. split; [now apply HBW|]. intros idx i j e V Hi Hj. rewrite (V0 idx V). destruct (PW [] ltac:(constructor)) as [LD RG]. pose proof (RG i j e Hi Hj P0). split; [lia|]. split; [lia|]. intros He.
    destruct BW as (_ & _ & _ & _ & _ & KW). specialize (KW [] ltac:(constructor)). apply (image_depth (sw w0)); auto. lia.
  - intros P0 idx i j e V Hi Hj. pose proof (FTw_coef 1 i j e Hi Hj P0) as Q. rewrite wpow_1 in Q.
    assert (QQ : numcoef (mentry (MM (sw w0 ++ sw w0)) i j) e = numcoef (mentry (MM (FTw n)) i j) e).
    { pose proof (M_ent n r p R d gens invs E EJ ED EG EI _ _ i j BD Hi Hj) as K. apply neqp_congr in K. specialize (K e). rewrite P0 in K. apply Z.divide_0_l in K. change (ent (NI 0) (MM (FTw n)) i j) with (mentry (MM (FTw n)) i j) in K. change (ent (NI 0) (MM (sw w0 ++ sw w0)) i j) with (mentry (MM (sw w0 ++ sw w0)) i j) in K. lia. }
    rewrite QQ. unfold in_dtype. cbn [dbits]. lia.
  - (* the image of Delta^2 is the identity *)
    pose proof BC as (WC & C1 & C2 & C3 & C4 & KC). specialize (KC [] ltac:(constructor)). cbn beta in KC.
    assert (KI : agrees p d (MM []) C []).
    { apply (agrees_twist n r p R d gens invs E EJ ED EG EI (-1)) in KC. eapply agrees_pmeq; [apply SM|apply SM| |exact KC]. apply BM. rewrite BD. rewrite <- (wpow_1 (FTw n)) at 2. rewrite <- wpow_add by apply FTw_range. reflexivity. }
    destruct (PC [] ltac:(constructor)) as [LD RG]. destruct KI as [s KI].
    assert (CV : forall i j e, i < d -> j < d -> acoef C [] i j e = if (i =? j) && (Z.of_nat e + s =? 0)%Z then 1%Z else 0%Z).
    { intros i j e Hi Hj. specialize (KI i j (Z.of_nat e + s)%Z Hi Hj). destruct (Z.ltb_spec (Z.of_nat e + s) s); [lia|]. replace (Z.to_nat (Z.of_nat e + s - s)) with e in KI by lia. change (mentry (MM []) i j) with (ent (NI 0) E i j) in KI. destruct HE as (_ & _ & _ & KE'). rewrite KE' in KI by assumption.
      set (c := acoef C [] i j e) in *. assert (RC : p <> 0%Z -> (0 <= c < p)%Z) by (intros P0; now apply RG).
      assert (Q : numcoef (if i =? j then NI 1 else NI 0) (Z.of_nat e + s) = if (i =? j) && (Z.of_nat e + s =? 0)%Z then 1%Z else 0%Z) by (destruct (i =? j); cbn [numcoef andb]; destruct (Z.of_nat e + s =? 0)%Z; reflexivity). rewrite Q in KI.
      set (b := if _ && _ then 1%Z else 0%Z) in *. assert (Hb : (0 <= b <= 1)%Z) by (unfold b; destruct (_ && _); lia). destruct (Z.eq_dec p 0) as [P0|P0]; [rewrite P0 in KI; apply Z.divide_0_l in KI; lia|]. specialize (RC P0). destruct KI as [q KI]. assert (q = 0)%Z by nia. lia. }
    assert (Es0 : s = 0%Z). { destruct LD as [(i & j & Hi & Hj & N) _]. rewrite CV in N by assumption. destruct (i =? j); cbn [andb] in N; [|lia]. destruct (Z.eqb_spec (Z.of_nat 0 + s) 0); [lia|]. contradiction. }
    assert (DC : aD C = 1).
    { destruct BW as (Wg & g1 & g2 & g3 & g4 & _). destruct (mul_top p (g w0) (g w0) C [] d EC WC C1 C2 C3 ltac:(cbn; lia) Hp Wg Wg ltac:(congruence) g1 g1 ltac:(lia)) as (idx & V & (i & j & Hi & Hj & N) & _).
      { intros P0. destruct (HB9 P0) as [_ B2]. rewrite g4. apply fits_ok. unfold in_dtype, polymat_dtype. destruct (Z.ltb_spec 0 p); cbn; lia. }
      rewrite (V0 idx V) in N. rewrite CV in N by assumption. destruct (i =? j); cbn [andb] in N; [|lia]. destruct (Z.eqb_spec (Z.of_nat (aD C - 1) + s) 0); [|contradiction].
      assert (aD C <> 0). { intros Q. destruct LD as [(i' & j' & Hi' & Hj' & N') _]. unfold acoef in N'. rewrite Q in N'. cbn in N'. contradiction. } lia. }
    pose proof BE as (WE & E1 & E2 & E3 & _ & _).
    assert (EQ : equal_all C eye = Ok true).
    { unfold equal_all. rewrite C2, C3, E2, E3, DC, DE, !Nat.eqb_refl. cbn [andb orb]. f_equal. apply forallb_forall. intros i Hi. apply in_seq in Hi. apply forallb_forall. intros j Hj. apply in_seq in Hj. apply forallb_forall. intros e He. apply in_seq in He.
      apply Z.eqb_eq. assert (Hi' : i < d) by lia. assert (Hj' : j < d) by lia. pose proof (CV i j 0 Hi' Hj') as Q1. pose proof (KE i j Hi' Hj') as Q2. rewrite coef_block in Q1 by (try exact WC; try (rewrite C1; constructor); congruence). rewrite coef_block in Q2 by (try exact WE; try (rewrite E1; constructor); congruence).
      rewrite C3, DC in Q1. rewrite E3, DE in Q2. cbn [Nat.ltb Nat.leb] in Q1, Q2. rewrite Q1, Q2, Es0. cbn [Z.of_nat Z.add Z.eqb]. now rewrite andb_true_r. }
    unfold symmetric_table. cbn [js_n js_p]. rewrite EGS. cbn [bind]. rewrite EE. cbn [bind]. rewrite ET. cbn [bind]. fold w0. rewrite (LK w0 PL). cbn [bind]. rewrite EC. cbn [bind]. rewrite EQ. reflexivity.
Qed.
(** ** evaluating braids *)
Variable tb : nat -> res (nftable (list nat)).
Definition fsw (xs : list (list nat)) : bword := flat_map sw xs.
Definition startw (b : nfobj) : bword := if (o_pow b mod 2 =? 0)%Z then [] else sw (longest_element n).
Lemma startw_range b : in_range n (startw b).
Proof using Type. clear. unfold startw. destruct (_ =? 0)%Z; [constructor|]. destruct (sw_ok (longest_element n) longest_perm) as (u & _ & _ & _ & _ & K & _). exact K. Qed.
Lemma fsw_range xs : Forall (isperm n) xs -> in_range n (fsw xs).
Proof using Type. clear. induction 1 as [|x xs Hx Hxs IH]; [constructor|]. cbn [fsw flat_map]. apply in_range_app. split; [|exact IH]. destruct (sw_ok x Hx) as (u & _ & _ & _ & _ & K & _). exact K. Qed.
Lemma fsw_app a b : fsw (a ++ b) = fsw a ++ fsw b. Proof using Type. apply flat_map_app. Qed.
Lemma last_nth {A} (l : list A) x : l <> [] -> last l x = nth (length l - 1) l x.
Proof using Type.
  clear. induction l as [|y l IH]; intros N; [contradiction|]. destruct l as [|z l]; [reflexivity|]. change (last (y :: z :: l) x) with (last (z :: l) x). rewrite IH by discriminate. cbn [length nth]. replace (Datatypes.S (Datatypes.S (length l)) - 1) with (Datatypes.S (length l)) by lia. replace (Datatypes.S (length l) - 1) with (length l) by lia. reflexivity.
Qed.
Lemma prefixes_ok bs b0 (xs : nfobj -> list (list nat)) len : bs <> [] ->
  (forall b, In b bs -> canonical_factors tb b = Ok (xs b) /\ length (xs b) = len /\ length (o_factors b) = len /\ Forall (isperm n) (xs b)) ->
  (p = 0%Z -> forall b q i j e, In b bs -> q <= len -> i < d -> j < d -> in_dtype I64 (numcoef (mentry (MM (startw b ++ fsw (firstn q (xs b)))) i j) e)) ->
  exists L, js_evaluate_prefixes tb S0 bs = Ok L /\ length L = len + 1 /\
    forall q, q <= len -> exists A, nth_error L q = Some A /\ batch_ok p t d [length bs] (fun idx => MM (startw (nth (hd 0 idx) bs b0) ++ fsw (firstn q (xs (nth (hd 0 idx) bs b0))))) A /\ batch_proj p d [length bs] A.
Proof using EJ ED EG EI Hp1 Hr1 HB9 HN9 HBW.
  intros NE HX BZ. destruct table_ok as (table & g & ETB & KT). destruct js_id_ok as (eye & EE & BE & PE & _). pose proof longest_perm as PL. destruct (KT _ PL) as (EL & BL & PLj).
  destruct bs as [|b1 bs1] eqn:EB; [contradiction|]. rewrite <- EB in *. assert (HN : 1 <= length bs) by (rewrite EB; cbn; lia). assert (Hb1 : In b1 bs) by (rewrite EB; now left).
  set (N := length bs) in *. set (P := fun q (A : parr) => batch_ok p t d [N] (fun idx => MM (startw (nth (hd 0 idx) bs b0) ++ fsw (firstn q (xs (nth (hd 0 idx) bs b0))))) A /\ batch_proj p d [N] A).
  (* the first array *)
  assert (ST : exists A, pack (map (fun b => if (o_pow b mod 2 =? 0)%Z then eye else g (longest_element n)) bs) = Ok A /\ P 0 A).
  { set (f := fun b => if (o_pow b mod 2 =? 0)%Z then eye else g (longest_element n)).
    destruct (pack_batch p t d (map f bs) (fun k => MM (startw (nth k bs b0)))) as (A & EA & BA & KA).
    - rewrite EB. discriminate.
    - intros k a Hk. rewrite nth_error_map in Hk. destruct (nth_error bs k) as [b|] eqn:Eb; [|discriminate]. cbn in Hk. injection Hk as <-. rewrite (nth_error_nth _ _ b0 Eb). unfold f, startw. destruct (_ =? 0)%Z; [exact BE|exact BL].
    - exists A. split; [exact EA|]. rewrite map_length in BA. fold N in BA. split.
      + destruct BA as (W1 & W2 & W3 & W4 & W5 & KB). split; [exact W1|]. do 4 (split; [assumption|]). intros idx V. specialize (KB idx V). cbn beta in KB. cbn [firstn fsw flat_map]. now rewrite app_nil_r.
      + intros idx V. destruct (valid1 _ idx V) as [k [-> Hk]]. assert (EK : nth_error (map f bs) k = Some (f (nth k bs b0))) by (rewrite nth_error_map, (nth_error_nth' bs b0) by exact Hk; reflexivity). specialize (KA k _ EK).
        assert (PF : batch_proj p d [] (f (nth k bs b0))) by (unfold f; destruct (_ =? 0)%Z; assumption). destruct (PF [] ltac:(constructor)) as [[(i & j & Hi & Hj & Q) _] RG]. split.
        * split; [|intros; lia]. exists i, j. rewrite KA by assumption. auto.
        * intros i' j' e Hi' Hj' P0. rewrite KA by assumption. now apply RG. }
  destruct ST as (A0 & EA0 & PA0).
  set (body := fun acc l => ps <- mapM (fun f => x <- get f l ;; table_lookup table x) (map xs bs) ;; perm_images <- pack ps ;; r0 <- js_mul S0 (last acc A0) perm_images ;; Ok (acc ++ [r0])).
  (* one step *)
  assert (STEP : forall q acc, q < len -> length acc = q + 1 -> (forall i, i <= q -> exists A, nth_error acc i = Some A /\ P i A) -> exists C, body acc q = Ok (acc ++ [C]) /\ P (q + 1) C).
  { intros q acc Hq La Ka. assert (XQ : forall b, In b bs -> q < length (xs b)) by (intros b Hb; destruct (HX b Hb) as (_ & L & _); lia).
    set (y := fun b => nth q (xs b) []). assert (PY : forall b, In b bs -> isperm n (y b)) by (intros b Hb; destruct (HX b Hb) as (_ & _ & _ & F); rewrite Forall_forall in F; apply F, nth_In; now apply XQ).
    assert (EM : mapM (fun f => x <- get f q ;; table_lookup table x) (map xs bs) = Ok (map (fun b => g (y b)) bs)).
    { assert (G : forall l, (forall b, In b l -> In b bs) -> mapM (fun f => x <- get f q ;; table_lookup table x) (map xs l) = Ok (map (fun b => g (y b)) l)); [|apply G; auto].
      induction l as [|b l IH]; intros Hl; [reflexivity|]. cbn [map mapM]. rewrite (get_nth (xs b) q []) by (apply XQ, Hl; now left). cbn [bind]. destruct (KT (y b)) as (Ey & _); [apply PY, Hl; now left|]. unfold y in Ey. rewrite Ey. cbn [bind]. rewrite IH by (intros b' Hb'; apply Hl; now right). reflexivity. }
    destruct (pack_batch p t d (map (fun b => g (y b)) bs) (fun k => MM (sw (y (nth k bs b0))))) as (B & EBB & BB & KB).
    { rewrite EB. discriminate. }
    { intros k a Hk. rewrite nth_error_map in Hk. destruct (nth_error bs k) as [b|] eqn:Eb; [|discriminate]. cbn in Hk. injection Hk as <-. rewrite (nth_error_nth _ _ b0 Eb). apply KT, PY. now apply nth_error_In in Eb. }
    rewrite map_length in BB. fold N in BB.
    assert (KB' : forall k i j e, k < N -> i < d -> j < d -> acoef B [k] i j e = acoef (g (y (nth k bs b0))) [] i j e) by (intros k i j e Hk Hi Hj; apply (KB k); auto; rewrite nth_error_map, (nth_error_nth' bs b0) by exact Hk; reflexivity).
    destruct (Ka q ltac:(lia)) as (A & EA & BA & PA). assert (LA : last acc A0 = A). { rewrite last_nth by (intros Q; rewrite Q in La; cbn in La; lia). rewrite La. replace (q + 1 - 1) with q by lia. now apply nth_error_nth. }
    assert (IB : forall k, k < N -> In (nth k bs b0) bs) by (intros k Hk; now apply nth_In).
    set (uu := fun idx : list nat => startw (nth (hd 0 idx) bs b0) ++ fsw (firstn q (xs (nth (hd 0 idx) bs b0)))) in *. set (ww := fun idx : list nat => sw (y (nth (hd 0 idx) bs b0))).
    assert (EX : forall k, k < N -> startw (nth k bs b0) ++ fsw (firstn (q + 1) (xs (nth k bs b0))) = uu [k] ++ ww [k]).
    { intros k Hk. unfold uu, ww. cbn [hd]. rewrite Nat.add_1_r, (firstn_S_nth _ q []) by (apply XQ; auto). rewrite fsw_app, app_assoc. f_equal. cbn [fsw flat_map]. apply app_nil_r. }
    assert (DB : 1 <= aD B). { destruct (KT (y (nth 0 bs b0))) as (_ & _ & PF); [apply PY, IB; lia|]. destruct (PF [] ltac:(constructor)) as [[(i & j & Hi & Hj & Q) _] _]. rewrite <- (KB' 0) in Q by (auto; lia). unfold acoef in Q. destruct (Nat.ltb_spec 0 (aD B)); [lia|contradiction]. }
    destruct (js_step [N] A B uu ww (p - 1) (p - 1) W) as (C & EC & BC & PC); auto.
    - cbn. lia.
    - intros idx V. destruct (valid1 _ idx V) as [k [-> Hk]]. unfold uu, ww. cbn [hd]. destruct (sw_ok _ (PY _ (IB k Hk))) as (v & _ & _ & _ & _ & Rv & _). split; [|exact Rv]. apply in_range_app. split; [apply startw_range|]. apply fsw_range. destruct (HX _ (IB k Hk)) as (_ & _ & _ & F). apply Forall_forall. intros x Hx. rewrite Forall_forall in F. apply F. rewrite <- (firstn_skipn q). apply in_or_app. now left.
    - lia.
    - intros P0. destruct (HB9 P0) as [B1 B2]. split; [exact B2|]. destruct (jones_rep_ok n r p R EJ) as (_ & _ & Hp & _). split; [lia|]. split; [lia|]. split; [now apply HBW|].
      intros idx i j e V Hi Hj. destruct (valid1 _ idx V) as [k [-> Hk]]. destruct (PA [k] V) as [_ RA]. specialize (RA i j e Hi Hj P0). split; [lia|]. rewrite KB' by assumption. destruct (KT _ (PY _ (IB k Hk))) as (_ & BG & PG). destruct (PG [] ltac:(constructor)) as [LG RG]. pose proof (RG i j e Hi Hj P0). split; [lia|]. intros He.
      destruct (sw_ok _ (PY _ (IB k Hk))) as (v & _ & _ & _ & _ & Rv & Lv & _). destruct BG as (_ & _ & _ & _ & _ & KG). specialize (KG [] ltac:(constructor)). apply (image_depth (sw (y (nth k bs b0)))); auto. lia.
    - intros P0 idx i j e V Hi Hj. destruct (valid1 _ idx V) as [k [-> Hk]]. rewrite <- EX by exact Hk. apply BZ; auto. lia.
    - exists C. unfold body. rewrite EM. cbn [bind]. rewrite EBB. cbn [bind]. rewrite LA, EC. cbn [bind]. split; [reflexivity|]. split; [|exact PC]. destruct BC as (W1 & W2 & W3 & W4 & W5 & KC). split; [exact W1|]. do 4 (split; [assumption|]). intros idx V. specialize (KC idx V). cbn beta in KC. destruct (valid1 _ idx V) as [k [-> Hk]]. cbn [hd] in *. rewrite EX by exact Hk. exact KC. }
  assert (LOOP : forall m q acc, q + m = len -> length acc = q + 1 -> (forall i, i <= q -> exists A, nth_error acc i = Some A /\ P i A) ->
    exists L, foldM body (seq q m) acc = Ok L /\ length L = len + 1 /\ forall i, i <= len -> exists A, nth_error L i = Some A /\ P i A).
  { induction m as [|m IH]; intros q acc Hm La Ka; cbn [seq foldM].
    - assert (Eq : q = len) by lia. exists acc. split; [reflexivity|]. split; [lia|]. intros i Hi. apply Ka. lia.
    - destruct (STEP q acc ltac:(lia) La Ka) as (C & EC & PC). rewrite EC. cbn [bind]. apply IH; [lia|rewrite app_length; cbn [length]; lia|]. intros i Hi. destruct (Nat.eq_dec i (q + 1)) as [Ei|Ni].
      + exists C. split; [|rewrite Ei; exact PC]. rewrite nth_error_app2 by lia. rewrite La, Ei, Nat.sub_diag. reflexivity.
      + destruct (Ka i ltac:(lia)) as (A & EA & PA). exists A. split; [|exact PA]. rewrite nth_error_app1; [exact EA|]. lia. }
  destruct (LOOP len 0 [A0] ltac:(lia) eq_refl) as (L & EL' & LL & KL).
  { intros i Hi. replace i with 0 by lia. exists A0. auto. }
  exists L. split; [|split; [exact LL|exact KL]].
  unfold js_evaluate_prefixes. assert (G0 : get bs 0 = Ok b1) by (rewrite EB; reflexivity). rewrite G0. cbn [bind].
  assert (FB : forallb (fun b => length (o_factors b) =? length (o_factors b1)) bs = true). { apply forallb_forall. intros b Hb. destruct (HX b Hb) as (_ & _ & L1 & _). destruct (HX b1 Hb1) as (_ & _ & L2 & _). apply Nat.eqb_eq. congruence. }
  rewrite FB. cbn [assert_ bind]. rewrite (mapM_ok (canonical_factors tb) xs) by (intros b Hb; now apply HX). cbn [bind]. rewrite ETB. cbn [bind js_n]. rewrite EE. cbn [bind]. rewrite EL. cbn [bind]. rewrite EA0. cbn [bind]. destruct (HX b1 Hb1) as (_ & _ & -> & _). exact EL'.
Qed.
(** one braid *)
Lemma factors_ok b xs : canonical_factors tb b = Ok xs -> Forall (isperm n) xs ->
  (p = 0%Z -> forall q i j e, q <= length xs -> i < d -> j < d -> in_dtype I64 (numcoef (mentry (MM (startw b ++ fsw (firstn q xs))) i j) e)) ->
  exists A, js_evaluate_braid_factors tb S0 b = Ok A /\ batch_ok p t d [] (fun _ => MM (startw b ++ fsw xs)) A /\ batch_proj p d [] A.
Proof using EJ ED EG EI Hp1 Hr1 HB9 HN9 HBW.
  intros EC HX BZ. destruct table_ok as (table & g & ETB & KT). destruct js_id_ok as (eye & EE & BE & PE & _). pose proof longest_perm as PL. destruct (KT _ PL) as (EL & BL & PLj).
  unfold js_evaluate_braid_factors, canonical_decomposition. rewrite EC. cbn [bind]. rewrite ETB. cbn [bind]. rewrite EE. cbn [bind js_n].
  assert (V0 : forall idx, valid_index [] idx -> idx = []) by (intros idx V; now inversion V).
  assert (ST : exists s, (if (o_pow b mod 2 =? 0)%Z then Ok eye else table_lookup table (longest_element n)) = Ok s /\ batch_ok p t d [] (fun _ => MM (startw b)) s /\ batch_proj p d [] s).
  { unfold startw. destruct (_ =? 0)%Z; [exists eye; auto|exists (g (longest_element n)); auto]. }
  destruct ST as (s & -> & BS & PS). cbn [bind].
  rewrite (mapM_ok (table_lookup table) g) by (intros x Hx; rewrite Forall_forall in HX; now apply KT, HX). cbn [bind].
  assert (LOOP : forall ys zs u A, xs = zs ++ ys -> u = startw b ++ fsw zs -> batch_ok p t d [] (fun _ => MM u) A -> batch_proj p d [] A ->
    exists C, foldM (js_mul S0) (map g ys) A = Ok C /\ batch_ok p t d [] (fun _ => MM (startw b ++ fsw xs)) C /\ batch_proj p d [] C).
  { induction ys as [|y ys IH]; intros zs u A EX EU BA PA; cbn [map foldM].
    - exists A. split; [reflexivity|]. rewrite app_nil_r in EX. rewrite EX, <- EU. auto.
    - assert (Py : isperm n y) by (rewrite Forall_forall in HX; apply HX; rewrite EX; apply in_or_app; right; now left). destruct (KT y Py) as (_ & By & PPy). destruct (sw_ok y Py) as (v & _ & _ & _ & _ & Rv & Lv & _).
      assert (Ru : in_range n u). { rewrite EU. apply in_range_app. split; [apply startw_range|]. apply fsw_range. apply Forall_forall. intros x Hx. rewrite Forall_forall in HX. apply HX. rewrite EX. apply in_or_app. now left. }
      assert (E2 : u ++ sw y = startw b ++ fsw (zs ++ [y])) by (rewrite EU, fsw_app, app_assoc; f_equal; cbn [fsw flat_map]; now rewrite app_nil_r).
      destruct (js_step [] A (g y) (fun _ => u) (fun _ => sw y) (p - 1) (p - 1) W) as (C & ECC & BC & PC); auto.
      + destruct (PA [] ltac:(constructor)) as [[(i & j & Hi & Hj & Q) _] _]. unfold acoef in Q. destruct (Nat.ltb_spec 0 (aD A)); [lia|contradiction].
      + intros P0. destruct (HB9 P0) as [B1 B2]. split; [exact B2|]. destruct (jones_rep_ok n r p R EJ) as (_ & _ & Hp & _). split; [lia|]. split; [lia|]. split; [now apply HBW|]. intros idx i j e V Hi Hj. rewrite (V0 idx V).
        destruct (PA [] ltac:(constructor)) as [_ RA]. specialize (RA i j e Hi Hj P0). split; [lia|]. destruct (PPy [] ltac:(constructor)) as [LG RG]. pose proof (RG i j e Hi Hj P0). split; [lia|]. intros He.
        destruct By as (_ & _ & _ & _ & _ & KG). specialize (KG [] ltac:(constructor)). apply (image_depth (sw y)); auto. lia.
      + intros P0 idx i j e V Hi Hj. rewrite E2. assert (EF : zs ++ [y] = firstn (length zs + 1) xs) by (rewrite EX, firstn_app_2; reflexivity). rewrite EF. apply BZ; auto. rewrite EX, app_length. cbn [length]. lia.
      + rewrite ECC. cbn [bind]. apply (IH (zs ++ [y]) (u ++ sw y) C); auto. now rewrite <- app_assoc. }
  destruct (LOOP xs [] (startw b) s eq_refl) as (C & EF & BC & PC); auto; [cbn [fsw flat_map]; now rewrite app_nil_r|]. rewrite EF. cbn [bind].
  destruct (projectivise_batch p t d [] (fun _ => MM (startw b ++ fsw xs)) C) as (A & EA & BA & PA); [cbn; lia|exact BC| | |exists A; auto].
  - intros idx V. destruct (PC idx V) as [[(i & j & Hi & Hj & N) _] _]. exists i, j, 0. auto.
  - intros idx i j e V Hi Hj P0. destruct (PC idx V) as [_ RG]. now apply RG.
Qed.
End JS.
