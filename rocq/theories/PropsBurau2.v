(** PropsBurau2.v – C115: JonesCellRep(n, 1) is the reduced Burau representation:
    its generators are the matrices of polymat.burau_generator_v2 and their inverses. *)
From Verif Require Import Base ModelPoly SpecPoly PolyTheory PropsPoly ModelMatrix SpecMatrix MatrixTheory NumTheory ModelPolymat SpecPolymat PolymatTheory PropsPolymat3.
From Verif Require Import ModelPerm Germ GermNF GermAct GermBraid PermTheory WeakOrder PermWords SpecBraid BraidTheory ModelBraid ModelTL ModelTLMor ModelRep SpecRep RepTheory RepCanon PropsRep TableTheory NFApi SpecPerm PermGerm PermTable PropsGNF PropsGNF2 PolyRepTheory BurauThree PropsBurau BurauWords.
Local Open Scope nat_scope.
#[local] Existing Instance neqp_equiv.
#[local] Existing Instance pmeq_equiv.

(** ** specification *)
(** the coefficient of v^e in entry (i, j) of the reduced Burau matrix of sigma_s
    (sg = 1) or of its inverse (sg = -1): row s is -v^sg, -v^(2 sg), -v^sg around the
    diagonal, the other rows are those of the identity *)
Definition burau_coeff (sg : Z) (s i j : nat) (e : Z) : Z :=
  if i =? s then
    if j =? s then (if (e =? 2 * sg)%Z then -1 else 0)%Z
    else if (j =? s + 1) || (j + 1 =? s) then (if (e =? sg)%Z then -1 else 0)%Z
    else 0%Z
  else if (i =? j) && (e =? 0)%Z then 1%Z else 0%Z.

(** ** proofs *)
Lemma burau_entry_coef sg s i j e : numcoef (NL (burau_entry sg s i j)) e = burau_coeff sg s i j e.
Proof.
  assert (Q : forall v c, numcoef (NL (mkL v [c])) e = if (e =? v)%Z then c else 0%Z).
  { intros v c. cbn [numcoef lval lcoeffs]. unfold coeff_at. destruct (Z.eqb_spec e v) as [->|N]; [rewrite Z.ltb_irrefl, Z.sub_diag; reflexivity|]. destruct (Z.ltb_spec e v); [reflexivity|]. apply nth_overflow. cbn [length]. lia. }
  assert (Q0 : numcoef (NL (mkL 0 [])) e = 0%Z). { cbn [numcoef lval lcoeffs]. unfold coeff_at. destruct (e <? 0)%Z; [reflexivity|now destruct (Z.to_nat _)]. }
  unfold burau_entry, burau_coeff. destruct (i =? s).
  - destruct (j =? s); [apply Q|]. destruct ((j =? s + 1) || (j + 1 =? s)); [apply Q|exact Q0].
  - destruct (i =? j); cbn [andb]; [apply Q|exact Q0].
Qed.
Lemma burau_mentry sg n s i j : i < n - 1 -> j < n - 1 -> mentry (mat_map NL (burau_matrix sg n s)) i j = NL (burau_entry sg s i j).
Proof. intros Hi Hj. change (ent (NI 0) (mat_map NL (burau_matrix sg n s)) i j = NL (burau_entry sg s i j)). rewrite (ent_NL (n - 1)) by (auto; apply burau_lsq). now rewrite burau_ent. Qed.
(** burau_generator_v2 answers exactly on the valid generators *)
Theorem C115_burau_generator (n s : Z) :
  ((1 <= n /\ 0 <= s < n - 1)%Z -> exists A G, burau_generator_v2 n s = Ok A /\ wfa A /\ apre A = [] /\ aI A = Z.to_nat (n - 1) /\ aJ A = Z.to_nat (n - 1) /\ aD A = 3 /\
     to_matrix A = Ok G /\ square (Z.to_nat (n - 1)) G /\ reduced_matrix 0 G /\
     forall i j e, i < Z.to_nat (n - 1) -> j < Z.to_nat (n - 1) -> numcoef (mentry G i j) e = burau_coeff 1 (Z.to_nat s) i j e) /\
  (~ (1 <= n /\ 0 <= s < n - 1)%Z -> burau_generator_v2 n s = Err AssertionError).
Proof.
  unfold burau_generator_v2. split.
  - intros [Hn Hs]. assert (E1 : (1 <=? n)%Z = true) by now apply Z.leb_le. assert (E2 : ((0 <=? s) && (s <? n - 1))%Z = true) by (apply andb_true_intro; split; [apply Z.leb_le|apply Z.ltb_lt]; lia).
    rewrite E1, E2. cbn [assert_ bind]. set (m := Z.to_nat (n - 1)). set (k := Z.to_nat s).
    set (f := fun (_ : list nat) i j d => nth d (if (i =? k) && ((j =? k + 1) || (j + 1 =? k)) then [0; -1; 0]%Z else if (i =? k) && (j =? k) then [0; 0; -1]%Z else if i =? j then [1; 0; 0]%Z else [0; 0; 0]%Z) 0%Z).
    assert (RG : forall idx i j d, valid_index [] idx -> i < m -> j < m -> d < 3 -> in_dtype I64 (f idx i j d)).
    { intros idx i j d _ _ _ Hd. assert (Q : f idx i j d = 0%Z \/ f idx i j d = 1%Z \/ f idx i j d = (-1)%Z).
      { unfold f. destruct d as [|[|[|d]]]; [| | |lia]; destruct (i =? k), (j =? k), (j =? k + 1), (j + 1 =? k), (i =? j); cbn [andb orb nth]; auto. }
      destruct Q as [-> | [-> | ->]]; vm_compute; split; congruence || reflexivity. }
    pose proof (ptab_wf [] m m 3 I64 f RG) as W. set (A := PolymatTheory.ptab [] m m 3 I64 f) in W. assert (EA : mkA [] m m 3 I64 [btab m m 3 (f [])] = A) by reflexivity. unfold f in EA at 1. rewrite EA. clear EA.
    assert (V0 : valid_index [] []) by constructor.
    assert (HA : forall i j d, i < m -> j < m -> acoef A [] i j d = if d <? 3 then f [] i j d else 0%Z) by (intros i j d Hi Hj; apply (ptab_coef [] m m 3 I64 f [] i j d RG V0 Hi Hj)).
    destruct (C67_to_matrix A W eq_refl) as (G & EG & RGp); [unfold A, PolymatTheory.ptab; cbn [aI]; unfold m; lia|].
    exists A, G. split; [reflexivity|]. split; [exact W|]. do 4 (split; [reflexivity|]). split; [exact EG|]. destruct RGp as (R1 & R2 & R3 & R4 & R5). change (aI A) with m in *. change (aJ A) with m in *. split; [split; [exact R1|split; [exact R2|exact R3]]|]. split; [exact R4|].
    intros i j e Hi Hj. rewrite R5 by assumption. unfold burau_coeff. destruct (Z.ltb_spec e 0) as [He|He].
    + destruct (Z.eqb_spec e (2 * 1)); [lia|]. destruct (Z.eqb_spec e 1); [lia|]. destruct (Z.eqb_spec e 0); [lia|]. rewrite andb_false_r. destruct (i =? k), (j =? k), ((j =? k + 1) || (j + 1 =? k)); reflexivity.
    + rewrite HA by assumption. unfold f. destruct (Z_of_nat_complete e He) as [d Ed]. subst e. rewrite Nat2Z.id. clear He.
      assert (X2 : (Z.of_nat d =? 2 * 1)%Z = (d =? 2)) by (destruct (Z.eqb_spec (Z.of_nat d) (2 * 1)), (Nat.eqb_spec d 2); lia || reflexivity). assert (X1 : (Z.of_nat d =? 1)%Z = (d =? 1)) by (destruct (Z.eqb_spec (Z.of_nat d) 1), (Nat.eqb_spec d 1); lia || reflexivity). assert (X0 : (Z.of_nat d =? 0)%Z = (d =? 0)) by (destruct (Z.eqb_spec (Z.of_nat d) 0), (Nat.eqb_spec d 0); lia || reflexivity).
      rewrite X2, X1, X0. clear X2 X1 X0. assert (OV : forall l : list Z, length l = 3 -> (if d <? 3 then nth d l 0%Z else 0%Z) = nth d l 0%Z). { intros l Hl. destruct (Nat.ltb_spec d 3); [reflexivity|]. symmetry. apply nth_overflow. lia. }
      rewrite OV by (destruct (i =? k), (j =? k), ((j =? k + 1) || (j + 1 =? k)), (i =? j); reflexivity). clear OV.
      assert (NJ : j =? k = true -> (j =? k + 1) || (j + 1 =? k) = false). { intros Q%Nat.eqb_eq. subst j. destruct (Nat.eqb_spec k (k + 1)), (Nat.eqb_spec (k + 1) k); try lia; reflexivity. }
      destruct (Nat.eqb_spec i k) as [Ik|Ik]; cbn [andb].
      * destruct (j =? k) eqn:JK; [rewrite NJ by reflexivity; destruct d as [|[|[|[|d]]]]; reflexivity|]. destruct ((j =? k + 1) || (j + 1 =? k)); [destruct d as [|[|[|[|d]]]]; reflexivity|]. destruct (Nat.eqb_spec i j) as [IJ|IJ]; [apply Nat.eqb_neq in JK; lia|destruct d as [|[|[|[|d]]]]; reflexivity].
      * destruct (i =? j); cbn [andb]; destruct d as [|[|[|[|d]]]]; reflexivity.
  - intros H. destruct (Z.leb_spec 1 n); cbn [assert_ bind]; [|reflexivity]. destruct (Z.leb_spec 0 s), (Z.ltb_spec s (n - 1)); cbn [andb assert_ bind]; try reflexivity. exfalso. apply H. lia.
Qed.

(** the generators of JonesCellRep(n, 1), entry by entry: the reduced Burau matrices and
    their inverses, with coefficients modulo p *)
Theorem C115_generators n p R : jones_rep n 1 p = Ok R -> exists gens invs,
  rep_dimension R = Ok (Z.of_nat (n - 1)) /\ rep_artin_gens_invs R = Ok (gens, invs) /\ length gens = n - 1 /\ length invs = n - 1 /\
  forall s, s + 1 < n -> exists g h, nth_error gens s = Some g /\ nth_error invs s = Some h /\ square (n - 1) g /\ square (n - 1) h /\
    forall i j e, i < n - 1 -> j < n - 1 -> (p | numcoef (mentry g i j) e - burau_coeff 1 s i j e)%Z /\ (p | numcoef (mentry h i j) e - burau_coeff (-1) s i j e)%Z.
Proof.
  intros EJ. destruct (C58_generators n 1 p R EJ) as (d & gens & invs & ED & _ & EG & L1 & L2 & SQ & _). pose proof (burau_dim n p R EJ) as ED'. rewrite ED in ED'. injection ED' as ED'. apply Nat2Z.inj in ED'. subst d.
  exists gens, invs. repeat (split; [assumption|]). intros s Hs. destruct (burau_gens n p R gens invs EJ EG) as [B1 B2].
  assert (K : forall sg l, length l = n - 1 -> Forall2 (pmeq p) l (map (fun k => mat_map NL (burau_matrix sg n k)) (seq 0 (n - 1))) -> exists g, nth_error l s = Some g /\ pmeq p g (mat_map NL (burau_matrix sg n s))).
  { intros sg l Hl F. destruct (nth_error l s) as [g|] eqn:Eg; [|apply nth_error_None in Eg; lia]. exists g. split; [reflexivity|]. destruct (PropsTLMor2.Forall2_nth_error _ _ _ F s g Eg) as (x & Ex & Px). rewrite nth_error_map in Ex. rewrite (nth_error_nth' (seq 0 (n - 1)) 0) in Ex by (rewrite seq_length; lia). rewrite seq_nth in Ex by lia. cbn [option_map Nat.add] in Ex. injection Ex as <-. exact Px. }
  destruct (K 1%Z gens L1 B1) as (g & Eg & Pg). destruct (K (-1)%Z invs L2 B2) as (h & Eh & Ph). exists g, h. split; [exact Eg|]. split; [exact Eh|]. apply Forall_app in SQ. destruct SQ as [S1 S2]. rewrite Forall_forall in S1, S2. pose proof (S1 g (nth_error_In _ _ Eg)) as Sg. pose proof (S2 h (nth_error_In _ _ Eh)) as Sh. split; [exact Sg|]. split; [exact Sh|].
  intros i j e Hi Hj. assert (C : forall sg x, square (n - 1) x -> pmeq p x (mat_map NL (burau_matrix sg n s)) -> (p | numcoef (mentry x i j) e - burau_coeff sg s i j e)%Z).
  { intros sg x (X1 & X2 & X3) Px. apply (meq_ent (NI 0) (neqp p)) in Px; [|unfold mwf; rewrite X1, X2; exact X3|apply (lsq_NL (n - 1)); apply burau_lsq]. destruct Px as (_ & _ & Px). specialize (Px i j ltac:(lia) ltac:(lia)). apply neqp_congr in Px. specialize (Px e). change (ent (NI 0) (mat_map NL (burau_matrix sg n s)) i j) with (mentry (mat_map NL (burau_matrix sg n s)) i j) in Px. rewrite burau_mentry in Px by assumption. rewrite burau_entry_coef in Px. exact Px. }
  split; now apply C.
Qed.
(** over the integers the generators are the very objects made from burau_generator_v2 *)
Theorem C115_same_matrices n R gens invs s : jones_rep n 1 0 = Ok R -> rep_artin_gens_invs R = Ok (gens, invs) -> s + 1 < n ->
  exists A G, burau_generator_v2 (Z.of_nat n) (Z.of_nat s) = Ok A /\ to_matrix A = Ok G /\ nth_error gens s = Some G.
Proof.
  intros EJ EG Hs. destruct (proj1 (C115_burau_generator (Z.of_nat n) (Z.of_nat s)) ltac:(lia)) as (A & G & EA & _ & _ & _ & _ & _ & ET & SG & RG & K).
  destruct (C115_generators n 0 R EJ) as (gens' & invs' & _ & EG' & _ & _ & HG). rewrite EG in EG'. injection EG' as <- <-. destruct (HG s Hs) as (g & h & Eg & _ & Sg & _ & C). exists A, G. split; [exact EA|]. split; [exact ET|]. rewrite Eg. f_equal.
  destruct (C58_generators n 1 0 R EJ) as (d & gens' & invs' & _ & _ & EG' & _ & _ & _ & RD). rewrite EG in EG'. injection EG' as <- <-. apply Forall_app in RD. destruct RD as [RD _]. rewrite Forall_forall in RD. pose proof (RD g (nth_error_In _ _ Eg)) as Rg.
  replace (Z.to_nat (Z.of_nat n - 1)) with (n - 1) in * by lia. rewrite Nat2Z.id in K.
  apply (reduced_matrix_inj 0 g G ltac:(lia) Rg RG). apply pmeq_congr. destruct Sg as (X1 & X2 & X3), SG as (Y1 & Y2 & Y3). apply (meq_ent (NI 0) (neqp 0)); [unfold mwf; rewrite X1, X2; exact X3|unfold mwf; rewrite Y1, Y2; exact Y3|]. split; [congruence|]. split; [congruence|]. intros i j Hi Hj. rewrite X1 in Hi. rewrite X2 in Hj. apply neqp_congr. intros e. change (0 | numcoef (mentry g i j) e - numcoef (mentry G i j) e)%Z. rewrite K by assumption. now apply C.
Qed.
(** the image of a word, letter by letter: multiplying by sigma_s^(+-1) on the right
    changes column s and its two neighbours only *)
Theorem C115_step n p R w s b i j e : jones_rep n 1 p = Ok R -> word_ok n w -> s + 1 < n -> i < n - 1 -> j < n - 1 -> exists X Y,
  let c m k x := numcoef (mentry m i k) x in let sg := if b : bool then 1%Z else (-1)%Z in
  rep_evaluate_artin_word R w = Ok X /\ rep_evaluate_artin_word R (w ++ [(Z.of_nat s, sg)]) = Ok Y /\ square (n - 1) X /\ square (n - 1) Y /\
  (p | c Y j e - (if (j =? s)%nat then - c X s (e - 2 * sg) else c X j e - (if ((j =? s + 1) || (j + 1 =? s))%nat then c X s (e - sg) else 0)))%Z.
Proof.
  intros EJ Hw Hs Hi Hj. set (sg := if b then 1%Z else (-1)%Z). assert (Hw' : word_ok n (w ++ [(Z.of_nat s, sg)])) by (apply Forall_app; split; [exact Hw|constructor; [cbn [fst]; lia|constructor]]).
  destruct (eval_ok n 1 p R w EJ Hw) as (d & gens & invs & E & X & ED & EG & EI & _ & _ & EX & SX & PX & _). destruct (eval_ok n 1 p R _ EJ Hw') as (d2 & gens2 & invs2 & E2 & Y & ED2 & EG2 & EI2 & _ & _ & EY & SY & PY & _).
  pose proof (burau_dim n p R EJ) as ED'. rewrite ED in ED'. injection ED' as ED'. apply Nat2Z.inj in ED'. subst d. rewrite ED in ED2. injection ED2 as ED2. apply Nat2Z.inj in ED2. subst d2. rewrite EG in EG2. injection EG2 as <- <-. rewrite EI in EI2. injection EI2 as <-.
  exists X, Y. cbv zeta. split; [exact EX|]. split; [exact EY|]. split; [now apply sq_square|]. split; [now apply sq_square|].
  destruct (Mfacts n 1 p R (n - 1) gens invs E EJ ED EG EI) as (_ & _ & _ & _ & _ & SM & _).
  assert (CX : forall Z u k x, sq (n - 1) Z -> pmeq p Z (M gens invs E u) -> k < n - 1 -> (p | numcoef (mentry Z i k) x - cw gens invs E u i k x)%Z).
  { intros Z u k x SZ PZ Hk. destruct (SM u) as (WU & RU & CU). destruct SZ as (WZ & RZ & CZ). apply (meq_ent (NI 0) (neqp p)) in PZ; auto. destruct PZ as (_ & _ & PZ). specialize (PZ i k ltac:(lia) ltac:(lia)). apply neqp_congr in PZ. exact (PZ x). }
  assert (EW : expand (w ++ [(Z.of_nat s, sg)]) = expand w ++ [(s, b)]). { unfold expand. rewrite flat_map_app. f_equal. cbn [flat_map fst snd]. rewrite Nat2Z.id. unfold sg. destruct b; reflexivity. }
  rewrite EW in PY. pose proof (cw_step n p R gens invs E EJ EG EI (expand w) s b i j e Hs Hi Hj) as ST. pose proof (CX Y _ j e SY PY Hj) as K0. unfold sgn in ST. fold sg in ST.
  pose proof (CX X _ j e SX PX Hj) as K1. pose proof (CX X _ s (e - 2 * sg)%Z SX PX ltac:(lia)) as K2. pose proof (CX X _ s (e - sg)%Z SX PX ltac:(lia)) as K3.
  destruct K0 as [k0 K0], K1 as [k1 K1], K2 as [k2 K2], K3 as [k3 K3], ST as [k4 ST]. destruct (j =? s).
  - exists (k0 + k4 + k2)%Z. lia.
  - destruct ((j =? s + 1) || (j + 1 =? s)); [exists (k0 + k4 - k1 + k3)%Z|exists (k0 + k4 - k1)%Z]; lia.
Qed.
Theorem C115_step_id n p R w i j e : jones_rep n 1 p = Ok R -> expand w = [] -> word_ok n w -> i < n - 1 -> j < n - 1 -> exists X, rep_evaluate_artin_word R w = Ok X /\ square (n - 1) X /\ (p | numcoef (mentry X i j) e - (if (i =? j)%nat && (e =? 0) then 1 else 0))%Z.
Proof.
  intros EJ E0 Hw Hi Hj. destruct (eval_ok n 1 p R w EJ Hw) as (d & gens & invs & E & X & ED & EG & EI & _ & _ & EX & SX & PX & _). pose proof (burau_dim n p R EJ) as ED'. rewrite ED in ED'. injection ED' as ED'. apply Nat2Z.inj in ED'. subst d. exists X. split; [exact EX|]. split; [now apply sq_square|]. rewrite E0 in PX.
  destruct (Mfacts n 1 p R (n - 1) gens invs E EJ ED EG EI) as (_ & _ & _ & _ & _ & SM & _). destruct (SM []) as (WU & RU & CU). destruct SX as (WZ & RZ & CZ). apply (meq_ent (NI 0) (neqp p)) in PX; auto. destruct PX as (_ & _ & PX). specialize (PX i j ltac:(lia) ltac:(lia)). apply neqp_congr in PX. specialize (PX e).
  change (p | numcoef (mentry X i j) e - cw gens invs E [] i j e)%Z in PX. rewrite (cw_nil n p R gens invs E EJ EG EI i j e Hi Hj) in PX. exact PX.
Qed.
Example C115_example : exists R gens invs A G, jones_rep 4 1 0 = Ok R /\ rep_artin_gens_invs R = Ok (gens, invs) /\ burau_generator_v2 4 1 = Ok A /\ to_matrix A = Ok G /\ nth_error gens 1 = Some G /\ numcoef (mentry G 1 0) 1 = (-1)%Z /\ numcoef (mentry G 1 1) 2 = (-1)%Z.
Proof.
  destruct (proj1 (proj1 (C58_constructor 4 1 0)) ltac:(lia)) as [R EJ]. destruct (C115_generators 4 0 R EJ) as (gens & invs & _ & EG & _). destruct (C115_same_matrices 4 R gens invs 1 EJ EG ltac:(lia)) as (A & G & EA & ET & EN).
  destruct (proj1 (C115_burau_generator 4 1) ltac:(lia)) as (A' & G' & EA' & _ & _ & _ & _ & _ & ET' & _ & _ & K). change (Z.of_nat 4) with 4%Z in EA. change (Z.of_nat 1) with 1%Z in EA. rewrite EA in EA'. injection EA' as <-. rewrite ET in ET'. injection ET' as <-.
  exists R, gens, invs, A, G. repeat (split; [assumption|]). change (Z.to_nat (4 - 1)) with 3 in K. rewrite !K by lia. split; reflexivity.
Qed.
