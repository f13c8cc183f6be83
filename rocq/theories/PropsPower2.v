(** PropsPower2.v – C127, continued: what search.py prints, and a braid that meets the hypotheses. *)
From Coq Require Import Permutation.
From Verif Require Import Base ModelPoly SpecPoly PolyTheory PropsPoly ModelMatrix SpecMatrix MatrixTheory NumTheory ModelPolymat SpecPolymat PolymatTheory PropsPolymat PropsPolymat2 PropsPolymat3.
From Coq Require Import Ring Setoid Morphisms Factorial.
From Verif Require Import MarkovTheory.
From Verif Require Import ModelPerm Germ GermNF GermAct GermBraid PermTheory WeakOrder PermWords SpecBraid BraidTheory ModelBraid ModelTL SpecTL TLTheory TLAlg TLAlg2 TLBasis TLCells TLRel PropsTL ModelTLMor TLMorTheory TLGens TLFlip PropsTLMor PropsTLMor2 JonesTheory ModelRep SpecRep RepTheory RepCanon PropsRep ModelPolyRep TableTheory NFApi SpecPerm PermGerm PermTable PropsGNF PropsGNF2 PolyRepTheory PolyRepSpan TLBurau PropsBurau BurauThree PropsThree TorsionFree PropsTorsion.
From Verif Require Import PropsPolyRep2 PropsDesc2 BurauWords KernelData PropsKernel PropsSearch2 BurauStable EmbedTheory PropsStable FullTwistBraid BurauScalar BurauForm ModelTracker SpecTracker ModelSql ModelSearch PropsTracker2 PropsSmall PropsScalar PropsPower.
From Verif Require PropsSearch.
Local Open Scope nat_scope.
#[local] Existing Instance neqp_equiv.
#[local] Existing Instance pmeq_equiv.

(** the search with --stop-at-projlen-1 in any JonesCellRep(n, r), r >= 1: every element that
    is printed has a positive power that is an even power of the Garside element times a
    kernel element *)
Theorem C127_search n r p S R d tb rint crit order size rand L first count use_best save_best step s0 stop prints saves s :
  jones_summand n r p = Ok S -> jones_rep n r p = Ok R -> 1 <= r -> rep_dimension R = Ok (Z.of_nat d) -> p <> 1%Z -> 2 <= n -> gnf_table n tb -> 1 <= size -> (0 <= step)%Z ->
  (p <> 0%Z -> (Z.of_nat d * (((step + 1) * Z.of_nat (n * (n - 1)) + 1) * ((p - 1) * (p - 1))) < 2 ^ 31)%Z) ->
  (p = 0%Z -> n <= 9 /\ forall x X, PropsSearch.positive_value tb n x -> (Z.of_nat (length (o_factors x)) <= Z.max L (first + Z.of_nat count - 1 + step))%Z -> rep_evaluate_nf tb R x = Ok X -> int64_matrix X) ->
  (forall k l, Permutation l (order k l)) ->
  st_bootstrap rint crit tb S (strk_init size rand) L = Ok s0 -> search_main rint crit tb S order count s0 first use_best save_best step stop = Ok (prints, saves, s) ->
  forall i e ws, i < length prints -> In (e, ws) (nth i prints []) ->
  exists b k c D bk g Y, from_gnf_pair tb n e ws = Ok b /\ nf_value tb n b /\ (0 < k <= Z.of_nat (fact n * (2 * r * (n - r + 1))))%Z /\
    nf_pow tb b k = Ok bk /\ from_gnf_pair tb n (2 * c) [] = Ok D /\ nf_mul tb D bk = Ok g /\ nf_value tb n g /\ rep_evaluate_nf tb R g = Ok Y /\ is_unit_matrix p d Y.
Proof.
  intros ES EJ Hr ED P1 n2 Ht Hsz Hst BN HZ HO HB HM i e ws Hi H.
  destruct (C100_near_kernel n r p S R d tb rint crit order size rand L first count use_best save_best step s0 stop prints saves s ES EJ Hr ED P1 n2 Ht Hsz Hst BN HZ HO HB HM) as (_ & _ & _ & _ & K).
  destruct (K i Hi) as (si & _ & _ & OUT & _). destruct (OUT e ws H) as (_ & b & [Vb _] & EB & NK).
  destruct (value_denotes _ _ _ _ _ _ _ _ _ (ptab_ok n n2) tb (gnf_table_ptab n tb Ht) b Vb) as (w & Db & _). destruct (eval_word n r p R tb b w n2 Ht EJ Db) as (_ & _ & _ & _ & X & _ & _ & _ & EX & _).
  destruct (C127_power n r p tb R d b X n2 Ht EJ Hr ED Vb EX (NK X EX)) as (k & c & D & bk & g & Y & A). exists b, k, c, D, bk, g, Y. split; [exact EB|]. split; [exact Vb|exact A].
Qed.

(** sigma_1 sigma_3^-1 in JonesCellRep(4, 2): projective length 1 and not periodic *)
Example C127_case p R tb : jones_rep 4 2 p = Ok R -> p <> 1%Z -> gnf_table 4 tb ->
  exists b X, from_artin_word tb 4 [(0, 1); (2, -1)]%Z = Ok b /\ nf_value tb 4 b /\ rep_dimension R = Ok 2%Z /\ rep_evaluate_nf tb R b = Ok X /\ near_kernel p 2 X /\ ~ periodic tb 4 b.
Proof.
  intros EJ P1 Ht. pose proof (gnf_table_ptab 4 tb Ht) as Etb. pose proof (ptab_ok 4 ltac:(lia)) as TK.
  set (w := [(0, 1); (2, -1)]%Z). assert (Hw : word_ok 4 w) by (repeat constructor; cbn; lia). destruct (api_from_word _ _ _ _ _ _ _ _ _ TK tb Etb w Hw) as (b & Eb & Db).
  destruct (eval_word 4 2 p R tb b _ ltac:(lia) Ht EJ Db) as (d & gens & invs & E & X & ED & EG & EI & EX & SX & PX).
  assert (ED2 : rep_dimension R = Ok 2%Z) by (destruct (jones_rep_ok 4 2 p R EJ) as (_ & _ & _ & ->); reflexivity). rewrite ED2 in ED. assert (d = 2) by (injection ED as ED; lia). subst d. clear ED.
  destruct (Mfacts 4 2 p R 2 gens invs E EJ ED2 EG EI) as (_ & _ & Hp & _ & HE & SM & BM & PM).
  exists b, X. split; [exact Eb|]. split; [exact (proj1 Db)|]. split; [exact ED2|]. split; [exact EX|].
  assert (U : is_unit_matrix p 2 X).
  { assert (E3 : exists R3, jones_rep 3 1 p = Ok R3) by (unfold jones_rep; cbn [Nat.leb Nat.mul Nat.add]; destruct (Z.leb_spec 0 p); [cbn [assert_ bind]; eauto|lia]). destruct E3 as [R3 E3].
    assert (Hw3 : word_ok 3 (onto3 w)) by now apply onto3_ok. destruct (eval_M 4 2 p R w EJ Hw) as (d4 & gens4 & invs4 & E4 & A4 & EG4 & EI4 & EA4 & SA4 & PA4). rewrite EG in EG4. injection EG4 as <- <-. rewrite EI in EI4. injection EI4 as <-.
    destruct (eval_M 3 1 p R3 (onto3 w) E3 Hw3) as (d3 & g3 & i3 & E0 & A3 & EG3 & EI3 & EA3 & SA3 & PA3). pose proof (C121_quotient p R R3 w EJ E3 Hw) as Q. rewrite EA4, EA3 in Q. injection Q as <-.
    destruct (Mfacts 3 1 p R3 2 g3 i3 E0 E3 (burau_dim 3 p R3 E3) EG3 EI3) as (_ & _ & _ & _ & HE3 & SM3 & BM3 & _).
    apply (unit_of_pmeq p 2 X E0 HE3 SX). rewrite PX, <- PA4, PA3. change E0 with (M g3 i3 E0 []). apply BM3. apply (be_cancel 3 0 true). lia. }
  split.
  - destruct U as [[U1 [U2 _]] U]. exists 0%Z. split.
    + intros i j k Hi Hj Nk. specialize (U i j Hi Hj k). unfold mentry, ent. rewrite U2. replace (numcoef (if i =? j then NI 1 else NI 0) k) with 0%Z in U by (destruct (i =? j); cbn; destruct (Z.eqb_spec k 0); congruence). rewrite Z.sub_0_r in U. exact U.
    + exists 0, 0. split; [lia|]. split; [lia|]. intros N. specialize (U 0 0 ltac:(lia) ltac:(lia) 0%Z). unfold mentry, ent in N. rewrite U2 in N. cbn [Nat.eqb] in U. change (numcoef (NI 1) 0) with 1%Z in U. apply P1.
      destruct N as [x N], U as [y U]. cbn in U, N. rewrite N in U. assert (D1 : (p | 1)%Z) by (exists (x - y)%Z; rewrite Z.mul_sub_distr_r; clear - U; lia). apply Z.divide_1_r in D1. clear - D1 Hp; lia.
  - intros (k & c & bk & Hk & Ebk & Ec). destruct (api_pow _ _ _ _ _ _ _ _ _ TK tb Etb b _ k Db) as (bk' & Ebk' & Dbk). rewrite Ebk in Ebk'. injection Ebk' as <-.
    pose proof (delta_lifts 4 ltac:(lia)) as LD. set (Dw := pword (Dl 0 (4 - 1))) in *.
    destruct (C48_from_gnf_pair 4 tb (2 * c) [] [] Dw ltac:(lia) Ht ltac:(constructor) ltac:(constructor) LD) as (D & EqD & DD). rewrite Ec in EqD. injection EqD as <-. cbn [concat] in DD. rewrite app_nil_r in DD.
    pose proof (proj1 (api_eq _ _ _ _ _ _ _ _ _ TK tb Etb bk bk _ _ Dbk DD) eq_refl) as Q.
    assert (EW : forall u m, esum (wpow u m) = (m * esum u)%Z). { intros u m. unfold wpow. destruct (Z.leb_spec 0 m); rewrite esum_concat, Z2Nat.id by lia; [reflexivity|rewrite esum_winv; ring]. }
    pose proof (esum_be 4 _ _ Q) as S. rewrite !EW in S. change (esum (expand w)) with 0%Z in S. change (esum Dw) with 6%Z in S. assert (c = 0%Z) by lia. subst c. change (2 * 0)%Z with 0%Z in Q. rewrite wpow_0 in Q.
    apply (C117_words 4 (expand w) k (word_ok_range 4 w Hw)) in Q. destruct Q as [Q|Q]; [lia|]. pose proof (follow_be 4 _ _ Q 0) as F. vm_compute in F. discriminate.
Qed.
