(** PropsScalar2.v – C123, continued: what search.py prints, the element of README.md:43, and
    the representation JonesCellRep(4, 2), for which the claim fails. *)
From Coq Require Import Permutation.
From Verif Require Import Base ModelPoly SpecPoly PolyTheory PropsPoly ModelMatrix SpecMatrix MatrixTheory NumTheory ModelPolymat SpecPolymat PolymatTheory PropsPolymat PropsPolymat2 PropsPolymat3.
From Coq Require Import Ring Setoid Morphisms.
From Verif Require Import MarkovTheory.
From Verif Require Import ModelPerm Germ GermNF GermAct GermBraid PermTheory WeakOrder PermWords SpecBraid BraidTheory ModelBraid ModelTL SpecTL TLTheory TLAlg TLAlg2 TLBasis TLCells TLRel PropsTL ModelTLMor TLMorTheory TLGens TLFlip PropsTLMor PropsTLMor2 JonesTheory ModelRep SpecRep RepTheory RepCanon PropsRep ModelPolyRep TableTheory NFApi SpecPerm PermGerm PermTable PropsGNF PropsGNF2 PolyRepTheory PolyRepSpan TLBurau PropsBurau BurauThree PropsThree TorsionFree PropsTorsion.
From Verif Require Import PropsPolyRep2 PropsDesc2 BurauWords KernelData PropsKernel PropsSearch2 BurauStable EmbedTheory PropsStable FullTwistBraid BurauScalar BurauForm ModelTracker SpecTracker ModelSql ModelSearch PropsTracker2 PropsSmall PropsScalar.
From Verif Require PropsSearch.
Local Open Scope nat_scope.
#[local] Existing Instance neqp_equiv.
#[local] Existing Instance pmeq_equiv.

(** the search with --stop-at-projlen-1, README.md:46, for the Burau representations: every
    element that is printed is a power of the Garside element times a kernel element, and
    every such braid that is stored is printed *)
Theorem C123_search n p S R tb rint crit order size rand L first count use_best save_best step s0 stop prints saves s :
  jones_summand n 1 p = Ok S -> jones_rep n 1 p = Ok R -> p <> 1%Z -> 2 <= n -> gnf_table n tb -> 1 <= size -> (0 <= step)%Z ->
  (p <> 0%Z -> (Z.of_nat (n - 1) * (((step + 1) * Z.of_nat (n * (n - 1)) + 1) * ((p - 1) * (p - 1))) < 2 ^ 31)%Z) ->
  (p = 0%Z -> n <= 9 /\ forall x X, PropsSearch.positive_value tb n x -> (Z.of_nat (length (o_factors x)) <= Z.max L (first + Z.of_nat count - 1 + step))%Z -> rep_evaluate_nf tb R x = Ok X -> int64_matrix X) ->
  (forall k l, Permutation l (order k l)) ->
  st_bootstrap rint crit tb S (strk_init size rand) L = Ok s0 -> search_main rint crit tb S order count s0 first use_best save_best step stop = Ok (prints, saves, s) ->
  forall i, i < length prints -> exists si, search_steps rint crit tb S order s0 first i use_best save_best step = Ok (firstn i saves, si) /\
    (forall e ws, In (e, ws) (nth i prints []) -> exists b, from_gnf_pair tb n e ws = Ok b /\ nf_value tb n b /\ delta_times_kernel tb n p R (n - 1) b) /\
    (forall tag bk b, dget stag_eqb (st_buckets si) tag = Some bk -> In b (sb_braids bk) -> delta_times_kernel tb n p R (n - 1) b -> exists e ws, canonical_decomposition tb b = Ok (e, ws) /\ In (e, ws) (nth i prints [])).
Proof.
  intros ES EJ P1 n2 Ht Hsz Hst BN HZ HO HB HM i Hi. pose proof (burau_dim n p R EJ) as ED.
  destruct (C100_near_kernel n 1 p S R (n - 1) tb rint crit order size rand L first count use_best save_best step s0 stop prints saves s ES EJ (le_n 1) ED P1 n2 Ht Hsz Hst BN HZ HO HB HM) as (_ & _ & L2 & _ & K).
  destruct (K i Hi) as (si & E1 & IN & OUT & _). exists si. split; [exact E1|]. split.
  - intros e ws H. destruct (OUT e ws H) as (_ & b & [Vb _] & EB & NK). exists b. split; [exact EB|]. split; [exact Vb|].
    destruct (value_denotes _ _ _ _ _ _ _ _ _ (ptab_ok n n2) tb (gnf_table_ptab n tb Ht) b Vb) as (w & Db & _). destruct (eval_denotes n tb p R b w n2 Ht EJ Db) as (_ & _ & _ & X & _ & _ & EX & _).
    apply (C123_burau n p tb R b X n2 Ht EJ P1 Vb EX). now apply NK.
  - intros tag bk b G Hb HD.
    assert (BZ : p = 0%Z -> n <= 9 /\ forall x X, PropsSearch.positive_value tb n x -> (Z.of_nat (length (o_factors x)) <= Z.max L (first + Z.of_nat i - 1 + step))%Z -> rep_evaluate_nf tb R x = Ok X -> int64_matrix X) by (intros P0; destruct (HZ P0) as [H9 HX]; split; [exact H9|]; intros y X Vy Ly; apply HX; [exact Vy|lia]).
    destruct (C76_search n 1 p S R (n - 1) tb rint crit order size rand L first i use_best save_best step s0 _ si ES EJ (le_n 1) ED P1 n2 Ht Hsz Hst BN BZ HB E1 tag bk G) as [_ HK]. destruct (HK b Hb) as ([Vb _] & _).
    destruct (C48_from_gnf_pair_inverts n tb b n2 Ht Vb) as (xs & EC & _). exists (inf b), xs. split; [exact EC|]. apply IN.
    destruct (value_denotes _ _ _ _ _ _ _ _ _ (ptab_ok n n2) tb (gnf_table_ptab n tb Ht) b Vb) as (w & Db & _). destruct (eval_denotes n tb p R b w n2 Ht EJ Db) as (_ & _ & _ & X & _ & _ & EX & _).
    exists tag, bk, b, X. split; [exact G|]. split; [exact Hb|]. split; [exact EX|]. split; [|exact EC]. now apply (C123_burau n p tb R b X n2 Ht EJ P1 Vb EX).
Qed.

(** README.md:43: the element that the search modulo 2 finds *)
Example C123_readme tb R : gnf_table 4 tb -> jones_rep 4 1 2 = Ok R -> exists b X, from_gnf_pair tb 4 0 (concat (repeat readme_pair 4)) = Ok b /\ canonical_length b = 8 /\ rep_evaluate_nf tb R b = Ok X /\ near_kernel 2 3 X.
Proof.
  intros Ht EJ. pose proof (gnf_table_ptab 4 tb Ht) as Etb. pose proof (ptab_ok 4 ltac:(lia)) as TK. destruct (C116_readme_powers 1 tb Ht) as (g & Eg & CDg & _ & Vg & R' & Y & EJ' & EY & UY). rewrite EJ in EJ'. injection EJ' as <-.
  set (xs := concat (repeat readme_pair 4)). change (concat (repeat readme_pair (4 * 1))) with xs in *. change (- Z.of_nat (4 * 1))%Z with (-4)%Z in *.
  destruct (C48_from_gnf_pair_inverts 4 tb g ltac:(lia) Ht Vg) as (xs' & CD' & NS & _). rewrite CDg in CD'. injection CD' as _ <-.
  destruct (C116_round_trip 4 tb 0 xs ltac:(lia) Ht NS) as (b & Eb & Vb & CDb & CL).
  assert (F : Forall (is_perm_word 4) xs) by (destruct NS as [H _]; eapply Forall_impl; [|exact H]; now intros x [A _]).
  assert (FL : Forall2 (lifts 4) xs (map (fun x => pword (sword x)) xs)). { clear - F. induction F as [|x l Hx _ IH]; constructor; [now apply sword_lifts|exact IH]. }
  pose proof (delta_lifts 4 ltac:(lia)) as LD. set (Dw := pword (Dl 0 (4 - 1))) in *. set (us := concat (map (fun x => pword (sword x)) xs)).
  destruct (C48_from_gnf_pair 4 tb (-4) xs _ Dw ltac:(lia) Ht F FL LD) as (g' & Eg' & Dg). rewrite Eg in Eg'. injection Eg' as <-. destruct (C48_from_gnf_pair 4 tb 0 xs _ Dw ltac:(lia) Ht F FL LD) as (b' & Eb' & Db). rewrite Eb in Eb'. injection Eb' as <-. fold us in Dg, Db.
  destruct (C48_from_gnf_pair 4 tb 4 [] [] Dw ltac:(lia) Ht ltac:(constructor) ltac:(constructor) LD) as (D & ED & DD). cbn [concat] in DD. rewrite app_nil_r in DD.
  destruct (eval_denotes 4 tb 2 R b _ ltac:(lia) Ht EJ Db) as (_ & _ & _ & X & _ & _ & EX & _). exists b, X. split; [exact Eb|]. split; [rewrite CL; reflexivity|]. split; [exact EX|].
  apply (C123_burau 4 2 tb R b X ltac:(lia) Ht EJ ltac:(lia) Vb EX). exists 4%Z, D, g, Y. split; [exact ED|]. split; [exact Vg|]. split; [exact EY|]. split; [exact UY|].
  destruct (api_mul _ _ _ _ _ _ _ _ _ TK tb Etb D g _ _ DD Dg) as (b2 & E2 & D2). rewrite E2. f_equal. apply (api_eq _ _ _ _ _ _ _ _ _ TK tb Etb b2 b _ _ D2 Db).
  rewrite app_assoc, <- (wpow_add 4) by (apply (Dw_range 4); lia). apply be_refl.
Qed.

(** ** two cups: the claim fails *)
(** the matrix of sigma_1 sigma_2 sigma_1 in JonesCellRep(4, 2) has projective length 1, but
    the braid is not a power of the Garside element times a kernel element, modulo any p *)
Theorem C123_readme_claim_refuted p R tb : jones_rep 4 2 p = Ok R -> p <> 1%Z -> gnf_table 4 tb ->
  exists b X, from_artin_word tb 4 [(0, 1); (1, 1); (0, 1)]%Z = Ok b /\ rep_dimension R = Ok 2%Z /\ rep_evaluate_nf tb R b = Ok X /\ near_kernel p 2 X /\ ~ delta_times_kernel tb 4 p R 2 b.
Proof.
  intros EJ P1 Ht. pose proof (gnf_table_ptab 4 tb Ht) as Etb. pose proof (ptab_ok 4 ltac:(lia)) as TK.
  set (w := [(0, 1); (1, 1); (0, 1)]%Z). assert (Hw : word_ok 4 w) by (repeat constructor; cbn; lia). destruct (api_from_word _ _ _ _ _ _ _ _ _ TK tb Etb w Hw) as (b & Eb & Db).
  destruct (eval_word 4 2 p R tb b _ ltac:(lia) Ht EJ Db) as (d & gens & invs & E & X & ED & EG & EI & EX & SX & PX).
  assert (ED2 : rep_dimension R = Ok 2%Z) by (destruct (jones_rep_ok 4 2 p R EJ) as (_ & _ & _ & ->); reflexivity). rewrite ED2 in ED. assert (d = 2) by (injection ED as ED; lia). subst d. clear ED.
  destruct (Mfacts 4 2 p R 2 gens invs E EJ ED2 EG EI) as (_ & _ & Hp & _ & HE & SM & BM & PM).
  exists b, X. split; [exact Eb|]. split; [exact ED2|]. split; [exact EX|]. split.
  - assert (E3 : exists R3, jones_rep 3 1 p = Ok R3) by (unfold jones_rep; cbn [Nat.leb Nat.mul Nat.add]; destruct (Z.leb_spec 0 p); [cbn [assert_ bind]; eauto|lia]). destruct E3 as [R3 E3].
    assert (Hw3 : word_ok 3 w) by (repeat constructor; cbn; lia). destruct (eval_M 4 2 p R w EJ Hw) as (d4 & gens4 & invs4 & E4 & A4 & EG4 & EI4 & EA4 & SA4 & PA4). rewrite EG in EG4. injection EG4 as <- <-. rewrite EI in EI4. injection EI4 as <-.
    destruct (eval_M 3 1 p R3 w E3 Hw3) as (d3 & g3 & i3 & E0 & A3 & EG3 & EI3 & EA3 & SA3 & PA3). pose proof (C121_quotient p R R3 w EJ E3 Hw) as Q. change (onto3 w) with w in Q. rewrite EA4, EA3 in Q. injection Q as <-.
    destruct (Mfacts 3 1 p R3 2 g3 i3 E0 E3 (burau_dim 3 p R3 E3) EG3 EI3) as (_ & _ & _ & _ & _ & SM3 & _).
    assert (PX3 : pmeq p X (M g3 i3 E0 (expand w))) by (rewrite PX, <- PA3, PA4; reflexivity).
    apply (near_kernel_hom 3 p g3 i3 E0 (expand w) X SX (SM3 _) PX3). apply (near_word 3 p R3 g3 i3 E0 E3 EG3 EI3 P1 (expand w) (word_ok_range 3 w Hw3)). exists 1%Z.
    apply (scalar_be p 3 (cw g3 i3 E0) (cw_be 3 p R3 g3 i3 E0 E3 EG3 EI3) []); [|apply (scalar_nil p 3 (cw g3 i3 E0) ltac:(lia) (cw_nil 3 p R3 g3 i3 E0 E3 EG3 EI3))].
    change (expand w) with (pword [0; 1; 0]). change (wpow (pword (Dl 0 (3 - 1))) (- (1))) with (winv (pword [1; 0; 1]) ++ []). rewrite app_nil_r. pose proof (be_braid 3 0 ltac:(lia)) as B. change (pword [0; 1; 0]) with [(0, true); (0 + 1, true); (0, true)]. rewrite B. apply be_sym. apply (be_inv_l 3 (pword [1; 0; 1])). repeat constructor; cbn; lia.
  - intros (k & D & g & Y & ED & Vg & EY & UY & EM). pose proof (delta_lifts 4 ltac:(lia)) as LD. set (Dw := pword (Dl 0 (4 - 1))) in *.
    destruct (C48_from_gnf_pair 4 tb k [] [] Dw ltac:(lia) Ht ltac:(constructor) ltac:(constructor) LD) as (D' & ED' & DD). rewrite ED in ED'. injection ED' as <-. cbn [concat] in DD. rewrite app_nil_r in DD.
    destruct (api_word _ _ _ _ _ _ _ _ _ TK tb Etb D (proj1 DD)) as (u & Eu & Hu & _ & Du). destruct (api_word _ _ _ _ _ _ _ _ _ TK tb Etb g Vg) as (x & Ex & Hx & _ & Dg).
    destruct (api_mul _ _ _ _ _ _ _ _ _ TK tb Etb D g _ _ Du Dg) as (b' & Eb' & Db'). rewrite EM in Eb'. injection Eb' as <-.
    pose proof (proj1 (api_eq _ _ _ _ _ _ _ _ _ TK tb Etb b b _ _ Db Db') eq_refl) as Q1. pose proof (proj1 (api_eq _ _ _ _ _ _ _ _ _ TK tb Etb D D _ _ Du DD) eq_refl) as Q2.
    destruct (eval_word 4 2 p R tb g _ ltac:(lia) Ht EJ Dg) as (d & gens' & invs' & E' & Y' & ED4 & EG' & EI' & EY' & SY & PY). rewrite EG in EG'. injection EG' as <- <-. rewrite EI in EI'. injection EI' as <-. rewrite EY in EY'. injection EY' as <-. rewrite ED2 in ED4. assert (d = 2) by (injection ED4 as ED4; lia). subst d.
    assert (YE : pmeq p (M gens invs E (expand x)) E).
    { rewrite <- PY. destruct HE as (WE & RE & CE & HE'). destruct SY as (WY & RY & CY). apply (meq_ent (NI 0) (neqp p)); auto. split; [congruence|]. split; [congruence|]. intros i j Hi Hj. rewrite HE' by lia. destruct UY as (_ & UY). specialize (UY i j ltac:(lia) ltac:(lia)). apply neqp_congr. unfold ent. rewrite CY. exact UY. }
    destruct (C121_decides p R w u EJ P1 Hw Hu) as (A & B & EA & EB & K).
    destruct (eval_M 4 2 p R w EJ Hw) as (? & ? & ? & ? & A' & EG1 & EI1 & EA' & _ & PA). rewrite EG in EG1. injection EG1 as <- <-. rewrite EI in EI1. injection EI1 as <-. rewrite EA in EA'. injection EA' as <-.
    destruct (eval_M 4 2 p R u EJ Hu) as (? & ? & ? & ? & B' & EG1 & EI1 & EB' & _ & PB). rewrite EG in EG1. injection EG1 as <- <-. rewrite EI in EI1. injection EI1 as <-. rewrite EB in EB'. injection EB' as <-.
    assert (C : mat_congr p A B). { apply pmeq_congr. rewrite PA, PB. rewrite (BM _ _ Q1), (PM _ _). etransitivity; [apply (pr_meq p 2); [auto|auto|auto|apply isid_sq; exact HE|reflexivity|exact YE]|]. apply (pr_id_r p 2); auto. }
    apply K in C. apply esum_be in C. apply esum_be in Q2. assert (EF : forall v, esum (fold3 v) = esum v) by (induction v as [|[i e] v IH]; [reflexivity|]; cbn [fold3 map esum fold_right snd]; fold (fold3 v) (esum (fold3 v)) (esum v); rewrite IH; reflexivity).
    rewrite !EF, Q2 in C. change (esum (expand w)) with 3%Z in C. unfold wpow in C. destruct (0 <=? k)%Z; rewrite esum_concat in C; [|rewrite esum_winv in C]; change (esum Dw) with 6%Z in C; lia.
Qed.
