(** PropsTwist.v – C95: the full twist acts by a scalar. *)
From Verif Require Import Base ModelPoly SpecPoly PolyTheory PropsPoly ModelTL SpecTL PropsTL ModelMatrix SpecMatrix MatrixTheory ModelTLMor TLMorTheory PropsTLMor2 JonesTheory.
From Coq Require Import Ring Setoid Morphisms.
From Verif Require Import ModelPerm PermTheory WeakOrder SpecPerm SpecPermTheory PermWords ModelBraid SpecBraid BraidTheory FullTwistBraid FullTwist ModelRep SpecRep NumTheory RepTheory RepCanon PropsRep FullTwistRep PropsPolymat3.
Local Open Scope nat_scope.
#[local] Existing Instance neqp_equiv.
Local Notation isid := (MatrixTheory.is_identity (NI 0) (NI 1)).

Lemma twist_R n r p R d gens invs E : jones_rep n r p = Ok R -> rep_dimension R = Ok (Z.of_nat d) -> rep_artin_gens_invs R = Ok (gens, invs) -> isid d E ->
  forall i j, i < d -> j < d -> neqp p (ent (NI 0) (M gens invs E (FTw n)) i j) (NL (if i =? j then vpow (Z.of_nat (2 * r * (n - r + 1))) else lint 0)).
Proof.
  intros EJ ED EG HE. destruct (jones_rep_ok n r p R EJ) as [Hn [Hr [Hp ->]]]. cbn [rep_dimension rep_artin_gens_invs] in *.
  destruct (C32_cell_basis n r Hr) as [B [EB _]]. pose proof (jones_dim n r B Hr EB) as ED'. rewrite ED in ED'. injection ED' as ED'. assert (Ed : d = length B) by lia. subst d.
  destruct (C31_gens_invs n) as [gs [hs [Et _]]]. destruct (gens_ok n r p Hr Hp B EB gs hs Et) as [gens' [invs' [EG' [FG [FH _]]]]]. rewrite EG in EG'. injection EG' as <- <-.
  apply (M_twist n r p Hr Hp B EB gs hs Et gens invs E HE FG FH).
Qed.

Lemma twist_M n r p R d gens invs E X : jones_rep n r p = Ok R -> rep_dimension R = Ok (Z.of_nat d) -> rep_artin_gens_invs R = Ok (gens, invs) -> isid d E -> sq d (M gens invs E (FTw n)) -> sq d X ->
  forall i j, i < d -> j < d -> neqp p (ent (NI 0) (MatrixTheory.prod (NI 0) nadd nmul (M gens invs E (FTw n)) X) i j) (nmul (NL (vpow (Z.of_nat (2 * r * (n - r + 1))))) (ent (NI 0) X i j)).
Proof.
  intros EJ ED EG HE SM SX i j Hi Hj. pose proof SM as (_ & R1 & C1). pose proof SX as (_ & R2 & C2). set (c := vpow (Z.of_nat (2 * r * (n - r + 1)))).
  rewrite (prod_e (NI 0) nadd nmul) by congruence. rewrite C1.
  transitivity (rsum (NI 0) nadd d (fun k => nmul (if i =? k then NI 1 else NI 0) (nmul (NL c) (ent (NI 0) X k j)))).
  - apply (rsum_ext (NI 0) nadd nmul nneg (neqp p) _ (nringp_ext p)). intros k Hk. destruct (twist_R n r p R d gens invs E EJ ED EG HE i k Hi Hk) as [z K]. fold c in K.
    exists (lmul z (coerce (ent (NI 0) X k j))). rewrite !coerce_mul, K. destruct (i =? k); cbn [coerce]; ring.
  - apply (rsum_delta (NI 0) (NI 1) nadd nmul nsub nneg (neqp p) _ (nringp_ext p) (nringp p) d i (fun k => nmul (NL c) (ent (NI 0) X k j)) Hi).
Qed.

(** C95.  Whatever word spells Delta^2 (the square of the positive lift of the
    permutation that reverses the strands), its matrix is v^(2 r (n - r + 1))
    times the identity, modulo p. *)
Theorem C95_full_twist n r p R u w : jones_rep n r p = Ok R -> lifts n (rev (seq 0 n)) u -> word_ok n w -> braid_eq n (expand w) (u ++ u) ->
  exists d A, rep_dimension R = Ok (Z.of_nat d) /\ rep_evaluate_artin_word R w = Ok A /\ square d A /\
    forall i j e, i < d -> j < d -> (p | numcoef (mentry A i j) e - (if (i =? j)%nat && (e =? Z.of_nat (2 * r * (n - r + 1))) then 1 else 0))%Z.
Proof.
  intros EJ LU Hw EW. destruct (eval_ok n r p R w EJ Hw) as (d & gens & invs & E & A & ED & EG & EI & HE & Hp & EA & SA & PA & _ & _ & BE & _).
  destruct (jones_rep_ok n r p R EJ) as (Hn & Hr & _ & _).
  exists d, A. split; [exact ED|]. split; [exact EA|]. split; [now apply sq_square|]. intros i j e Hi Hj.
  assert (EF : braid_eq n (expand w) (FTw n)).
  { rewrite EW. apply lifts_iff in LU. destruct LU as [x [Rx ->]]. rewrite <- longest_rev in Rx. pose proof (Delta_word n x Hn Rx) as K. unfold FTw. now rewrite K. }
  pose proof (BE _ _ EF) as K. assert (SM : sq d (M gens invs E (FTw n))) by (destruct (eval_ok n r p R w EJ Hw) as (d' & gens' & invs' & E' & A' & ED' & EG' & EI' & _ & _ & _ & _ & _ & _ & S & _); rewrite EG in EG'; injection EG' as <- <-; rewrite EI in EI'; injection EI' as <-; rewrite ED in ED'; injection ED' as ED'; assert (d = d') by lia; subst; apply S).
  assert (Q : neqp p (ent (NI 0) A i j) (NL (if i =? j then vpow (Z.of_nat (2 * r * (n - r + 1))) else lint 0))).
  { transitivity (ent (NI 0) (M gens invs E (FTw n)) i j); [|now apply (twist_R n r p R d)]. assert (PQ : pmeq p A (M gens invs E (FTw n))) by (etransitivity; [exact PA|exact K]).
    apply (meq_ent (NI 0) (neqp p)) in PQ; [|apply SA|apply SM]. destruct SA as (_ & R1 & C1). apply PQ; congruence. }
  apply neqp_congr in Q. specialize (Q e). change (ent (NI 0) A i j) with (mentry A i j) in Q.
  replace (numcoef (NL (if i =? j then vpow (Z.of_nat (2 * r * (n - r + 1))) else lint 0)) e) with (if (i =? j)%nat && (e =? Z.of_nat (2 * r * (n - r + 1))) then 1 else 0)%Z in Q; [exact Q|].
  rewrite numcoef_coerce. cbn [coerce]. destruct (i =? j); cbn [andb]; [|now rewrite coef_L, L_int, Z.mul_0_l].
  unfold vpow. now rewrite coef_mono.
Qed.
(** hence multiplying a braid by Delta^2 multiplies its image by that power of v *)
Theorem C95_multiply n r p R u w w' : jones_rep n r p = Ok R -> lifts n (rev (seq 0 n)) u -> word_ok n w -> word_ok n w' -> braid_eq n (expand w') (u ++ u ++ expand w) ->
  exists d A A', rep_dimension R = Ok (Z.of_nat d) /\ rep_evaluate_artin_word R w = Ok A /\ rep_evaluate_artin_word R w' = Ok A' /\
    forall i j e, i < d -> j < d -> (p | numcoef (mentry A' i j) e - numcoef (mentry A i j) (e - Z.of_nat (2 * r * (n - r + 1))))%Z.
Proof.
  intros EJ LU Hw Hw' EW. destruct (eval_ok n r p R w EJ Hw) as (d & gens & invs & E & A & ED & EG & EI & HE & Hp & EA & SA & PA & _ & SM & BE & AP).
  destruct (eval_ok n r p R w' EJ Hw') as (d' & gens' & invs' & E' & A' & ED' & EG' & EI' & _ & _ & EA' & SA' & PA' & _).
  rewrite EG in EG'. injection EG' as <- <-. rewrite EI in EI'. injection EI' as <-. rewrite ED in ED'. injection ED' as ED'. assert (d = d') by lia. subst d'. clear ED'.
  destruct (jones_rep_ok n r p R EJ) as (Hn & Hr & _ & _).
  exists d, A, A'. do 3 (split; [assumption|]). intros i j e Hi Hj.
  assert (EF : braid_eq n (expand w') (FTw n ++ expand w)).
  { rewrite EW. apply lifts_iff in LU. destruct LU as [x [Rx ->]]. rewrite <- longest_rev in Rx. pose proof (Delta_word n x Hn Rx) as K. unfold FTw. now rewrite K, app_assoc. }
  assert (Q : neqp p (ent (NI 0) A' i j) (nmul (NL (vpow (Z.of_nat (2 * r * (n - r + 1))))) (ent (NI 0) A i j))).
  { transitivity (ent (NI 0) (MatrixTheory.prod (NI 0) nadd nmul (M gens invs E (FTw n)) A) i j); [|now apply (twist_M n r p R d)].
    assert (PQ : pmeq p A' (MatrixTheory.prod (NI 0) nadd nmul (M gens invs E (FTw n)) A)).
    { etransitivity; [exact PA'|]. etransitivity; [apply (BE _ _ EF)|]. etransitivity; [apply AP|]. apply (pr_meq p d); auto; [reflexivity|]. now symmetry. }
    apply (meq_ent (NI 0) (neqp p)) in PQ; [|apply SA'|apply sq_pr with (d := d); auto]. destruct SA' as (_ & R1 & C1). apply PQ; congruence. }
  apply neqp_congr in Q. specialize (Q e). change (ent (NI 0) A' i j) with (mentry A' i j) in Q. change (ent (NI 0) A i j) with (mentry A i j) in Q.
  replace (numcoef (nmul (NL (vpow (Z.of_nat (2 * r * (n - r + 1))))) (mentry A i j)) e) with (numcoef (mentry A i j) (e - Z.of_nat (2 * r * (n - r + 1)))) in Q; [exact Q|].
  rewrite !numcoef_coerce. set (c := Z.of_nat (2 * r * (n - r + 1))). pose proof (coerce_mul (NL (vpow c)) (mentry A i j) e) as K. rewrite K. cbn [coerce].
  rewrite !coef_L, L_mul. unfold vpow. rewrite L_make. cbn [lin]. rewrite Z.add_0_r, Z.mul_1_l. apply L_ext. intros f. unfold delta. destruct (Z.eqb_spec f (e - c)), (Z.eqb_spec (c + f) e); lia.
Qed.
Example C95_case : exists R A, jones_rep 4 2 0 = Ok R /\ lifts 4 (rev (seq 0 4)) (pword [0; 1; 0; 2; 1; 0]) /\
  rep_evaluate_artin_word R (map (fun i => (Z.of_nat i, 1%Z)) ([0; 1; 0; 2; 1; 0] ++ [0; 1; 0; 2; 1; 0])) = Ok A /\ mdata A = map NL [mkL 12 [1]; mkL 0 []; mkL 0 []; mkL 12 [1]]%Z.
Proof.
  do 2 eexists. split; [reflexivity|]. split; [|split; [vm_compute; reflexivity|reflexivity]].
  apply lifts_iff. exists [0; 1; 0; 2; 1; 0]. split; [|reflexivity]. change (rev (seq 0 4)) with (prodw 4 [0; 1; 0; 2; 1; 0]). apply minimal_redw; [repeat constructor|vm_compute; lia].
Qed.
