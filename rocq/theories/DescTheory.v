(** DescTheory.v – products of batches of images with broadcasting, for the
    nf_descendants of the two trackers. *)
From Verif Require Import Base ModelPoly SpecPoly PolyTheory PropsPoly ModelMatrix SpecMatrix MatrixTheory NumTheory ModelPolymat SpecPolymat PolymatTheory PropsPolymat PropsPolymat2 PropsPolymat3.
From Coq Require Import Ring Setoid Morphisms.
From Verif Require Import SpecBraid BraidTheory FullTwistBraid FullTwist ModelBraid ModelTL ModelTLMor ModelRep SpecRep RepTheory RepCanon PropsRep PropsTwist ModelPolyRep PolyRepTheory PolyRepSpan.
Local Open Scope nat_scope.
#[local] Existing Instance neqp_equiv.
#[local] Existing Instance pmeq_equiv.

Local Notation pr := (MatrixTheory.prod (NI 0) nadd nmul).
Lemma valid_exists pc : 1 <= nitems pc -> exists idx, valid_index pc idx.
Proof.
  induction pc as [|a pc IH]; intros NE; [exists []; constructor|]. unfold nitems in *. cbn [fold_right] in NE. destruct IH as [idx V]; [nia|]. exists (0 :: idx). constructor; [nia|exact V].
Qed.
Lemma mul_bc p t d pa pb pc A B X Y : (0 <= p)%Z -> 1 <= nitems pc -> batch_ok p t d pa X A -> batch_ok p t d pb Y B -> broadcasts pa pb pc -> (p <> 0%Z -> fits t p = true) ->
  (forall idx, valid_index pc idx -> sq d (X (operand_index pa idx)) /\ sq d (Y (operand_index pb idx)) /\ nonzero_mod p d (pr (X (operand_index pa idx)) (Y (operand_index pb idx)))) ->
  (forall idx i k e, valid_index pc idx -> i < d -> k < d -> in_dtype t (prod_coef d (acoef A (operand_index pa idx)) (acoef B (operand_index pb idx)) i k e)) -> 1 <= aD A + aD B ->
  exists C, polymat_mul p A B = Ok C /\ batch_ok p t d pc (fun idx => pr (X (operand_index pa idx)) (Y (operand_index pb idx))) C /\ batch_proj p d pc C.
Proof.
  intros Hp NE (WA & PA & IA & JA & TA & KA) (WB & PB & IB & JB & TB & KB) BC HF HX HE HD.
  destruct (C64_mul A B WA WB ltac:(congruence) ltac:(rewrite PA, PB; apply BC) HD) as (P & EP & WP & BP & IP & JP & _ & TP & _).
  rewrite PA, PB in BP. assert (EPC : apre P = pc).
  { destruct BP as (_ & L1 & K1), BC as (_ & L2 & K2). rewrite <- (rev_involutive (apre P)), <- (rev_involutive pc). f_equal. apply nth_ext with 1 1; [rewrite !rev_length; congruence|]. intros k _. specialize (K1 k). specialize (K2 k). unfold axis in *. congruence. }
  rewrite IA in IP. rewrite JB in JP. rewrite TA in TP.
  set (f := fun idx => pr (X (operand_index pa idx)) (Y (operand_index pb idx))).
  assert (KP : forall idx i k e, valid_index pc idx -> i < d -> k < d -> acoef P idx i k e = prod_coef d (acoef A (operand_index pa idx)) (acoef B (operand_index pb idx)) i k e).
  { intros idx i k e V Hi Hk. pose proof (C64_mul_exact A B P WA WB EP) as Q. rewrite PA, PB, IP, JP, JA, TA, EPC in Q. apply Q; auto. }
  assert (BP' : batch_ok p t d pc f P).
  { split; [exact WP|]. do 4 (split; [assumption|]). intros idx V. destruct (HX idx V) as (S1 & S2 & _). destruct (broadcasts_valid _ _ _ _ BC V) as [Va Ea]. destruct (broadcasts_valid _ _ _ _ (broadcasts_sym _ _ _ BC) V) as [Vb Eb]. rewrite Ea in Va. rewrite Eb in Vb.
    apply (agrees_mul p d _ _ A B P (operand_index pa idx) (operand_index pb idx) idx); auto. }
  unfold polymat_mul. rewrite EP. cbn [bind]. unfold reduce_arr. destruct (Z.eqb_spec p 0) as [E0|N0].
  - cbn [bind]. apply (projectivise_batch p t d pc); [exact NE|exact BP'| |intros; contradiction]. intros idx V. destruct (HX idx V) as (_ & _ & N).
    destruct BP' as (_ & _ & _ & _ & _ & K). destruct (agrees_nonzero p d _ P idx (K idx V) N) as (i & j & e & Hi & Hj & Q). exists i, j, e. split; [exact Hi|]. split; [exact Hj|]. intros Z. apply Q. rewrite Z. apply Z.divide_0_r.
  - specialize (HF N0). pose proof (proj1 (fits_ok _ _) HF) as HF'. unfold in_dtype in HF'.
    destruct (arr_mod_ok P p WP ltac:(lia) ltac:(rewrite TP; lia) (in_dtype_I64 t p HF')) as (C & EC & WC & C1 & C2 & C3 & C4 & C5 & KC). rewrite EC. cbn [bind]. rewrite TP in C5. specialize (C5 HF). rewrite EPC, IP, JP in KC.
    destruct BP' as (_ & _ & _ & _ & _ & K).
    assert (KC' : forall idx, valid_index pc idx -> agrees p d (f idx) C idx).
    { intros idx V. apply (agrees_array p d _ P C idx idx); [|now apply K]. intros i j e Hi Hj. rewrite KC by assumption. exists (acoef P idx i j e / p)%Z. pose proof (Z.div_mod (acoef P idx i j e) p ltac:(lia)). lia. }
    apply (projectivise_batch p t d pc); [exact NE| | |].
    + split; [exact WC|]. do 4 (split; [congruence|]). exact KC'.
    + intros idx V. destruct (HX idx V) as (_ & _ & N). destruct (agrees_nonzero p d _ C idx (KC' idx V) N) as (i & j & e & Hi & Hj & Q). exists i, j, e. split; [exact Hi|]. split; [exact Hj|]. intros Z. apply Q. rewrite Z. apply Z.divide_0_r.
    + intros idx i j e V Hi Hj _. rewrite KC by assumption. apply Z.mod_pos_bound. lia.
Qed.
(** reading the images of a batch in other shapes *)
Definition batch1 (p : Z) (t : dtype) (d N : nat) (X : nat -> mat num) (A : parr) : Prop :=
  batch_ok p t d [N] (fun idx => X (hd 0 idx)) A /\ batch_proj p d [N] A.

Section W.
Variables (n r : nat) (p : Z) (R : rep) (d : nat) (gens invs : list (mat num)) (E : mat num).
Hypothesis (EJ : jones_rep n r p = Ok R) (ED : rep_dimension R = Ok (Z.of_nat d)) (EG : rep_artin_gens_invs R = Ok (gens, invs)) (EI : rep_id R = Ok E) (Hp1 : p <> 1%Z).
Local Notation MM := (M gens invs E).
Lemma pr_ent u w i j e : i < d -> j < d -> (p | numcoef (mentry (pr (MM u) (MM w)) i j) e - numcoef (mentry (MM (u ++ w)) i j) e)%Z.
Proof using EJ ED EG EI.
  destruct (Mfacts n r p R d gens invs E EJ ED EG EI) as (_ & _ & _ & _ & _ & SM & BM & PM). intros Hi Hj. assert (SP : sq d (pr (MM u) (MM w))) by (apply sq_pr with (d := d); auto).
  pose proof (PM u w) as Q. symmetry in Q. apply (meq_ent (NI 0) (neqp p)) in Q; [|apply SP|apply SM]. destruct Q as (_ & _ & Q). pose proof SP as (_ & R1 & C1). specialize (Q i j ltac:(rewrite R1; lia) ltac:(rewrite C1; lia)). apply neqp_congr in Q. exact (Q e).
Qed.
Lemma bc_step t pa pb pc A B (u w : list nat -> bword) Wb : 1 <= nitems pc -> broadcasts pa pb pc ->
  batch_ok p t d pa (fun idx => MM (u idx)) A -> batch_proj p d pa A -> batch_ok p t d pb (fun idx => MM (w idx)) B -> batch_proj p d pb B ->
  (forall idx, valid_index pa idx -> in_range n (u idx)) -> (forall idx, valid_index pb idx -> in_range n (w idx)) ->
  (p <> 0%Z -> in_dtype t p /\ (Z.of_nat d * (Z.of_nat Wb * ((p - 1) * (p - 1))) < 2 ^ (dbits t - 1))%Z /\
     forall idx i j e, valid_index pb idx -> i < d -> j < d -> Wb <= e -> acoef B idx i j e = 0%Z) ->
  (p = 0%Z -> forall idx i j e, valid_index pc idx -> i < d -> j < d -> in_dtype t (numcoef (mentry (MM (u (operand_index pa idx) ++ w (operand_index pb idx))) i j) e)) ->
  exists C, polymat_mul p A B = Ok C /\ batch_ok p t d pc (fun idx => MM (u (operand_index pa idx) ++ w (operand_index pb idx))) C /\ batch_proj p d pc C.
Proof using EJ ED EG EI Hp1.
  intros NE BC BA QA BB QB HU HW BN BZ. destruct (Mfacts n r p R d gens invs E EJ ED EG EI) as (_ & _ & Hp & Hd & _ & SM & BM & PM).
  pose proof BA as (WA & A1 & A2 & A3 & A4 & KA). pose proof BB as (WB & B1 & B2 & B3 & B4 & KB).
  assert (VV : forall idx, valid_index pc idx -> valid_index pa (operand_index pa idx) /\ valid_index pb (operand_index pb idx)).
  { intros idx V. destruct (broadcasts_valid _ _ _ _ BC V) as [Va Ea]. destruct (broadcasts_valid _ _ _ _ (broadcasts_sym _ _ _ BC) V) as [Vb Eb]. rewrite Ea in Va. rewrite Eb in Vb. auto. }
  assert (HD : 1 <= aD A + aD B).
  { destruct (valid_exists pc NE) as [idx V]. destruct (VV idx V) as [Va _]. destruct (QA _ Va) as [[(i & j & _ & _ & N) _] _]. unfold acoef in N. destruct (Nat.ltb_spec 0 (aD A)); [lia|contradiction]. }
  destruct (mul_bc p t d pa pb pc A B (fun idx => MM (u idx)) (fun idx => MM (w idx))) as (C & EC & BC' & PC); auto.
  - intros P0. destruct (BN P0) as (L & _). now apply fits_ok.
  - intros idx V. destruct (VV idx V) as [Va Vb]. split; [apply SM|]. split; [apply SM|].
    set (u' := u (operand_index pa idx)) in *. set (w' := w (operand_index pb idx)) in *.
    destruct (M_nonzero n r p R d gens invs E EJ ED EG EI Hp1 (u' ++ w')) as (i & j & e & Hi & Hj & NZ); [apply in_range_app; split; [now apply HU|now apply HW]|].
    exists i, j, e. split; [exact Hi|]. split; [exact Hj|]. intros Dv. apply NZ. pose proof (pr_ent u' w' i j e Hi Hj) as Q.
    set (a := numcoef (mentry (MM (u' ++ w')) i j) e) in *. set (b := numcoef (mentry (pr (MM u') (MM w')) i j) e) in *. replace a with (b - (b - a))%Z by lia. now apply Z.divide_sub_r.
  - intros idx i k e V Hi Hk. destruct (VV idx V) as [Va Vb]. specialize (KA _ Va). specialize (KB _ Vb). cbn beta in KA, KB. destruct (Z.eq_dec p 0) as [P0|P0].
    + specialize (BZ P0 idx). rewrite P0 in KA, KB. set (ia := operand_index pa idx) in *. set (ib := operand_index pb idx) in *.
      destruct (exact_product d (MM (u ia)) (MM (w ib)) A B ia ib WA WB (SM _) (SM _) KA KB) as [s Hs]. rewrite Hs by assumption.
      pose proof (pr_ent (u ia) (w ib) i k (Z.of_nat e + s)%Z Hi Hk) as Q. rewrite P0 in Q. apply Z.divide_0_l in Q. specialize (BZ i k (Z.of_nat e + s)%Z V Hi Hk).
      replace (numcoef (mentry (pr (MM (u ia)) (MM (w ib))) i k) (Z.of_nat e + s)) with (numcoef (mentry (MM (u ia ++ w ib)) i k) (Z.of_nat e + s)) by lia. exact BZ.
    + destruct (BN P0) as (L1 & L4 & K). specialize (QA _ Va). specialize (QB _ Vb). set (ia := operand_index pa idx) in *. set (ib := operand_index pb idx) in *.
      assert (U : (Z.abs (prod_coef d (acoef A ia) (acoef B ib) i k e) <= Z.of_nat d * (Z.of_nat (Nat.min (aD A) Wb) * ((p - 1) * (p - 1))))%Z).
      { apply prod_coef_abs; [lia|lia| | | |].
        - intros j f Hj. destruct QA as [_ QA]. specialize (QA i j f Hi Hj P0). lia.
        - intros j f Hj. destruct QB as [_ QB]. specialize (QB j k f Hj Hk P0). lia.
        - intros j f Hj Hf. unfold acoef. destruct (Nat.ltb_spec f (aD A)); [lia|reflexivity].
        - intros j f Hj Hf. now apply K. }
      assert (0 <= (p - 1) * (p - 1))%Z by nia.
      assert (U2 : (Z.of_nat d * (Z.of_nat (Nat.min (aD A) Wb) * ((p - 1) * (p - 1))) <= Z.of_nat d * (Z.of_nat Wb * ((p - 1) * (p - 1))))%Z) by (apply Z.mul_le_mono_nonneg_l; [lia|]; apply Z.mul_le_mono_nonneg_r; lia).
      unfold in_dtype. lia.
  - exists C. split; [exact EC|]. split; [|exact PC]. destruct BC' as (WC & C1 & C2 & C3 & C4 & KC). split; [exact WC|]. do 4 (split; [assumption|]). intros idx V. specialize (KC idx V). cbn beta in KC.
    set (u' := u (operand_index pa idx)) in *. set (w' := w (operand_index pb idx)) in *.
    assert (MX : pmeq p (pr (MM u') (MM w')) (MM (u' ++ w'))) by (symmetry; apply PM).
    exact (agrees_pmeq p d _ _ C idx ltac:(apply sq_pr with (d := d); auto) (SM _) MX KC).
Qed.
End W.
