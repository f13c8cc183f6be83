(** PropsPolyRep2.v – C61: the batched evaluation of normal forms agrees with the
    evaluation of their words. *)
From Verif Require Import Base ModelPoly SpecPoly PolyTheory PropsPoly ModelMatrix SpecMatrix MatrixTheory NumTheory ModelPolymat SpecPolymat PolymatTheory PropsPolymat PropsPolymat2 PropsPolymat3.
From Coq Require Import Ring Setoid Morphisms.
From Verif Require Import ModelPerm Germ GermNF GermAct GermBraid PermTheory WeakOrder PermWords SpecBraid BraidTheory FullTwistBraid FullTwist ModelBraid ModelTL ModelTLMor ModelRep SpecRep RepTheory RepCanon PropsRep PropsTwist ModelPolyRep TableTheory NFApi PermGerm PermTable PropsGNF PropsGNF2 PolyRepTheory PolyRepSpan.
Local Open Scope nat_scope.
#[local] Existing Instance neqp_equiv.
#[local] Existing Instance pmeq_equiv.

Section Gen.
Context {A : Type}.
Variable tbl : nftable A.
Variable G : Germ.
Variable rn : T G -> T G -> T G * T G.
Variable eqd : forall x y : T G, {x = y} + {x <> y}.
Variable n : nat.
Variable wd : T G -> list (Z * Z).
Variable atom : nat -> T G.
Variable idx : T G -> Z.
Variable div : T G -> A.
Hypothesis TK : table_ok tbl G rn eqd n wd atom idx div.
Variable tb : nat -> res (nftable A).
Hypothesis Htb : tb n = Ok tbl.
Local Notation enc := (enc G n idx).
Local Notation tau := (t_tau_order tbl).

(** every coefficient is an int64 *)
Local Notation fits := fits64.

Lemma fits_intro d X : sq d X -> 0 < d -> (forall i j k, i < d -> j < d -> in_dtype I64 (numcoef (mentry X i j) k)) -> fits X.
Proof using Type.
  intros (W & R1 & C1) Hd K i j k. unfold mentry. rewrite C1. destruct (Nat.lt_ge_cases (d * i + j) (d * d)) as [L|L].
  - destruct (pos_split d d (d * i + j) L) as (A1 & B1 & Q). specialize (K _ _ k A1 B1). unfold mentry in K. rewrite C1 in K. rewrite <- Q in K. exact K.
  - unfold mwf in W. rewrite nth_overflow by (rewrite W, R1, C1; exact L). cbn [numcoef]. destruct (k =? 0)%Z; unfold in_dtype; cbn; lia.
Qed.
Lemma gen_same_length r p R d bs K W : jones_rep n r p = Ok R -> rep_dimension R = Ok (Z.of_nat d) -> p <> 1%Z -> bs <> [] ->
  (0 < tau)%Z -> braid_eq n (wpow (lift G wd (D G)) tau) (FTw n) -> wd (D G) <> [] ->
  (forall b, In b bs -> nf_value tb n b) -> (forall b b', In b bs -> In b' bs -> length (o_factors b) = length (o_factors b')) ->
  (forall x, 2 * length (lift G wd x) < W) ->
  (p <> 0%Z -> (Z.of_nat d * (Z.of_nat W * (K * (p - 1))) < 2 ^ 63 /\ p - 1 <= K < 2 ^ 63)%Z /\
     (forall b X Y i j k, In b bs -> rep_evaluate_nf tb R (NFObj n 0 [t_D tbl]) = Ok X -> nmat_pow X (o_pow b mod tau) = Ok Y -> i < d -> j < d -> (Z.abs (numcoef (mentry Y i j) k) <= K)%Z)) ->
  (p = 0%Z -> forall b X, In b bs -> (forall i, i <= length (o_factors b) -> rep_evaluate_nf tb R (NFObj n (o_pow b) (firstn i (o_factors b))) = Ok X -> fits X) /\
     (forall f, In f (o_factors b) -> rep_evaluate_nf tb R (NFObj n 0 [f]) = Ok X -> fits X)) ->
  exists P, polymat_evaluate_braids_of_same_length tb R bs = Ok P /\ wfa P /\ apre P = [length bs] /\ aI P = d /\ aJ P = d /\ adt P = I64 /\
    (forall k b, nth_error bs k = Some b -> (exists X, rep_evaluate_nf tb R b = Ok X /\ agrees p d X P [k]) /\ least_degree (acoef P [k]) d d 0) /\
    ((exists b, In b bs /\ o_factors b <> []) \/ (forall b, In b bs -> (o_pow b mod tau <= 1)%Z) -> forall k i j e, k < length bs -> i < d -> j < d -> p <> 0%Z -> (0 <= acoef P [k] i j e < p)%Z).
Proof using TK Htb.
  intros EJ ED Hp1 NE HT EF ND HV HL HW BN BZ.
  destruct (jones_all n r p R EJ) as (d' & gens & invs & E & EN & EP & Hp & Hd & ED' & EG & EI & HE & _). rewrite ED in ED'. injection ED' as ED'. apply Nat2Z.inj in ED'. subst d'.
  destruct (Mfacts n r p R d gens invs E EJ ED EG EI) as (_ & _ & _ & _ & _ & SM & BM & PM).
  assert (HS : forall b, In b bs -> exists s, b = enc s). { intros b Hb. destruct (value_reps tbl G rn eqd n wd atom idx div TK tb Htb b (HV b Hb)) as [w [[s [_ [Es _]]] _]]. exists s. exact Es. }
  assert (FWx : forall x, fw tbl (idx x) = wd x) by (intros x; unfold fw; now rewrite (tk_word _ _ _ _ _ _ _ _ _ TK)).
  assert (GW : forall x, goodw n (wd x)) by (intros x; exact (tk_wdok _ _ _ _ _ _ _ _ _ TK x)).
  assert (FLx : forall l, fl tbl (map idx l) = liftl G (lift G wd) l). { induction l as [|x l IH]; [reflexivity|]. cbn [map fl flat_map liftl]. rewrite FWx. f_equal. exact IH. }
  assert (EV : forall s, exists X, rep_evaluate_nf tb R (enc s) = Ok X /\ sq d X /\ pmeq p X (M gens invs E (wpow (lift G wd (D G)) (fst s) ++ liftl G (lift G wd) (snd s)))).
  { intros s. destruct (artin_word_any tbl G rn eqd n wd atom idx div TK tb Htb s) as [w [E1 [E2 [E3 E4]]]]. destruct (value_ok n r p R d gens invs E EJ ED EG EI Hp1 w (Logic.conj E3 E4)) as (X & EX & SX & PX & _).
    exists X. unfold rep_evaluate_nf. rewrite E1. cbn [bind]. split; [exact EX|]. split; [exact SX|]. rewrite E2 in PX. exact PX. }
  assert (EVf : forall x, exists w X, rep_evaluate_nf tb R (NFObj n 0 [idx x]) = Ok X /\ rep_evaluate_artin_word R (wd x) = Ok X /\ artin_word tb (NFObj n 0 [idx x]) = Ok w /\ w = wd x).
  { intros x. assert (Ew : artin_word tb (NFObj n 0 [idx x]) = Ok (wd x)). { unfold artin_word. cbn [o_n o_pow o_factors]. rewrite Htb. cbn [bind]. rewrite (tk_DD _ _ _ _ _ _ _ _ _ TK), (tk_word _ _ _ _ _ _ _ _ _ TK). cbn [bind mapM]. rewrite (tk_word _ _ _ _ _ _ _ _ _ TK). cbn [bind Z.ltb Z.compare Z.abs_nat repeat concat List.app]. now rewrite app_nil_r. }
    destruct (value_ok n r p R d gens invs E EJ ED EG EI Hp1 (wd x) (GW x)) as (X & EX & _). exists (wd x), X. unfold rep_evaluate_nf. rewrite Ew. cbn [bind]. auto. }
  assert (FAC : forall b f, In b bs -> In f (o_factors b) -> exists x, f = idx x). { intros b f Hb Hf. destruct (HS b Hb) as [s Es]. rewrite Es in Hf. cbn [TableTheory.enc o_factors] in Hf. apply in_map_iff in Hf. destruct Hf as [x [Ex _]]. exists x. now symmetry. }
  destruct bs as [|b0 bs0] eqn:EBS; [contradiction|]. rewrite <- EBS in *. clear NE. assert (HN : 1 <= length bs) by (rewrite EBS; cbn; lia). assert (Hb0 : In b0 bs) by (rewrite EBS; now left).
  destruct (same_length_ok n r p R d gens invs E EJ ED EG EI Hp1 tb tbl Htb bs b0 (length (o_factors b0)) (wd (D G)) K W) as (P & EPP & W1 & W2 & W3 & W4 & W5 & KP & RP); auto.
  - rewrite (tk_DD _ _ _ _ _ _ _ _ _ TK). apply (tk_word _ _ _ _ _ _ _ _ _ TK).
  - intros b f Hb Hf. destruct (FAC b f Hb Hf) as [x ->]. rewrite FWx. split; [apply (tk_word _ _ _ _ _ _ _ _ _ TK)|]. split; [apply GW|]. intros P0 X EX. destruct (EVf x) as (w & X' & EX' & EX2 & _). rewrite EX in EX2. injection EX2 as <-. apply (proj2 (BZ P0 b X Hb) (idx x) Hf EX').
  - destruct (Z.eq_dec p 0) as [->|P0]; [unfold in_dtype; cbn; lia|]. destruct (BN P0) as [[B1 B2] _]. unfold in_dtype. cbn [dbits]. change (64 - 1)%Z with 63%Z. assert (1 <= Z.of_nat W)%Z by (specialize (HW (D G)); lia). assert (W' : (1 <= Z.of_nat d)%Z) by lia.
    assert (p - 1 < 2 ^ 63 - 1)%Z; [|lia]. destruct (Z.eq_dec p 2) as [->|]; [lia|]. assert (2 * (p - 1) <= K * (p - 1))%Z by (apply Z.mul_le_mono_nonneg_r; lia). assert (K * (p - 1) <= Z.of_nat W * (K * (p - 1)))%Z by nia. assert (Z.of_nat W * (K * (p - 1)) <= Z.of_nat d * (Z.of_nat W * (K * (p - 1))))%Z by nia. lia.
  - intros P0. destruct (BN P0) as [[B1 B2] B3]. split; [lia|]. split; [exact B1|]. split; [lia|]. split.
    + intros b X Y i j k Hb EX EY. destruct (EVf (D G)) as (w & X' & EX' & EX2 & _). rewrite EX in EX2. injection EX2 as <-. rewrite <- (tk_DD _ _ _ _ _ _ _ _ _ TK) in EX'. now apply (B3 b X Y).
    + intros b f X Hb Hf EX. destruct (FAC b f Hb Hf) as [x ->]. rewrite FWx in EX. destruct (value_ok n r p R d gens invs E EJ ED EG EI Hp1 (wd x) (GW x)) as (X' & EX' & SX & PX & NX & CX & _). rewrite EX in EX'. injection EX' as <-. specialize (CX P0).
      assert (Q : forall k, has_exponent X k -> (- 2 * nneg' (lift G wd x) <= k <= 2 * npos (lift G wd x))%Z).
      { intros k (i & j & Hi & Hj & N). pose proof SX as (_ & R1 & C1). rewrite R1 in Hi. rewrite C1 in Hj. apply (M_span n r p R d gens invs E (lift G wd x) EJ ED EG HE (word_ok_range n _ (proj1 (GW x))) i j k Hi Hj). intros Dv. specialize (CX i j k Hi Hj).
        apply (meq_ent (NI 0) (neqp p)) in PX; [|apply SX|apply SM]. destruct PX as (_ & _ & PX). specialize (PX i j ltac:(lia) ltac:(lia)). apply neqp_congr in PX. specialize (PX k). change (ent (NI 0) X i j) with (mentry X i j) in PX. change (ent (NI 0) (M gens invs E (expand (wd x))) i j) with (mentry (M gens invs E (lift G wd x)) i j) in PX.
        assert (Dx : (p | numcoef (mentry X i j) k)%Z). { replace (numcoef (mentry X i j) k) with ((numcoef (mentry X i j) k - numcoef (mentry (M gens invs E (lift G wd x)) i j) k) + numcoef (mentry (M gens invs E (lift G wd x)) i j) k)%Z by ring. now apply Z.divide_add_r. }
        destruct Dx as [z Dx]. destruct (Z.eq_dec z 0) as [->|Nz]; [lia|]. assert (1 <= Z.abs z)%Z by lia. nia. }
      intros k k' Hk Hk'. specialize (Q k Hk) as Q1. specialize (Q k' Hk') as Q2. pose proof (npos_nneg (lift G wd x)) as Q3. specialize (HW x). lia.
  - intros P0 b i Hb Hi. destruct (HS b Hb) as [s Es]. assert (Ef : NFObj n (o_pow b) (firstn i (o_factors b)) = enc (fst s, firstn i (snd s))). { rewrite Es. unfold TableTheory.enc. cbn [o_pow o_factors fst snd]. now rewrite firstn_map. }
    destruct (EV (fst s, firstn i (snd s))) as (X & EX & SX & PX). rewrite <- Ef in EX. assert (FX : fits X) by (apply (proj1 (BZ P0 b X Hb) i); [rewrite (HL b b0 Hb Hb0); exact Hi|exact EX]).
    cbn [fst snd] in PX. assert (Es1 : o_pow b = fst s) by now rewrite Es. assert (Es2 : fl tbl (firstn i (o_factors b)) = liftl G (lift G wd) (firstn i (snd s))) by (rewrite Es; cbn [TableTheory.enc o_factors]; rewrite firstn_map; apply FLx).
    rewrite Es1, Es2. set (v := liftl G (lift G wd) (firstn i (snd s))) in *. change (expand (wd (D G))) with (lift G wd (D G)). set (dl := lift G wd (D G)) in *.
    assert (RD : in_range n dl) by (apply word_ok_range, GW).
    set (u := wpow dl (fst s mod tau) ++ v).
    assert (BE : braid_eq n (wpow dl (fst s) ++ v) (wpow (FTw n) (fst s / tau) ++ u)).
    { unfold u. rewrite app_assoc. apply be_app; [|reflexivity]. rewrite <- (wpow_mor n _ _ (fst s / tau) EF), (wpow_nest n dl tau (fst s / tau) RD), <- wpow_add by exact RD. rewrite <- Z.div_mod by lia. reflexivity. }
    pose proof (BM _ _ BE) as PB. assert (PX2 : pmeq p X (M gens invs E (wpow (FTw n) (fst s / tau) ++ u))) by (etransitivity; [exact PX|exact PB]).
    apply (fits_intro d _ (SM u) Hd). intros a b' k La Lb.
    pose proof (twist_pow n r p R d gens invs E EJ ED EG EI (fst s / tau) u a b' La Lb) as Q. apply (meq_ent (NI 0) (neqp p)) in PX2; [|apply SX|apply SM]. destruct PX2 as (_ & _ & PX2). pose proof SX as (_ & R1 & C1). specialize (PX2 a b' ltac:(lia) ltac:(lia)). rewrite Q in PX2. apply neqp_congr in PX2. rewrite P0 in PX2. set (c' := (fst s / tau * Z.of_nat (2 * r * (n - r + 1)))%Z) in *. destruct (PX2 (c' + k)%Z) as [z Qz]. rewrite Z.mul_0_r in Qz.
      specialize (FX a b' (c' + k)%Z). change (ent (NI 0) X a b') with (mentry X a b') in Qz. replace (numcoef (mentry X a b') (c' + k)) with (numcoef (mentry (M gens invs E u) a b') k) in FX; [exact FX|].
      rewrite (numcoef_coerce (nmul _ _)) in Qz. pose proof (coerce_mul (NL (vpow c')) (ent (NI 0) (M gens invs E u) a b')) as CM. rewrite (CM (c' + k)%Z) in Qz. cbn [coerce] in Qz. rewrite vpow_coef in Qz. replace (c' + k - c')%Z with k in Qz by ring. rewrite <- numcoef_coerce in Qz. change (ent (NI 0) (M gens invs E u) a b') with (mentry (M gens invs E u) a b') in Qz. lia.
  - exists P. split; [exact EPP|]. split; [exact W1|]. do 4 (split; [assumption|]). split.
    + intros k b Hk. assert (Lk : k < length bs) by (apply nth_error_Some; congruence). destruct (KP k Lk) as [AG LD]. split; [|exact LD]. rewrite (nth_error_nth _ _ b0 Hk) in AG. destruct (HS b (nth_error_In _ _ Hk)) as [s Es]. destruct (EV s) as (X & EX & SX & PX). exists X. split; [rewrite Es; exact EX|].
      rewrite Es in AG. cbn [TableTheory.enc o_pow o_factors] in AG. rewrite FLx in AG. eapply agrees_pmeq; [apply SM|exact SX|symmetry; exact PX|exact AG].
    + intros C. apply RP. destruct C as [(b & Hb & Nb)|C]; [left|right; exact C]. rewrite (HL b0 b Hb0 Hb). destruct (o_factors b); [contradiction|discriminate].
Qed.
End Gen.

(** ** GNF *)
Lemma gnf_word_length n x : 2 <= n -> 2 * length (lift (PG n) (pwd n) x) < n * (n - 1) + 1.
Proof.
  intros n2. destruct (plift n x) as [u [_ [Ru E]]]. rewrite E. unfold pword. rewrite map_length. rewrite (redw_len n u _ Ru). unfold llen. pose proof (plength_bound (pinv (val n x))) as K.
  pose proof (isperm_length n _ (isperm_pinv n _ (val_P n x))) as L. rewrite L in K. lia.
Qed.
Lemma gnf_delta_sq n : 2 <= n -> braid_eq n (wpow (lift (PG n) (pwd n) (D (PG n))) 2) (FTw n).
Proof.
  intros n2. destruct (plift n (D (PG n))) as [u [_ [Ru E]]]. rewrite E. change (val n (D (PG n))) with (val n (pD n)) in Ru. rewrite val_D in Ru.
  pose proof (Delta_word n u ltac:(lia) Ru) as K. change (wpow (pword u) 2) with (pword u ++ pword u ++ []). rewrite app_nil_r. unfold FTw. apply be_app; exact K.
Qed.
Lemma gnf_delta_word n : 2 <= n -> pwd n (D (PG n)) <> [].
Proof.
  intros n2 Q. destruct (plift n (D (PG n))) as [u [_ [Ru E]]]. unfold lift in E. rewrite Q in E. cbn in E. destruct u; [|discriminate]. change (val n (D (PG n))) with (val n (pD n)) in Ru. rewrite val_D in Ru. apply redw_prodw in Ru. cbn in Ru.
  apply (pD_ne_one n n2). apply (val_inj n). rewrite val_D, val_one. symmetry. exact Ru.
Qed.

(** what it means that the k-th item of the array P is the image X up to a power of
    v, modulo p *)
Definition is_image (p : Z) (d : nat) (X : mat num) (P : parr) (k : nat) : Prop :=
  exists s : Z, forall i j e, i < d -> j < d ->
    (p | numcoef (mentry X i j) e - (if e <? s then 0 else acoef P [k] i j (Z.to_nat (e - s))))%Z.
(** a matrix of polynomials whose coefficients are int64 *)
Definition int64_matrix (X : mat num) : Prop := forall i j e, (- 2 ^ 63 <= numcoef (mentry X i j) e < 2 ^ 63)%Z.

(** C61.  polymat_evaluate_braids_of_same_length of a non-empty list of GNF braids
    with the same number of factors is a batch with one matrix per braid, which is
    evaluate(braid) divided by a power of v, modulo p, and is projectivised: the
    coefficient of v^0 is not zero, and all coefficients are in [0, p).
    The arithmetic is that of int64; for p >= 2 it is enough that
    dim (n(n-1)+1) (p-1)^2 < 2^63; for p = 0, that the coefficients of evaluate()
    of the factors and of the prefixes of the braids fit.  (Modulo 1 every matrix
    is zero and projectivise fails, C66.) *)
Theorem C61_gnf n r p R tb bs d : jones_rep n r p = Ok R -> 2 <= n -> gnf_table n tb -> p <> 1%Z -> rep_dimension R = Ok (Z.of_nat d) ->
  bs <> [] -> (forall b, In b bs -> nf_value tb n b) -> (forall b b', In b bs -> In b' bs -> length (o_factors b) = length (o_factors b')) ->
  (p <> 0%Z -> (Z.of_nat d * (Z.of_nat (n * (n - 1) + 1) * ((p - 1) * (p - 1))) < 2 ^ 63)%Z) ->
  (p = 0%Z -> forall b X, In b bs ->
     (forall i, i <= length (o_factors b) -> rep_evaluate_nf tb R (NFObj n (o_pow b) (firstn i (o_factors b))) = Ok X -> int64_matrix X) /\
     (forall f, In f (o_factors b) -> rep_evaluate_nf tb R (NFObj n 0 [f]) = Ok X -> int64_matrix X)) ->
  exists P, polymat_evaluate_braids_of_same_length tb R bs = Ok P /\ wfa P /\ apre P = [length bs] /\ aI P = d /\ aJ P = d /\ adt P = I64 /\
    forall k b, nth_error bs k = Some b -> (exists X, rep_evaluate_nf tb R b = Ok X /\ is_image p d X P k) /\
      (exists i j, i < d /\ j < d /\ acoef P [k] i j 0 <> 0%Z) /\ (p <> 0%Z -> forall i j e, i < d -> j < d -> (0 <= acoef P [k] i j e < p)%Z).
Proof.
  intros EJ n2 Ht Hp1 ED NE HV HL BN BZ. pose proof (gnf_table_ptab n tb Ht) as Etb. pose proof (ptab_ok n n2) as TK.
  destruct (jones_rep_ok n r p R EJ) as (_ & _ & Hp & _).
  destruct (gen_same_length (ptab n) (PG n) (prn n) (peqd n) n (pwd n) (PermGerm.atom n) (idx n) (val n) TK tb Etb r p R d bs (p - 1)%Z (n * (n - 1) + 1) EJ ED Hp1 NE ltac:(reflexivity)) as (P & EP & W1 & W2 & W3 & W4 & W5 & KP & RP); auto.
  - now apply gnf_delta_sq.
  - now apply gnf_delta_word.
  - intros x. now apply gnf_word_length.
  - intros P0. specialize (BN P0). split.
    + split; [exact BN|]. split; [lia|]. assert (D1 : (1 <= Z.of_nat d)%Z). { destruct (jones_all n r p R EJ) as (d' & gens & invs & E & _ & _ & _ & Hd & ED' & _). rewrite ED in ED'. injection ED' as ED'. lia. }
      assert (W0 : (1 <= Z.of_nat (n * (n - 1) + 1))%Z) by lia. assert ((p - 1) * 1 <= (p - 1) * (p - 1))%Z by nia. assert ((p - 1) * (p - 1) <= Z.of_nat (n * (n - 1) + 1) * ((p - 1) * (p - 1)))%Z by nia. nia.
    + intros b X Y i j k Hb EX EY Hi Hj. destruct (jones_all n r p R EJ) as (d' & gens & invs & E & EN & EP & _ & Hd & ED' & EG & EI & HE & _). rewrite ED in ED'. injection ED' as ED'. apply Nat2Z.inj in ED'. subst d'.
      assert (Ew : artin_word tb (NFObj n 0 [t_D (ptab n)]) = Ok (pwd n (D (PG n)))). { unfold artin_word. cbn [o_n o_pow o_factors]. rewrite Etb. cbn [bind]. rewrite (tk_DD _ _ _ _ _ _ _ _ _ TK), (tk_word _ _ _ _ _ _ _ _ _ TK). cbn [bind mapM]. rewrite (tk_word _ _ _ _ _ _ _ _ _ TK). cbn [bind Z.ltb Z.compare Z.abs_nat repeat concat List.app]. now rewrite app_nil_r. }
      unfold rep_evaluate_nf in EX. rewrite Ew in EX. cbn [bind] in EX.
      pose proof (Z.mod_pos_bound (o_pow b) 2 ltac:(lia)) as MB. change (t_tau_order (ptab n)) with 2%Z in EY.
      destruct (Mpow_pmeq n r p R d gens invs E EJ ED EG EI Hp1 (pwd n (D (PG n))) X (o_pow b mod 2) (tk_wdok _ _ _ _ _ _ _ _ _ TK (D (PG n))) EX ltac:(lia)) as (Y' & EY' & _ & _ & _ & CY). rewrite EY in EY'. injection EY' as <-. specialize (CY ltac:(lia) P0 i j k Hi Hj). lia.
  - exists P. split; [exact EP|]. split; [exact W1|]. do 4 (split; [assumption|]). intros k b Hk. destruct (KP k b Hk) as [AG [(i & j & Hi & Hj & N) _]]. split; [exact AG|]. split; [exists i, j; auto|].
    intros P0 i' j' e Hi' Hj'. apply RP; auto; [right; intros b' _; change (t_tau_order (ptab n)) with 2%Z; pose proof (Z.mod_pos_bound (o_pow b') 2 ltac:(lia)); lia|]. apply nth_error_Some. congruence.
Qed.
Lemma item_ok A N k : wfa A -> apre A = [N] -> k < N -> exists C, arr_item A (Z.of_nat k) = Ok C /\ wfa C /\ apre C = [] /\ aI C = aI A /\ aJ C = aJ A /\ aD C = aD A /\ adt C = adt A /\
  forall i j e, i < aI A -> j < aJ A -> acoef C [] i j e = acoef A [k] i j e.
Proof.
  intros W EP Hk. assert (V : valid_index (apre A) [k]) by (rewrite EP; constructor; [exact Hk|constructor]). destruct (wfa_block A [k] W V) as [L F].
  assert (LB : length (ablocks A) = N) by (destruct W as (W1 & _); rewrite W1, EP; cbn; lia).
  exists (mkA [] (aI A) (aJ A) (aD A) (adt A) [block A [k]]). split.
  - unfold arr_item. rewrite EP, pyget_nat, (get_ok _ _ []) by lia. cbn [bind]. unfold block. rewrite EP. cbn [ravel]. unfold size. cbn [fold_right]. now rewrite Nat.mul_1_r, Nat.add_0_r.
  - assert (WC : wfa (mkA [] (aI A) (aJ A) (aD A) (adt A) [block A [k]])) by (split; [reflexivity|split; (constructor; [cbn [aI aJ aD adt]; first [exact F|rewrite L; cbn; lia]|constructor])]).
    split; [exact WC|]. do 5 (split; [reflexivity|]). intros i j e Hi Hj. rewrite !coef_block; auto. constructor.
Qed.
(** polymat_evaluate of one braid *)
Theorem C61_gnf_one n r p R tb b d : jones_rep n r p = Ok R -> 2 <= n -> gnf_table n tb -> p <> 1%Z -> rep_dimension R = Ok (Z.of_nat d) -> nf_value tb n b ->
  (p <> 0%Z -> (Z.of_nat d * (Z.of_nat (n * (n - 1) + 1) * ((p - 1) * (p - 1))) < 2 ^ 63)%Z) ->
  (p = 0%Z -> forall X,
     (forall i, i <= length (o_factors b) -> rep_evaluate_nf tb R (NFObj n (o_pow b) (firstn i (o_factors b))) = Ok X -> int64_matrix X) /\
     (forall f, In f (o_factors b) -> rep_evaluate_nf tb R (NFObj n 0 [f]) = Ok X -> int64_matrix X)) ->
  exists C X s, polymat_evaluate_braid tb R b = Ok C /\ rep_evaluate_nf tb R b = Ok X /\ wfa C /\ apre C = [] /\ aI C = d /\ aJ C = d /\
    (forall i j e, i < d -> j < d -> (p | numcoef (mentry X i j) e - (if e <? s then 0 else acoef C [] i j (Z.to_nat (e - s))))%Z) /\
    (exists i j, i < d /\ j < d /\ acoef C [] i j 0 <> 0%Z) /\ (p <> 0%Z -> forall i j e, i < d -> j < d -> (0 <= acoef C [] i j e < p)%Z).
Proof.
  intros EJ n2 Ht Hp1 ED V BN BZ.
  destruct (C61_gnf n r p R tb [b] d EJ n2 Ht Hp1 ED) as (P & EP & W & AP & IP & JP & TP & KP); auto; try discriminate.
  - intros b' [<-|[]]. exact V.
  - intros b1 b2 [<-|[]] [<-|[]]. reflexivity.
  - intros P0 b' X [<-|[]]. apply BZ. exact P0.
  - destruct (item_ok P 1 0 W AP ltac:(lia)) as (C & EC & WC & C1 & C2 & C3 & C4 & C5 & KC). destruct (KP 0 b eq_refl) as [[X [EX [s HS]]] [(i0 & j0 & Hi0 & Hj0 & N0) RG]]. rewrite IP, JP in *.
    exists C, X, s. split; [unfold polymat_evaluate_braid; rewrite EP; cbn [bind]; exact EC|]. split; [exact EX|]. split; [exact WC|]. split; [exact C1|]. split; [exact C2|]. split; [exact C3|]. split; [|split].
    + intros i j e Hi Hj. specialize (HS i j e Hi Hj). destruct (e <? s)%Z; [exact HS|]. now rewrite KC.
    + exists i0, j0. split; [exact Hi0|]. split; [exact Hj0|]. now rewrite KC.
    + intros P0 i j e Hi Hj. rewrite KC by assumption. now apply RG.
Qed.
(** otherwise: no braids - IndexError; different numbers of factors - AssertionError *)
Theorem C61_rejects {A} (tb : nat -> res (nftable A)) R : polymat_evaluate_braids_of_same_length tb R [] = Err IndexError /\
  forall b bs, (exists b', In b' bs /\ length (o_factors b') <> length (o_factors b)) -> polymat_evaluate_braids_of_same_length tb R (b :: bs) = Err AssertionError.
Proof.
  split; [reflexivity|]. intros b bs (b' & Hb & N). unfold polymat_evaluate_braids_of_same_length. cbn [get nth_error bind].
  assert (F : forallb (fun b1 => length (o_factors b1) =? length (o_factors b)) (b :: bs) = false).
  { destruct (forallb (fun b1 => length (o_factors b1) =? length (o_factors b)) (b :: bs)) eqn:E; [|reflexivity]. rewrite forallb_forall in E. specialize (E b' ltac:(now right)). apply Nat.eqb_eq in E. contradiction. }
  change (get (b :: bs) 0) with (Ok b). cbn [bind]. rewrite F. reflexivity.
Qed.
(** modulo 1 every image is zero, which projectivise rejects *)
Example C61_p1 : exists R, jones_rep 3 1 1 = Ok R /\ polymat_evaluate_braids_of_same_length (gtb hdpick) R [NFObj 3 0 [1%Z]] = Err AssertionError.
Proof. destruct (jones_rep 3 1 1) as [R|] eqn:E; [|discriminate]. exists R. split; [reflexivity|]. vm_compute in E. injection E as <-. vm_compute. reflexivity. Qed.
(** the hypotheses are met: n = 4, r = 2, p = 5, a list of two braids with two
    factors and powers -3 and 4 *)
Example C61_case : exists R a b, jones_rep 4 2 5 = Ok R /\ rep_dimension R = Ok 2%Z /\ mk (gtb hdpick) 4 (-3) [1%Z; 1%Z] = Ok a /\ mk (gtb hdpick) 4 4 [2%Z; 2%Z] = Ok b /\
  length (o_factors a) = 2 /\ length (o_factors b) = 2 /\ nf_value (gtb hdpick) 4 a /\ nf_value (gtb hdpick) 4 b /\ (2 * (13 * (4 * 4)) < 2 ^ 63)%Z /\
  exists P, polymat_evaluate_braids_of_same_length (gtb hdpick) R [a; b] = Ok P.
Proof.
  destruct (proj1 (proj1 (C58_constructor 4 2 5)) ltac:(lia)) as [R EJ]. exists R, (NFObj 4 (-3) [1; 1])%Z, (NFObj 4 4 [2; 2])%Z.
  assert (ED : rep_dimension R = Ok 2%Z) by (destruct (jones_rep_ok _ _ _ _ EJ) as (_ & _ & _ & ->); reflexivity).
  assert (M1 : mk (gtb hdpick) 4 (-3) [1%Z; 1%Z] = Ok (NFObj 4 (-3) [1; 1])%Z) by (vm_compute; reflexivity). assert (M2 : mk (gtb hdpick) 4 4 [2%Z; 2%Z] = Ok (NFObj 4 4 [2; 2])%Z) by (vm_compute; reflexivity).
  assert (HT : exists t, gtb hdpick 4 = Ok t /\ t_order t = 24). { destruct (gtb hdpick 4) as [t|] eqn:E; [|vm_compute in E; discriminate]. exists t. split; [reflexivity|]. vm_compute in E. injection E as <-. reflexivity. }
  destruct HT as [t [Et Ot]].
  assert (V1 : nf_value (gtb hdpick) 4 (NFObj 4 (-3) [1; 1])%Z) by (exists t, (-3)%Z, [1; 1]%Z; split; [exact Et|]; split; [rewrite Ot; repeat constructor; lia|exact M1]).
  assert (V2 : nf_value (gtb hdpick) 4 (NFObj 4 4 [2; 2])%Z) by (exists t, 4%Z, [2; 2]%Z; split; [exact Et|]; split; [rewrite Ot; repeat constructor; lia|exact M2]).
  do 4 (split; [assumption|]). do 2 (split; [reflexivity|]). do 2 (split; [assumption|]). split; [reflexivity|].
  assert (NE : [NFObj 4 (-3) [1; 1]; NFObj 4 4 [2; 2]]%Z <> []) by discriminate.
  assert (HV : forall b, In b [NFObj 4 (-3) [1; 1]; NFObj 4 4 [2; 2]]%Z -> nf_value (gtb hdpick) 4 b) by (intros b [<-|[<-|[]]]; assumption).
  assert (HL : forall b b', In b [NFObj 4 (-3) [1; 1]; NFObj 4 4 [2; 2]]%Z -> In b' [NFObj 4 (-3) [1; 1]; NFObj 4 4 [2; 2]]%Z -> length (o_factors b) = length (o_factors b')) by (intros b b' [<-|[<-|[]]] [<-|[<-|[]]]; reflexivity).
  assert (HB : 5%Z <> 0%Z -> (Z.of_nat 2 * (Z.of_nat (4 * (4 - 1) + 1) * ((5 - 1) * (5 - 1))) < 2 ^ 63)%Z) by (intros _; reflexivity).
  assert (P1 : 5%Z <> 1%Z) by lia. assert (H2 : 2 <= 4) by lia.
  assert (HZ : 5%Z = 0%Z -> forall b X, In b [NFObj 4 (-3) [1; 1]; NFObj 4 4 [2; 2]]%Z ->
     (forall i, i <= length (o_factors b) -> rep_evaluate_nf (gtb hdpick) R (NFObj 4 (o_pow b) (firstn i (o_factors b))) = Ok X -> int64_matrix X) /\
     (forall f, In f (o_factors b) -> rep_evaluate_nf (gtb hdpick) R (NFObj 4 0 [f]) = Ok X -> int64_matrix X)) by (intros Q; exfalso; lia).
  destruct (C61_gnf 4 2 5 R (gtb hdpick) _ 2 EJ H2 gnf_table_ex P1 ED NE HV HL HB HZ) as (P & EP & _). exists P. exact EP.
Qed.
