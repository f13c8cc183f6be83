(** PropsJS.v – C61 and C80 for the evaluation functions of braidsearch.py. *)
From Verif Require Import Base ModelPoly SpecPoly PolyTheory PropsPoly ModelMatrix SpecMatrix MatrixTheory NumTheory ModelPolymat SpecPolymat PolymatTheory PropsPolymat PropsPolymat2 PropsPolymat3.
From Coq Require Import Ring Setoid Morphisms.
From Verif Require Import ModelPerm Germ GermNF GermAct GermBraid PermTheory WeakOrder PermWords SpecBraid BraidTheory FullTwistBraid FullTwist ModelBraid ModelTL ModelTLMor ModelRep SpecRep RepTheory RepCanon PropsRep PropsTwist ModelPolyRep TableTheory NFApi PermGerm PermTable PropsGNF PropsGNF2 PolyRepTheory PolyRepSpan PropsPolyRep PropsPolyRep2 JSTheory.
Local Open Scope nat_scope.
#[local] Existing Instance neqp_equiv.
#[local] Existing Instance pmeq_equiv.

(** ** the hypotheses of JSTheory *)
Lemma js_bounds n r p R d : jones_rep n r p = Ok R -> rep_dimension R = Ok (Z.of_nat d) -> 1 <= r -> p <> 1%Z ->
  (p <> 0%Z -> (Z.of_nat d * (Z.of_nat (n * (n - 1) + 1) * ((p - 1) * (p - 1))) < 2 ^ 31)%Z) -> p <> 0%Z -> (Z.of_nat d * (9 * (p - 1)) < 2 ^ 31 /\ p < 2 ^ 31)%Z.
Proof.
  intros EJ ED Hr1 Hp1 HB P0. specialize (HB P0). destruct (jones_rep_ok n r p R EJ) as (Hn & Hr & Hp & ER). rewrite ER in ED. cbn [rep_dimension] in ED.
  assert (D1 : 0 < d). { destruct (jones_all n r p R EJ) as (d' & gens & invs & E & _ & _ & _ & Hd & ED' & _). rewrite ER in ED'. cbn [rep_dimension] in ED'. rewrite ED in ED'. injection ED' as ED'. lia. }
  assert (Ed0 : n < 4 -> d <= 2). { intros L. assert (r = 1) by lia. subst r. clear - ED Hn L Hr. assert (n = 2 \/ n = 3) as [-> | ->] by lia.
    - let v := eval vm_compute in (jones_dimension 2 1) in assert (K : jones_dimension 2 1 = v) by (vm_compute; reflexivity). rewrite K in ED. assert (Z.of_nat d = 1%Z) by congruence. lia.
    - let v := eval vm_compute in (jones_dimension 3 1) in assert (K : jones_dimension 3 1 = v) by (vm_compute; reflexivity). rewrite K in ED. assert (Z.of_nat d = 2%Z) by congruence. lia. }
  assert (HW : (3 <= Z.of_nat (n * (n - 1) + 1))%Z) by nia. set (W := Z.of_nat (n * (n - 1) + 1)) in *. set (q := (p - 1)%Z) in *. assert (Hq : (1 <= q)%Z) by lia. set (D := Z.of_nat d) in *. assert (HD : (1 <= D)%Z) by lia.
  assert (Q1 : (q <= q * q)%Z) by nia. assert (Q2 : (3 * (q * q) <= W * (q * q))%Z) by nia. assert (Q3 : (W * (q * q) <= D * (W * (q * q)))%Z) by nia.
  split; [|lia].
  destruct (Nat.le_gt_cases 4 n) as [L|L].
  - assert (HW' : (13 <= W)%Z) by (unfold W; nia). assert (9 * q <= W * (q * q))%Z by nia. assert (D * (9 * q) <= D * (W * (q * q)))%Z by nia. lia.
  - pose proof (Ed0 ltac:(lia)) as Ed.
    assert (D <= 2)%Z by lia. destruct (Z.le_gt_cases q 100000000); [nia|]. assert (9 * q <= q * q)%Z by nia. assert (D * (9 * q) <= D * (W * (q * q)))%Z by nia. lia.
Qed.
Lemma lift_sw n x : lift (PG n) (pwd n) x = sw (val n x).
Proof. destruct (plift n x) as [u [Eu [_ E]]]. unfold sw. now rewrite Eu. Qed.
Lemma liftl_fsw n l : liftl (PG n) (lift (PG n) (pwd n)) l = fsw (map (val n) l).
Proof. induction l as [|x l IH]; [reflexivity|]. cbn [liftl flat_map map fsw]. rewrite lift_sw. f_equal. exact IH. Qed.

Section G.
Variables (n r : nat) (p : Z) (R : rep) (d : nat) (tb : nat -> res (nftable (list nat))).
Hypothesis (EJ : jones_rep n r p = Ok R) (ED : rep_dimension R = Ok (Z.of_nat d)) (Hp1 : p <> 1%Z) (n2 : 2 <= n) (Ht : gnf_table n tb).
(** the value of a braid, given by its code *)
Lemma value_of s gens invs E : rep_artin_gens_invs R = Ok (gens, invs) -> rep_id R = Ok E ->
  exists X, rep_evaluate_nf tb R (enc (PG n) n (idx n) s) = Ok X /\ sq d X /\ pmeq p X (M gens invs E (wpow (sw (longest_element n)) (fst s) ++ fsw (map (val n) (snd s)))).
Proof using EJ ED Hp1 n2 Ht.
  intros EG EI. destruct (artin_word_any (ptab n) (PG n) (prn n) (peqd n) n (pwd n) (PermGerm.atom n) (idx n) (val n) (ptab_ok n n2) tb (gnf_table_ptab n tb Ht) s) as [w [E1 [E2 [E3 E4]]]].
  destruct (value_ok n r p R d gens invs E EJ ED EG EI Hp1 w (Logic.conj E3 E4)) as (X & EX & SX & PX & _). exists X. unfold rep_evaluate_nf. rewrite E1. cbn [bind]. split; [exact EX|]. split; [exact SX|]. rewrite E2 in PX.
  unfold word_of in PX. rewrite liftl_fsw, lift_sw in PX. change (val n (D (PG n))) with (val n (pD n)) in PX. rewrite val_D in PX. exact PX.
Qed.
Lemma delta_pow m v : in_range n v -> braid_eq n (wpow (sw (longest_element n)) m ++ v) (wpow (FTw n) (m / 2) ++ ((if (m mod 2 =? 0)%Z then [] else sw (longest_element n)) ++ v)).
Proof using n2.
  intros Rv. destruct (sw_ok n (longest_element n) (isperm_longest n)) as (u & Eu & Ru & Es & _ & Rw & _). set (dl := sw (longest_element n)) in *. rewrite app_assoc. apply be_app; [|reflexivity].
  assert (EF : braid_eq n (wpow dl 2) (FTw n)). { change (wpow dl 2) with (dl ++ dl ++ []). rewrite app_nil_r, Es. now apply delta_sq_range. }
  rewrite <- (wpow_mor n _ _ (m / 2) EF), (wpow_nest n dl 2 (m / 2) Rw).
  assert (E1 : braid_eq n (if (m mod 2 =? 0)%Z then [] else dl) (wpow dl (m mod 2))). { pose proof (Z.mod_pos_bound m 2 ltac:(lia)). assert (m mod 2 = 0 \/ m mod 2 = 1)%Z as [-> | ->] by lia; [reflexivity|]. cbn [Z.eqb]. now rewrite wpow_1. }
  rewrite E1, <- wpow_add by exact Rw. rewrite <- Z.div_mod by lia. reflexivity.
Qed.
(** for p = 0, removing the full twists does not change the coefficients *)
Lemma untwist gens invs E k u X : rep_artin_gens_invs R = Ok (gens, invs) -> rep_id R = Ok E -> p = 0%Z -> sq d X -> pmeq p X (M gens invs E (wpow (FTw n) k ++ u)) -> fits64 X ->
  forall i j e, i < d -> j < d -> in_dtype I64 (numcoef (mentry (M gens invs E u) i j) e).
Proof using EJ ED Hp1.
  clear Ht n2. intros EG EI P0 SX PX FX a b e La Lb. destruct (Mfacts n r p R d gens invs E EJ ED EG EI) as (_ & _ & _ & _ & _ & SM & _).
  pose proof (twist_pow n r p R d gens invs E EJ ED EG EI k u a b La Lb) as Q. apply (meq_ent (NI 0) (neqp p)) in PX; [|apply SX|apply SM]. destruct PX as (_ & _ & PX). pose proof SX as (_ & R1 & C1). specialize (PX a b ltac:(lia) ltac:(lia)). rewrite Q in PX. apply neqp_congr in PX. rewrite P0 in PX. set (c' := (k * Z.of_nat (2 * r * (n - r + 1)))%Z) in *. specialize (PX (c' + e)%Z). apply Z.divide_0_l in PX.
  specialize (FX a b (c' + e)%Z). change (ent (NI 0) X a b) with (mentry X a b) in PX. replace (numcoef (mentry X a b) (c' + e)) with (numcoef (mentry (M gens invs E u) a b) e) in FX; [exact FX|].
  rewrite (numcoef_coerce (nmul _ _)) in PX. pose proof (coerce_mul (NL (vpow c')) (ent (NI 0) (M gens invs E u) a b)) as CM. rewrite (CM (c' + e)%Z) in PX. cbn [coerce] in PX. rewrite vpow_coef in PX. replace (c' + e - c')%Z with e in PX by ring. rewrite <- numcoef_coerce in PX. change (ent (NI 0) (M gens invs E u) a b) with (mentry (M gens invs E u) a b) in PX. lia.
Qed.
End G.

(** C61, for braidsearch.py.  evaluate_prefixes_of_same_length of a non-empty list
    of GNF braids with the same number l of factors is a list of l + 1 arrays; the
    q-th has one matrix per braid: evaluate of Delta^inf times its first q factors,
    divided by a power of v, modulo p, and projectivised, with coefficients
    in [0, p).  For p >= 2 the arithmetic is that of int32, and it is enough that
    dim (n(n-1)+1) (p-1)^2 < 2^31; for p = 0 it is that of int64, and it is
    enough that the coefficients of evaluate() of the prefixes of the braids fit
    (and n <= 9, so that those of the permutation braids do; PermTable only allows
    n <= 6).  In particular the assertion in symmetric_table, that rho(Delta)^2
    is projectively the identity, never fails on this domain. *)
Theorem C61_summand_prefixes n r p S R tb bs d len : jones_summand n r p = Ok S -> jones_rep n r p = Ok R -> 1 <= r -> gnf_table n tb -> p <> 1%Z -> rep_dimension R = Ok (Z.of_nat d) ->
  bs <> [] -> (forall b, In b bs -> nf_value tb n b /\ length (o_factors b) = len) ->
  (p <> 0%Z -> (Z.of_nat d * (Z.of_nat (n * (n - 1) + 1) * ((p - 1) * (p - 1))) < 2 ^ 31)%Z) ->
  (p = 0%Z -> n <= 9 /\ forall b q X, In b bs -> q <= len -> rep_evaluate_nf tb R (NFObj n (o_pow b) (firstn q (o_factors b))) = Ok X -> int64_matrix X) ->
  exists L, js_evaluate_prefixes tb S bs = Ok L /\ length L = len + 1 /\
    forall q P, nth_error L q = Some P -> wfa P /\ apre P = [length bs] /\ aI P = d /\ aJ P = d /\ adt P = (if (0 <? p)%Z then I32 else I64) /\
      forall k b, nth_error bs k = Some b ->
        (exists X, rep_evaluate_nf tb R (NFObj n (o_pow b) (firstn q (o_factors b))) = Ok X /\ is_image p d X P k) /\
        (exists i j, i < d /\ j < d /\ acoef P [k] i j 0 <> 0%Z) /\ (p <> 0%Z -> forall i j e, i < d -> j < d -> (0 <= acoef P [k] i j e < p)%Z).
Proof.
  intros ES EJ Hr1 Ht Hp1 ED NE HV HB HZ.
  destruct (jones_all n r p R EJ) as (d' & gens & invs & E & EN & EP & Hp & Hd & ED' & EG & EI & HE & _). rewrite ED in ED'. injection ED' as ED'. apply Nat2Z.inj in ED'. subst d'.
  destruct (jones_rep_ok n r p R EJ) as (Hn & Hr & _ & ER). assert (n2 : 2 <= n) by lia.
  destruct (Mfacts n r p R d gens invs E EJ ED EG EI) as (_ & _ & _ & _ & _ & SM & BM & _).
  assert (ES' : S = mkJS n r p). { unfold jones_summand in ES. destruct (assert_ (1 <=? n)); [|discriminate]. cbn [bind] in ES. destruct (assert_ (2 * r <=? n)); [|discriminate]. cbn [bind] in ES. destruct (assert_ (0 <=? p)%Z); [|discriminate]. cbn [bind] in ES. congruence. } subst S.
  pose proof (gnf_table_ptab n tb Ht) as Etb.
  set (xs := fun b => match canonical_factors tb b with Ok l => l | Err _ => [] end).
  assert (HE' : forall b, In b bs -> exists m l, b = enc (PG n) n (idx n) (m, l) /\ canonical_factors tb b = Ok (map (val n) l) /\ length l = len /\ o_factors b = map (idx n) l /\ o_pow b = m).
  { intros b Hb. destruct (HV b Hb) as [V L]. destruct (val_enc n tb n2 Ht b V) as [[m l] [_ Eb]]. exists m, l. split; [exact Eb|]. split; [|rewrite Eb in *; cbn [TableTheory.enc o_factors o_pow fst snd] in *; rewrite map_length in L; auto].
    rewrite Eb. unfold canonical_factors. cbn [o_n TableTheory.enc]. rewrite Etb. cbn [bind o_factors snd]. apply divs_perms. exact n2. }
  destruct bs as [|b0 bs0] eqn:EB; [contradiction|]. rewrite <- EB in *.
  destruct (prefixes_ok n r p R d gens invs E EJ ED EG EI Hp1 Hr1 (js_bounds n r p R d EJ ED Hr1 Hp1 HB) HB ltac:(intros P0; now apply HZ) tb bs b0 xs len) as (L & EL & LL & KL).
  - exact NE.
  - intros b Hb. destruct (HE' b Hb) as (m & l & Eb & EC & Ll & EF & _). unfold xs. rewrite EC. split; [reflexivity|]. rewrite EF, !map_length. do 2 (split; [exact Ll|]). apply Forall_forall. intros x Hx. apply in_map_iff in Hx. destruct Hx as [y [<- _]]. apply val_P.
  - intros P0 b q i j e Hb Hq Hi Hj. destruct (HE' b Hb) as (m & l & Eb & EC & Ll & EF & Em). unfold xs. rewrite EC. rewrite firstn_map.
    destruct (value_of n r p R d tb EJ ED Hp1 n2 Ht (m, firstn q l) gens invs E EG EI) as (X & EX & SX & PX). cbn [fst snd] in PX.
    assert (FX : int64_matrix X). { apply (proj2 (HZ P0) b q X Hb Hq). rewrite EF, Em, firstn_map. exact EX. }
    assert (RF : in_range n (fsw (map (val n) (firstn q l)))) by (apply fsw_range; apply Forall_forall; intros x Hx; apply in_map_iff in Hx; destruct Hx as [y [<- _]]; apply val_P).
    assert (PX2 : pmeq p X (M gens invs E (wpow (FTw n) (m / 2) ++ (startw n b ++ fsw (map (val n) (firstn q l)))))) by (etransitivity; [exact PX|]; apply BM; unfold startw; rewrite Em; apply delta_pow; [exact n2|exact RF]).
    apply (untwist n r p R d EJ ED Hp1 gens invs E (m / 2) _ X EG EI P0 SX PX2); [|exact Hi|exact Hj]. intros a b' e'. specialize (FX a b' e'). unfold in_dtype. cbn [dbits]. exact FX.
  - exists L. split; [exact EL|]. split; [exact LL|]. intros q P Hq. assert (Lq : q <= len) by (assert (q < length L) by (apply nth_error_Some; congruence); lia). destruct (KL q Lq) as (P' & EP' & (W1 & W2 & W3 & W4 & W5 & KP) & PP). assert (P' = P) by congruence. subst P'.
    split; [exact W1|]. do 3 (split; [assumption|]). split; [exact W5|]. intros k b Hk. assert (Lk : k < length bs) by (apply nth_error_Some; congruence). assert (V : valid_index [length bs] [k]) by (constructor; [exact Lk|constructor]). assert (Hb : In b bs) by now apply nth_error_In in Hk.
    destruct (PP [k] V) as [[(i0 & j0 & Hi0 & Hj0 & N0) _] RG]. split; [|split; [exists i0, j0; auto|intros P0 i j e Hi Hj; now apply RG]].
    specialize (KP [k] V). cbn [hd] in KP. rewrite (nth_error_nth _ _ b0 Hk) in KP. destruct (HE' b Hb) as (m & l & Eb & EC & Ll & EF & Em). unfold xs in KP. rewrite EC, firstn_map in KP.
    destruct (value_of n r p R d tb EJ ED Hp1 n2 Ht (m, firstn q l) gens invs E EG EI) as (X & EX & SX & PX). cbn [fst snd] in PX. exists X. split; [rewrite EF, Em, firstn_map; exact EX|].
    assert (RF : in_range n (fsw (map (val n) (firstn q l)))) by (apply fsw_range; apply Forall_forall; intros x Hx; apply in_map_iff in Hx; destruct Hx as [y [<- _]]; apply val_P).
    assert (PX2 : pmeq p X (M gens invs E (wpow (FTw n) (m / 2) ++ (startw n b ++ fsw (map (val n) (firstn q l)))))) by (etransitivity; [exact PX|]; apply BM; unfold startw; rewrite Em; apply delta_pow; [exact n2|exact RF]).
    change (agrees p d X P [k]). apply (agrees_twist n r p R d gens invs E EJ ED EG EI (m / 2)) in KP. eapply agrees_pmeq; [apply SM|exact SX|symmetry; exact PX2|exact KP].
Qed.
(** the last prefix is the braid *)
Theorem C61_summand n r p S R tb bs d len : jones_summand n r p = Ok S -> jones_rep n r p = Ok R -> 1 <= r -> gnf_table n tb -> p <> 1%Z -> rep_dimension R = Ok (Z.of_nat d) ->
  bs <> [] -> (forall b, In b bs -> nf_value tb n b /\ length (o_factors b) = len) ->
  (p <> 0%Z -> (Z.of_nat d * (Z.of_nat (n * (n - 1) + 1) * ((p - 1) * (p - 1))) < 2 ^ 31)%Z) ->
  (p = 0%Z -> n <= 9 /\ forall b q X, In b bs -> q <= len -> rep_evaluate_nf tb R (NFObj n (o_pow b) (firstn q (o_factors b))) = Ok X -> int64_matrix X) ->
  exists P, js_evaluate_same_length tb S bs = Ok P /\ wfa P /\ apre P = [length bs] /\ aI P = d /\ aJ P = d /\ adt P = (if (0 <? p)%Z then I32 else I64) /\
    forall k b, nth_error bs k = Some b ->
      (exists X, rep_evaluate_nf tb R b = Ok X /\ is_image p d X P k) /\
      (exists i j, i < d /\ j < d /\ acoef P [k] i j 0 <> 0%Z) /\ (p <> 0%Z -> forall i j e, i < d -> j < d -> (0 <= acoef P [k] i j e < p)%Z).
Proof.
  intros ES EJ Hr1 Ht Hp1 ED NE HV HB HZ. destruct (C61_summand_prefixes n r p S R tb bs d len ES EJ Hr1 Ht Hp1 ED NE HV HB HZ) as (L & EL & LL & KL).
  assert (exists P, nth_error L len = Some P) as [P EP] by (destruct (nth_error L len) eqn:Q; [eauto|apply nth_error_None in Q; lia]).
  exists P. split.
  - unfold js_evaluate_same_length. rewrite EL. cbn [bind]. assert (L <> []) as NL by (intros ->; cbn in LL; lia). destruct (exists_last NL) as (L' & x & ->). rewrite rev_app_distr. cbn [rev app]. rewrite app_length in LL. cbn [length] in LL. rewrite nth_error_app2 in EP by lia. replace (len - length L') with 0 in EP by lia. cbn in EP. congruence.
  - destruct (KL len P EP) as (W1 & W2 & W3 & W4 & W5 & K). do 5 (split; [assumption|]). intros k b Hk. destruct (K k b Hk) as (KX & KN & KR). split; [|now split]. destruct KX as [X [EX IX]]. exists X. split; [|exact IX].
    assert (Hb : In b bs) by now apply nth_error_In in Hk. destruct (HV b Hb) as [V Lb]. rewrite <- Lb, firstn_all in EX. assert (NFObj n (o_pow b) (o_factors b) = b) as EB; [|now rewrite EB in EX].
    destruct (jones_rep_ok n r p R EJ) as (Hn & Hr & _). destruct (val_enc n tb ltac:(lia) Ht b V) as [[m l] [_ Eb]]. rewrite Eb. reflexivity.
Qed.
(** evaluate_braid_factors: one braid, without the batch axis *)
Theorem C61_summand_one n r p S R tb b d : jones_summand n r p = Ok S -> jones_rep n r p = Ok R -> 1 <= r -> gnf_table n tb -> p <> 1%Z -> rep_dimension R = Ok (Z.of_nat d) -> nf_value tb n b ->
  (p <> 0%Z -> (Z.of_nat d * (Z.of_nat (n * (n - 1) + 1) * ((p - 1) * (p - 1))) < 2 ^ 31)%Z) ->
  (p = 0%Z -> n <= 9 /\ forall q X, q <= length (o_factors b) -> rep_evaluate_nf tb R (NFObj n (o_pow b) (firstn q (o_factors b))) = Ok X -> int64_matrix X) ->
  exists A X s, js_evaluate_braid_factors tb S b = Ok A /\ rep_evaluate_nf tb R b = Ok X /\ wfa A /\ apre A = [] /\ aI A = d /\ aJ A = d /\
    (forall i j e, i < d -> j < d -> (p | numcoef (mentry X i j) e - (if e <? s then 0 else acoef A [] i j (Z.to_nat (e - s))))%Z) /\
    (exists i j, i < d /\ j < d /\ acoef A [] i j 0 <> 0%Z) /\ (p <> 0%Z -> forall i j e, i < d -> j < d -> (0 <= acoef A [] i j e < p)%Z).
Proof.
  intros ES EJ Hr1 Ht Hp1 ED V HB HZ.
  destruct (jones_all n r p R EJ) as (d' & gens & invs & E & EN & EP & Hp & Hd & ED' & EG & EI & HE & _). rewrite ED in ED'. injection ED' as ED'. apply Nat2Z.inj in ED'. subst d'.
  destruct (jones_rep_ok n r p R EJ) as (Hn & Hr & _ & ER). assert (n2 : 2 <= n) by lia.
  destruct (Mfacts n r p R d gens invs E EJ ED EG EI) as (_ & _ & _ & _ & _ & SM & BM & _).
  assert (ES' : S = mkJS n r p). { unfold jones_summand in ES. destruct (assert_ (1 <=? n)); [|discriminate]. cbn [bind] in ES. destruct (assert_ (2 * r <=? n)); [|discriminate]. cbn [bind] in ES. destruct (assert_ (0 <=? p)%Z); [|discriminate]. cbn [bind] in ES. congruence. } subst S.
  pose proof (gnf_table_ptab n tb Ht) as Etb. destruct (val_enc n tb n2 Ht b V) as [[m l] [_ Eb]].
  assert (EC : canonical_factors tb b = Ok (map (val n) l)). { rewrite Eb. unfold canonical_factors. cbn [o_n TableTheory.enc]. rewrite Etb. cbn [bind o_factors snd]. apply divs_perms. exact n2. }
  assert (RF : forall l', in_range n (fsw (map (val n) l'))) by (intros l'; apply fsw_range; apply Forall_forall; intros x Hx; apply in_map_iff in Hx; destruct Hx as [y [<- _]]; apply val_P).
  assert (Em : o_pow b = m /\ o_factors b = map (idx n) l) by (rewrite Eb; auto). destruct Em as [Em EF].
  assert (PX2 : forall l' X, pmeq p X (M gens invs E (wpow (sw (longest_element n)) m ++ fsw (map (val n) l'))) -> pmeq p X (M gens invs E (wpow (FTw n) (m / 2) ++ (startw n b ++ fsw (map (val n) l'))))).
  { intros l' X PX. etransitivity; [exact PX|]. apply BM. unfold startw. rewrite Em. apply delta_pow; [exact n2|apply RF]. }
  destruct (factors_ok n r p R d gens invs E EJ ED EG EI Hp1 Hr1 (js_bounds n r p R d EJ ED Hr1 Hp1 HB) HB ltac:(intros P0; now apply HZ) tb b (map (val n) l) EC) as (A & EA & (W1 & W2 & W3 & W4 & W5 & KA) & PA).
  - apply Forall_forall. intros x Hx. apply in_map_iff in Hx. destruct Hx as [y [<- _]]. apply val_P.
  - intros P0 q i j e Hq Hi Hj. rewrite map_length in Hq. rewrite firstn_map. destruct (value_of n r p R d tb EJ ED Hp1 n2 Ht (m, firstn q l) gens invs E EG EI) as (X & EX & SX & PX). cbn [fst snd] in PX.
    assert (FX : int64_matrix X). { apply (proj2 (HZ P0) q X); [rewrite EF, map_length; exact Hq|]. rewrite EF, Em, firstn_map. exact EX. }
    apply (untwist n r p R d EJ ED Hp1 gens invs E (m / 2) _ X EG EI P0 SX (PX2 _ _ PX)); [|exact Hi|exact Hj]. intros a b' e'. specialize (FX a b' e'). unfold in_dtype. cbn [dbits]. exact FX.
  - destruct (value_of n r p R d tb EJ ED Hp1 n2 Ht (m, l) gens invs E EG EI) as (X & EX & SX & PX). cbn [fst snd] in PX.
    assert (V0 : valid_index [] []) by constructor. specialize (KA [] V0). destruct (PA [] V0) as [[(i0 & j0 & Hi0 & Hj0 & N0) _] RG].
    apply (agrees_twist n r p R d gens invs E EJ ED EG EI (m / 2)) in KA. apply (agrees_pmeq p d _ X) in KA; [|apply SM|exact SX|symmetry; now apply PX2]. destruct KA as [s KA].
    exists A, X, s. split; [exact EA|]. split; [rewrite Eb; exact EX|]. do 4 (split; [assumption|]). split; [exact KA|]. split; [exists i0, j0; auto|]. intros P0 i j e Hi Hj. now apply RG.
Qed.

(** ** C80 *)
Definition look (l : nat) (g : list (nat * list nat)) : list nat := match find (fun kv => fst kv =? l) g with Some kv => snd kv | None => [] end.
Lemma group_add_ok l i g : NoDup (map fst g) -> forall loc g', group_add l i g = (loc, g') ->
  loc = length (look l g) /\ (forall k, look k g' = if k =? l then look l g ++ [i] else look k g) /\ (forall k, In k (map fst g') <-> k = l \/ In k (map fst g)) /\ NoDup (map fst g').
Proof.
  induction g as [|[k0 is] g IH]; intros ND loc g'; cbn [group_add].
  - intros [= <- <-]. split; [reflexivity|]. split; [|split; [|repeat constructor; intros []]].
    + intros k. unfold look. cbn [find fst snd]. destruct (Nat.eqb_spec l k) as [->|N]; [now rewrite Nat.eqb_refl|]. destruct (Nat.eqb_spec k l); [congruence|reflexivity].
    + intros k. cbn. intuition.
  - cbn [map fst] in ND. inversion ND as [|x0 l0 N1 N2]; subst x0 l0. destruct (Nat.eqb_spec k0 l) as [->|NE].
    + intros [= <- <-]. unfold look. cbn [find fst snd]. rewrite Nat.eqb_refl. split; [reflexivity|]. split; [|split; [|exact ND]].
      * intros k. destruct (Nat.eqb_spec l k) as [->|N]; [now rewrite Nat.eqb_refl|]. destruct (Nat.eqb_spec k l); [congruence|reflexivity].
      * intros k. cbn [map fst In]. intuition.
    + destruct (group_add l i g) as [loc2 g2] eqn:EG. intros [= <- <-]. destruct (IH N2 loc2 g2 eq_refl) as (A1 & A2 & A3 & A4). unfold look in *. cbn [find fst snd]. destruct (Nat.eqb_spec k0 l); [contradiction|]. split; [exact A1|]. split; [|split].
      * intros k. destruct (Nat.eqb_spec k0 k) as [->|N]; [destruct (Nat.eqb_spec k l); [contradiction|reflexivity]|apply A2].
      * intros k. cbn [map fst In]. rewrite A3. intuition.
      * cbn [map fst]. constructor; [|exact A4]. rewrite A3. intros [->|H]; contradiction.
Qed.
Lemma look_in l is g : NoDup (map fst g) -> In (l, is) g -> look l g = is.
Proof.
  induction g as [|[k0 i0] g IH]; intros ND; [intros []|]. cbn [map fst] in ND. inversion ND as [|x0 l0 N1 N2]; subst x0 l0. unfold look in *. cbn [find fst snd]. intros [H|H]; [injection H as -> ->|].
  - now rewrite Nat.eqb_refl.
  - destruct (Nat.eqb_spec k0 l) as [->|]; [|now apply IH]. exfalso. apply N1. change l with (fst (l, is)). now apply in_map.
Qed.
Section Groups.
Variable fl : nat -> nat.
Definition rk l k := filter (fun i => fl i =? l) (seq 0 k).
Definition ginv (k : nat) (g : list (nat * list nat)) (locs : list (nat * nat)) : Prop :=
  NoDup (map fst g) /\ (forall l, look l g = rk l k) /\ (forall l, In l (map fst g) <-> exists i, i < k /\ fl i = l) /\
  length locs = k /\ (forall i, i < k -> nth_error locs i = Some (fl i, length (rk (fl i) i))).
Lemma groups_inv bs : forall k g locs, ginv k g locs -> (forall i b, nth_error bs i = Some b -> fl (k + i) = length (o_factors b)) ->
  let '(g', locs') := fold_left (fun '(g, locs) '(i, b) => let l := length (o_factors b) in let '(loc, g') := group_add l i g in (g', locs ++ [(l, loc)])) (combine (seq k (length bs)) bs) (g, locs) in ginv (k + length bs) g' locs'.
Proof.
  induction bs as [|b bs IH]; intros k g locs (G1 & G2 & G3 & G4 & G5) HF; cbn [length seq combine fold_left].
  - rewrite Nat.add_0_r. now split.
  - destruct (group_add (length (o_factors b)) k g) as [loc g'] eqn:EG. destruct (group_add_ok _ _ _ G1 _ _ EG) as (A1 & A2 & A3 & A4).
    pose proof (HF 0 b eq_refl) as Fk. rewrite Nat.add_0_r in Fk. rewrite <- Fk in *.
    replace (k + Datatypes.S (length bs)) with (Datatypes.S k + length bs) by lia. apply IH; [|intros i b' Hi; replace (Datatypes.S k + i) with (k + Datatypes.S i) by lia; now apply HF].
    split; [exact A4|]. split; [|split; [|split]].
    + intros l. rewrite A2, !G2. unfold rk. rewrite seq_S, filter_app. cbn [Nat.add filter]. destruct (Nat.eqb_spec l (fl k)) as [->|N]; [now rewrite Nat.eqb_refl|]. destruct (Nat.eqb_spec (fl k) l) as [E|]; [congruence|]. now rewrite app_nil_r.
    + intros l. rewrite A3, G3. split; [intros [->|[i [Hi Ei]]]; [exists k|exists i]; split; auto; lia|]. intros [i [Hi Ei]]. destruct (Nat.eq_dec i k) as [->|]; [now left|]. right. exists i. split; [lia|exact Ei].
    + rewrite app_length. cbn. lia.
    + intros i Hi. destruct (Nat.eq_dec i k) as [->|N]; [rewrite nth_error_app2, G4, Nat.sub_diag by lia; cbn [nth_error]; rewrite A1, G2; reflexivity|rewrite nth_error_app1 by lia; apply G5; lia].
Qed.
Lemma rank_nth k i : i < k -> nth_error (rk (fl i) k) (length (rk (fl i) i)) = Some i.
Proof.
  intros Hi. unfold rk. replace k with (i + Datatypes.S (k - i - 1)) at 1 by lia. rewrite seq_app, filter_app, nth_error_app2, Nat.sub_diag by lia. cbn [Nat.add seq filter]. now rewrite Nat.eqb_refl.
Qed.
End Groups.

(** C80.  evaluate_braids of any list of GNF braids, of any lengths and in any
    order, returns one matrix per braid, the i-th one being the image of the i-th
    braid: evaluate(b) divided by a power of v, modulo p, projectivised. *)
Theorem C80_order n r p S R tb bs d : jones_summand n r p = Ok S -> jones_rep n r p = Ok R -> 1 <= r -> gnf_table n tb -> p <> 1%Z -> rep_dimension R = Ok (Z.of_nat d) ->
  (forall b, In b bs -> nf_value tb n b) ->
  (p <> 0%Z -> (Z.of_nat d * (Z.of_nat (n * (n - 1) + 1) * ((p - 1) * (p - 1))) < 2 ^ 31)%Z) ->
  (p = 0%Z -> n <= 9 /\ forall b q X, In b bs -> q <= length (o_factors b) -> rep_evaluate_nf tb R (NFObj n (o_pow b) (firstn q (o_factors b))) = Ok X -> int64_matrix X) ->
  exists L, js_evaluate_braids tb S bs = Ok L /\ length L = length bs /\
    forall i b C, nth_error bs i = Some b -> nth_error L i = Some C ->
      wfa C /\ apre C = [] /\ aI C = d /\ aJ C = d /\ adt C = (if (0 <? p)%Z then I32 else I64) /\
      exists X s, rep_evaluate_nf tb R b = Ok X /\
        (forall a c e, a < d -> c < d -> (p | numcoef (mentry X a c) e - (if e <? s then 0 else acoef C [] a c (Z.to_nat (e - s))))%Z) /\
        (exists a c, a < d /\ c < d /\ acoef C [] a c 0 <> 0%Z) /\ (p <> 0%Z -> forall a c e, a < d -> c < d -> (0 <= acoef C [] a c e < p)%Z).
Proof.
  intros ES EJ Hr1 Ht Hp1 ED HV HB HZ. set (bd := NFObj 0 0 []). set (fl := fun i => length (o_factors (nth i bs bd))).
  unfold js_evaluate_braids.
  pose proof (groups_inv fl bs 0 [] []) as GI. destruct (fold_left _ _ _) as [g locs] in GI |- *.
  assert (I0 : ginv fl 0 [] []). { split; [constructor|]. split; [reflexivity|]. split; [|split; [reflexivity|intros; lia]]. intros l. cbn. split; [intros []|intros [i [Hi _]]; lia]. }
  specialize (GI I0). cbn [Nat.add] in GI. assert (HF : forall i b, nth_error bs i = Some b -> fl i = length (o_factors b)) by (intros i b Hi; unfold fl; now rewrite (nth_error_nth _ _ _ Hi)). specialize (GI HF). destruct GI as (G1 & G2 & G3 & G4 & G5).
  set (good := fun (l : nat) (is : list nat) (a : parr) => wfa a /\ apre a = [length is] /\ aI a = d /\ aJ a = d /\ adt a = (if (0 <? p)%Z then I32 else I64) /\
    forall k i b, nth_error is k = Some i -> nth_error bs i = Some b ->
      (exists X, rep_evaluate_nf tb R b = Ok X /\ is_image p d X a k) /\
      (exists i j, i < d /\ j < d /\ acoef a [k] i j 0 <> 0%Z) /\ (p <> 0%Z -> forall i j e, i < d -> j < d -> (0 <= acoef a [k] i j e < p)%Z)).
  match goal with |- context [mapM ?f g] => destruct (PropsTLMor2.mapM_Forall2 f (fun x y => fst y = fst x /\ good (fst x) (snd x) (snd y)) g) as [by_len [EB FB]] end.
  { intros [l is] Hin. pose proof (look_in l is g G1 Hin) as EL. rewrite G2 in EL. cbn [fst snd].
    assert (HI : forall i, In i is <-> i < length bs /\ fl i = l). { intros i. rewrite <- EL; unfold rk; rewrite filter_In, in_seq, Nat.eqb_eq. lia. }
    assert (EM : mapM (get bs) is = Ok (map (fun i => nth i bs bd) is)) by (apply mapM_ok; intros i Hi; apply get_ok; now apply HI). rewrite EM. cbn [bind].
    assert (HS : forall b, In b (map (fun i => nth i bs bd) is) -> In b bs /\ length (o_factors b) = l). { intros b Hb. apply in_map_iff in Hb. destruct Hb as [i [<- Hi]]. apply HI in Hi. split; [apply nth_In; tauto|apply Hi]. }
    destruct (C61_summand n r p S R tb (map (fun i => nth i bs bd) is) d l ES EJ Hr1 Ht Hp1 ED) as (P & EP & W1 & W2 & W3 & W4 & W5 & KP).
    - assert (KG : In l (map fst g)) by (change l with (fst (l, is)); now apply in_map). apply G3 in KG. destruct KG as [i [Hi Ei]]. assert (In i is) as Hx by (apply HI; auto). intros EN. apply map_eq_nil in EN. subst is. rewrite EN in Hx. destruct Hx.
    - intros b Hb. destruct (HS b Hb). split; [now apply HV|assumption].
    - exact HB.
    - intros P0. destruct (HZ P0) as [N9 HZ']. split; [exact N9|]. intros b q X Hb Hq. destruct (HS b Hb) as [Hb' Lb]. apply HZ'; [exact Hb'|lia].
    - exists (l, P). rewrite EP. split; [reflexivity|]. cbn [fst snd]. split; [reflexivity|]. unfold good. rewrite map_length in W2. do 5 (split; [assumption|]). intros k i b Hk Hi. apply KP. rewrite nth_error_map, Hk. cbn. f_equal. now apply nth_error_nth. }
  rewrite EB. cbn [bind].
  assert (FL : forall l, In l (map fst g) -> exists a, find (fun kv => fst kv =? l) by_len = Some (l, a) /\ good l (look l g) a).
  { clear - FB. induction FB as [|[k is] [k' a] g' b' [E1 E2] F IH]; cbn [map fst snd] in *; intros l; [intros []|]. subst k'. intros Hl. unfold look. cbn [find fst snd]. destruct (Nat.eqb_spec k l) as [->|N].
    - exists a. auto.
    - apply IH. destruct Hl; [contradiction|assumption]. }
  match goal with |- context [mapM ?f locs] => set (F := f) end.
  assert (KF : forall i, i < length bs -> exists C, F (nth i locs (0, 0)) = Ok C /\ forall b, nth_error bs i = Some b ->
    wfa C /\ apre C = [] /\ aI C = d /\ aJ C = d /\ adt C = (if (0 <? p)%Z then I32 else I64) /\
      exists X s, rep_evaluate_nf tb R b = Ok X /\
        (forall a c e, a < d -> c < d -> (p | numcoef (mentry X a c) e - (if e <? s then 0 else acoef C [] a c (Z.to_nat (e - s))))%Z) /\
        (exists a c, a < d /\ c < d /\ acoef C [] a c 0 <> 0%Z) /\ (p <> 0%Z -> forall a c e, a < d -> c < d -> (0 <= acoef C [] a c e < p)%Z)).
  { intros i Hi. rewrite (nth_error_nth _ _ _ (G5 i Hi)). cbn [F]. unfold F. destruct (FL (fl i)) as (a & EA & (W1 & W2 & W3 & W4 & W5 & KA)); [apply G3; exists i; auto|]. rewrite EA. cbn [snd].
    pose proof (rank_nth fl (length bs) i Hi) as RN. rewrite <- G2 in RN. set (loc := length (rk fl (fl i) i)) in *.
    destruct (item_ok a (length (look (fl i) g)) loc W1 W2) as (C & EC & WC & C1 & C2 & C3 & C4 & C5 & KC); [apply nth_error_Some; congruence|]. exists C. split; [exact EC|]. intros b Hb.
    destruct (KA loc i b RN Hb) as ([X [EX [s IX]]] & (i0 & j0 & Hi0 & Hj0 & N0) & RG). rewrite W3, W4 in *. split; [exact WC|]. split; [exact C1|]. split; [exact C2|]. split; [exact C3|]. split; [now rewrite C5|].
    exists X, s. split; [exact EX|]. split; [|split].
    - intros x y e Hx Hy. rewrite KC by assumption. now apply IX.
    - exists i0, j0. rewrite KC by assumption. auto.
    - intros P0 x y e Hx Hy. rewrite KC by assumption. now apply RG. }
  destruct (PropsTLMor2.mapM_Forall2 F (fun x y => F x = Ok y) locs) as [L [EL FLL]].
  { intros x Hx. destruct (In_nth _ _ (0, 0) Hx) as [i [Hi <-]]. destruct (KF i ltac:(lia)) as [C [EC _]]. exists C. auto. }
  exists L. split; [exact EL|]. pose proof (PropsTLMor2.Forall2_len _ _ _ FLL) as LLn. split; [lia|]. intros i b C Hb HC. assert (Hi : i < length bs) by (apply nth_error_Some; congruence). destruct (KF i Hi) as [C' [EC' KC']]. assert (C' = C).
  { destruct (PropsTLMor2.Forall2_nth_error _ _ _ FLL i _ (G5 i Hi)) as [y [Q1 Q2]]. rewrite (nth_error_nth _ _ _ (G5 i Hi)) in EC'. congruence. }
  subst C'. now apply KC'.
Qed.

(** evaluate_braids of no braids is the empty list; evaluating an empty list of
    braids of the same length, or braids of different lengths, is rejected *)
Theorem C80_empty tb S : js_evaluate_braids tb S [] = Ok [].
Proof. reflexivity. Qed.
Theorem C61_summand_rejects tb S : js_evaluate_same_length tb S [] = Err IndexError /\
  forall bs b c, In b bs -> In c bs -> length (o_factors b) <> length (o_factors c) -> js_evaluate_same_length tb S bs = Err AssertionError.
Proof.
  split; [reflexivity|]. intros bs b c Hb Hc N. destruct bs as [|b0 bs]; [destruct Hb|]. unfold js_evaluate_same_length, js_evaluate_prefixes. change (get (b0 :: bs) 0) with (Ok b0). cbn [bind].
  replace (forallb (fun b => length (o_factors b) =? length (o_factors b0)) (b0 :: bs)) with false; [reflexivity|]. symmetry. apply Bool.not_true_iff_false. intros F. rewrite forallb_forall in F. apply N. pose proof (F b Hb) as F1. pose proof (F c Hc) as F2. apply Nat.eqb_eq in F1, F2. congruence.
Qed.
(** the hypotheses are met: n = 4, r = 2, p = 5, braids with two, no, one and two
    factors and odd and even powers *)
Example C80_case : exists S R bs, jones_summand 4 2 5 = Ok S /\ jones_rep 4 2 5 = Ok R /\ gnf_table 4 (gtb hdpick) /\ rep_dimension R = Ok (Z.of_nat 2) /\ map (fun b => (o_pow b, o_factors b)) bs = [(-3, [1; 1]); (1, []); (0, [2]); (4, [2; 2])]%Z /\
  (forall b, In b bs -> nf_value (gtb hdpick) 4 b) /\ (Z.of_nat 2 * (Z.of_nat (4 * (4 - 1) + 1) * ((5 - 1) * (5 - 1))) < 2 ^ 31)%Z /\ exists L, js_evaluate_braids (gtb hdpick) S bs = Ok L /\ length L = 4.
Proof.
  destruct (proj1 (proj1 (C58_constructor 4 2 5)) ltac:(lia)) as [R EJ]. exists (mkJS 4 2 5), R, [NFObj 4 (-3) [1; 1]; NFObj 4 1 []; NFObj 4 0 [2]; NFObj 4 4 [2; 2]]%Z.
  assert (ED : rep_dimension R = Ok 2%Z) by (destruct (jones_rep_ok _ _ _ _ EJ) as (_ & _ & _ & ->); reflexivity).
  assert (HT : exists t, gtb hdpick 4 = Ok t /\ t_order t = 24). { destruct (gtb hdpick 4) as [t|] eqn:E; [|vm_compute in E; discriminate]. exists t. split; [reflexivity|]. vm_compute in E. injection E as <-. reflexivity. }
  destruct HT as [t [Et Ot]].
  assert (HV : forall b, In b [NFObj 4 (-3) [1; 1]; NFObj 4 1 []; NFObj 4 0 [2]; NFObj 4 4 [2; 2]]%Z -> nf_value (gtb hdpick) 4 b).
  { intros b Hb. exists t, (o_pow b), (o_factors b). split; [exact Et|]. rewrite Ot. destruct Hb as [<-|[<-|[<-|[<-|[]]]]]; (split; [repeat constructor; lia|vm_compute; reflexivity]). }
  split; [reflexivity|]. split; [exact EJ|]. split; [exact gnf_table_ex|]. split; [exact ED|]. split; [reflexivity|]. split; [exact HV|]. split; [reflexivity|].
  destruct (C80_order 4 2 5 (mkJS 4 2 5) R (gtb hdpick) _ 2 eq_refl EJ ltac:(lia) gnf_table_ex ltac:(lia) ED HV) as (L & EL & LL & _); [intros _; reflexivity|intros Q; exfalso; lia|]. exists L. split; [exact EL|exact LL].
Qed.
