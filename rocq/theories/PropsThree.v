(** PropsThree.v – C114: the two-dimensional representation of B_3 is faithful modulo
    every p <> 1, and the degree span of an image is twice the number of factors. *)
From Verif Require Import Base ModelPoly SpecPoly PolyTheory PropsPoly ModelMatrix SpecMatrix MatrixTheory NumTheory ModelPolymat SpecPolymat PolymatTheory PropsPolymat PropsPolymat2 PropsPolymat3.
From Coq Require Import Ring Setoid Morphisms.
From Verif Require Import ModelPerm Germ GermNF GermAct GermBraid PermTheory WeakOrder PermWords SpecBraid BraidTheory ModelBraid ModelTL ModelTLMor ModelRep SpecRep RepTheory RepCanon PropsRep ModelPolyRep TableTheory NFApi SpecPerm PermGerm PermTable PropsGNF PropsGNF2 PolyRepTheory PolyRepSpan PropsPolyRep2 ModelTools PropsLists BurauThree.
Local Open Scope nat_scope.
#[local] Existing Instance neqp_equiv.
#[local] Existing Instance pmeq_equiv.

(** lo and hi are the least and the greatest degree in which the d by d matrix X has a
    coefficient that is not zero modulo p *)
Definition spans (p : Z) (d : nat) (X : mat num) (lo hi : Z) : Prop :=
  (exists i j, i < d /\ j < d /\ ~ (p | numcoef (mentry X i j) lo)%Z) /\ (exists i j, i < d /\ j < d /\ ~ (p | numcoef (mentry X i j) hi)%Z) /\
  forall i j e, i < d -> j < d -> ~ (p | numcoef (mentry X i j) e)%Z -> (lo <= e <= hi)%Z.
Lemma spans_congr p d X Y lo hi : mat_congr p X Y -> sq d X -> sq d Y -> spans p d X lo hi -> spans p d Y lo hi.
Proof.
  intros K SX SY. assert (Q : forall i j e, i < d -> j < d -> (p | numcoef (mentry X i j) e)%Z <-> (p | numcoef (mentry Y i j) e)%Z).
  { intros i j e Hi Hj. apply pmeq_congr in K. apply (meq_ent (NI 0) (neqp p)) in K; [|apply SX|apply SY]. destruct K as (_ & _ & K). destruct SX as (_ & R1 & C1). specialize (K i j ltac:(lia) ltac:(lia)). apply neqp_congr in K. specialize (K e). change (ent (NI 0) X i j) with (mentry X i j) in K. change (ent (NI 0) Y i j) with (mentry Y i j) in K.
    destruct K as [a K]. split; intros [b B]; [exists (b - a)%Z|exists (b + a)%Z]; lia. }
  intros ((i & j & Hi & Hj & N1) & (i' & j' & Hi' & Hj' & N2) & A). split; [|split].
  - exists i, j. rewrite <- Q by assumption. auto.
  - exists i', j'. rewrite <- Q by assumption. auto.
  - intros a b e Ha Hb N. rewrite <- Q in N by assumption. eauto.
Qed.
Lemma spans_unique p d X lo hi lo' hi' : spans p d X lo hi -> spans p d X lo' hi' -> lo = lo' /\ hi = hi'.
Proof.
  intros ((i & j & Hi & Hj & N1) & (i' & j' & Hi' & Hj' & N2) & A) ((k & l & Hk & Hl & N3) & (k' & l' & Hk' & Hl' & N4) & B).
  pose proof (B _ _ _ Hi Hj N1). pose proof (B _ _ _ Hi' Hj' N2). pose proof (A _ _ _ Hk Hl N3). pose proof (A _ _ _ Hk' Hl' N4). lia.
Qed.
Lemma n2 : 2 <= 3. Proof. lia. Qed.
Section Three.
Variables (p : Z) (R : rep) (tb : nat -> res (nftable (list nat))).
Hypothesis (EJ : jones_rep 3 1 p = Ok R) (Hp1 : p <> 1%Z) (Ht : gnf_table 3 tb).
Local Notation TK := (ptab_ok 3 n2).
Lemma three_facts : exists gens invs E, rep_dimension R = Ok (Z.of_nat 2) /\ rep_artin_gens_invs R = Ok (gens, invs) /\ rep_id R = Ok E.
Proof using EJ.
  destruct (jones_all 3 1 p R EJ) as (d & gens & invs & E & _ & _ & _ & _ & ED & EG & EI & _). exists gens, invs, E. split; [|auto]. destruct (jones_rep_ok 3 1 p R EJ) as (_ & _ & _ & ->). vm_compute. reflexivity.
Qed.
Lemma inv_spans gens invs E w c a b : rep_dimension R = Ok (Z.of_nat 2) -> rep_artin_gens_invs R = Ok (gens, invs) -> rep_id R = Ok E -> c < 2 -> Inv p gens invs E w c a b -> (b <= a)%Z -> spans p 2 (M gens invs E w) b a.
Proof using EJ.
  intros ED EG EI Hc ((i & Hi & N1) & Z1 & Z2 & (i' & Hi' & N2) & Z3 & Z4) L. assert (Ho : other c < 2) by (unfold other; lia). split; [|split].
  - exists i', (other c). auto.
  - exists i, c. auto.
  - intros k j e Hk Hj N. assert (j = c \/ j = other c) as [->| ->] by (unfold other; lia).
    + destruct (Z.le_gt_cases e b) as [Q|Q]; [exfalso; apply N; exact (Z4 e Q k Hk)|]. destruct (Z.le_gt_cases e a) as [Q'|Q']; [lia|exfalso; apply N; exact (Z1 e Q' k Hk)].
    + destruct (Z.le_gt_cases a e) as [Q|Q]; [exfalso; apply N; exact (Z2 e Q k Hk)|]. destruct (Z.le_gt_cases b e) as [Q'|Q']; [lia|exfalso; apply N; exact (Z3 e Q' k Hk)].
Qed.
Lemma flat_spans gens invs E w a : Flat p gens invs E w a -> spans p 2 (M gens invs E w) a a.
Proof using Type.
  intros F. destruct (F 0 ltac:(lia)) as [(i & Hi & N) _]. split; [exists i, 0; auto|]. split; [exists i, 0; auto|]. intros k j e Hk Hj N'. destruct (Z.eq_dec e a) as [->|Q]; [lia|]. exfalso. apply N'. exact (proj2 (F j Hj) e Q k Hk).
Qed.
Lemma state_spans gens invs E s : rep_dimension R = Ok (Z.of_nat 2) -> rep_artin_gens_invs R = Ok (gens, invs) -> rep_id R = Ok E -> ok (PG 3) (peqd 3) s ->
  exists lo, spans p 2 (M gens invs E (word_of (PG 3) (lift (PG 3) (pwd 3)) s)) lo (lo + 2 * Z.of_nat (length (snd s))) /\ (snd s = [] -> lo = (3 * fst s)%Z).
Proof using EJ Hp1.
  intros ED EG EI Ho. destruct s as [k l]. unfold word_of. cbn [fst snd]. rewrite delta_word. pose proof (flat_pow p R gens invs E EJ ED EG EI Hp1 k) as F. destruct l as [|x l].
  - exists (3 * k)%Z. cbn [liftl flat_map length]. rewrite app_nil_r. change (2 * Z.of_nat 0)%Z with 0%Z. rewrite Z.add_0_r. split; [now apply flat_spans|reflexivity].
  - remember (x :: l) as m eqn:Em. assert (NE : m <> []) by (subst m; discriminate). apply (ok_normal 3 n2 k) in Ho. destruct (run_flat p R gens invs E EJ ED EG EI Hp1 m _ _ F NE Ho) as (c & a & b & Hc & HI & Q). exists b. pose proof (Q : (a - b = 2 * Z.of_nat (@length (T (PG 3)) m))%Z) as Q'. clear Q. replace (b + 2 * Z.of_nat (@length (T (PG 3)) m))%Z with a by lia. split; [|intros; contradiction]. apply (inv_spans gens invs E _ c); auto. lia.
Qed.
(** the image of a normal form with l factors spans exactly 2 l degrees; that of a power
    of Delta is concentrated in degree 3 * power *)
Theorem C114_span b : nf_value tb 3 b -> exists X lo, rep_evaluate_nf tb R b = Ok X /\ spans p 2 X lo (lo + 2 * Z.of_nat (length (o_factors b))) /\ (o_factors b = [] -> lo = (3 * o_pow b)%Z).
Proof using EJ Hp1 Ht.
  intros V. destruct three_facts as (gens & invs & E & ED & EG & EI). pose proof (gnf_table_ptab 3 tb Ht) as Etb. destruct (val_enc 3 tb n2 Ht b V) as [s [Ho ->]].
  destruct (artin_word_any (ptab 3) (PG 3) (prn 3) (peqd 3) 3 (pwd 3) (PermGerm.atom 3) (idx 3) (val 3) TK tb Etb s) as [w [E1 [E2 [E3 E4]]]].
  destruct (value_ok 3 1 p R 2 gens invs E EJ ED EG EI Hp1 w (Logic.conj E3 E4)) as (X & EX & SX & PX & _). rewrite E2 in PX.
  destruct (state_spans gens invs E s ED EG EI Ho) as (lo & HS & H0). exists X, lo. split; [unfold rep_evaluate_nf; rewrite E1; exact EX|]. destruct (Mfacts 3 1 p R 2 gens invs E EJ ED EG EI) as (_ & _ & _ & _ & _ & SM & _).
  cbn [TableTheory.enc o_factors o_pow]. rewrite map_length. split; [|intros Q; apply H0; destruct (snd s); [reflexivity|discriminate]]. eapply spans_congr; [|apply SM|exact SX|exact HS]. apply pmeq_congr. symmetry. exact PX.
Qed.
(** words have congruent images exactly when they are the same braid *)
Theorem C114_faithful u w : word_ok 3 u -> word_ok 3 w -> exists A B, rep_evaluate_artin_word R u = Ok A /\ rep_evaluate_artin_word R w = Ok B /\ (mat_congr p A B <-> braid_eq 3 (expand u) (expand w)).
Proof using EJ Hp1 Ht.
  intros Hu Hw. destruct three_facts as (gens & invs & E & ED & EG & EI). pose proof (gnf_table_ptab 3 tb Ht) as Etb. destruct (Mfacts 3 1 p R 2 gens invs E EJ ED EG EI) as (_ & _ & _ & _ & _ & SM & BM & PM).
  assert (EV : forall v, word_ok 3 v -> exists A, rep_evaluate_artin_word R v = Ok A /\ sq 2 A /\ pmeq p A (M gens invs E (expand v))).
  { intros v Hv. destruct (eval_ok 3 1 p R v EJ Hv) as (d2 & gens2 & invs2 & E2 & X & ED2 & EG2 & EI2 & _ & _ & EX & SX & PX & _). rewrite ED in ED2. injection ED2 as ED2. assert (d2 = 2) as -> by lia. rewrite EG in EG2. injection EG2 as <- <-. rewrite EI in EI2. injection EI2 as <-. eauto. }
  destruct (EV u Hu) as (A & EA & SA & PA), (EV w Hw) as (B & EB & SB & PB). exists A, B. split; [exact EA|]. split; [exact EB|]. split; intros K.
  - apply pmeq_congr in K. destruct (api_from_word _ _ _ _ _ _ _ _ _ TK tb Etb u Hu) as (a & _ & Da). destruct (api_from_word _ _ _ _ _ _ _ _ _ TK tb Etb w Hw) as (b & _ & Db).
    destruct (api_inv _ _ _ _ _ _ _ _ _ TK tb Etb b _ Db) as (i & _ & Di). destruct (api_mul _ _ _ _ _ _ _ _ _ TK tb Etb a i _ _ Da Di) as (c & _ & Dc).
    apply (denotes_iff _ _ _ _ _ _ _ _ _ TK tb Etb) in Dc. destruct Dc as (s & Ho & _ & BS). destruct (state_spans gens invs E s ED EG EI Ho) as (lo & HS & H0).
    assert (RW : in_range 3 (expand w)) by now apply word_ok_range.
    assert (ID : pmeq p (M gens invs E (word_of (PG 3) (lift (PG 3) (pwd 3)) s)) (M gens invs E [])).
    { rewrite (BM _ _ BS). rewrite (PM (expand u) (winv (expand w))). transitivity (MatrixTheory.prod (NI 0) nadd nmul (M gens invs E (expand w)) (M gens invs E (winv (expand w)))).
      - apply (pr_meq p 2); auto; [|reflexivity]. rewrite <- PA, K. exact PB.
      - rewrite <- PM. apply BM. now apply be_inv_r. }
    pose proof (flat_spans gens invs E [] 0 (flat_nil p R gens invs E EJ ED EG EI Hp1)) as F0. apply pmeq_congr in ID. apply (spans_congr p 2 _ _ _ _ ID (SM _) (SM _)) in HS. destruct (spans_unique p 2 _ _ _ _ _ HS F0) as [-> Q].
    destruct s as [k l]. cbn [fst snd] in *. destruct l as [|x l]; [|cbn [length] in Q; lia]. specialize (H0 eq_refl). assert (k = 0%Z) as -> by lia. unfold word_of in BS. cbn [fst snd liftl flat_map] in BS. rewrite wpow_0 in BS. cbn [app] in BS.
    apply be_sym in BS. transitivity (expand u ++ (winv (expand w) ++ expand w)).
    + rewrite (be_inv_l 3 _ RW), app_nil_r. apply be_refl.
    + rewrite app_assoc, BS. apply be_refl.
  - apply pmeq_congr. rewrite PA, PB. now apply BM.
Qed.
(** so normal forms with congruent images are equal *)
Theorem C114_faithful_gnf a b : nf_value tb 3 a -> nf_value tb 3 b -> exists A B, rep_evaluate_nf tb R a = Ok A /\ rep_evaluate_nf tb R b = Ok B /\ (mat_congr p A B <-> a = b).
Proof using EJ Hp1 Ht.
  intros Va Vb. pose proof (gnf_table_ptab 3 tb Ht) as Etb. destruct (api_word _ _ _ _ _ _ _ _ _ TK tb Etb a Va) as (u & Eu & Hu & _ & Du), (api_word _ _ _ _ _ _ _ _ _ TK tb Etb b Vb) as (w & Ew & Hw & _ & Dw).
  destruct (C114_faithful u w Hu Hw) as (A & B & EA & EB & K). exists A, B. unfold rep_evaluate_nf. rewrite Eu, Ew. cbn [bind]. split; [exact EA|]. split; [exact EB|]. rewrite K. symmetry. apply (api_eq _ _ _ _ _ _ _ _ _ TK tb Etb a b _ _ Du Dw).
Qed.
(** only the powers of Delta have an image concentrated in one degree; so the braids that
    act as a scalar v^k, up to sign, are powers of Delta *)
Theorem C114_flat b X lo : nf_value tb 3 b -> rep_evaluate_nf tb R b = Ok X -> (spans p 2 X lo lo <-> o_factors b = [] /\ lo = (3 * o_pow b)%Z).
Proof using EJ Hp1 Ht.
  intros V EX. destruct (C114_span b V) as (X' & l0 & EX' & HS & H0). rewrite EX in EX'. injection EX' as <-. split.
  - intros Q. destruct (spans_unique p 2 _ _ _ _ _ Q HS) as [-> E2]. assert (o_factors b = []) as E by (destruct (o_factors b); [reflexivity|cbn [length] in E2; lia]). auto.
  - intros [E1 ->]. rewrite (H0 E1), E1 in HS. cbn [length] in HS. replace (3 * o_pow b + 2 * Z.of_nat 0)%Z with (3 * o_pow b)%Z in HS by lia. exact HS.
Qed.
(** the projective length of the image in a batch is 2 l + 1 *)
Lemma image_projlen d X P k lo hi : wfa P -> aI P = d -> aJ P = d -> valid_index (apre P) [k] -> is_image p d X P k -> (exists i j, i < d /\ j < d /\ acoef P [k] i j 0 <> 0%Z) -> (p <> 0%Z -> forall i j e, i < d -> j < d -> (0 <= acoef P [k] i j e < p)%Z) ->
  spans p d X lo hi -> exists pl, projlen P = Ok pl /\ nth (cpos (apre P) [k]) pl 0%Z = (hi - lo + 1)%Z.
Proof using EJ Hp1.
  intros W EI EJ' V (s & HS) (i0 & j0 & Hi0 & Hj0 & N0) RG ((i & j & Hi & Hj & N1) & (i' & j' & Hi' & Hj' & N2) & A).
  assert (Hp : (0 <= p)%Z) by (destruct (jones_rep_ok 3 1 p R EJ) as (_ & _ & Hp & _); exact Hp).
  assert (DZ : forall i j e, i < d -> j < d -> (p | acoef P [k] i j e)%Z -> acoef P [k] i j e = 0%Z).
  { intros a b e Ha Hb [q Q]. destruct (Z.eq_dec p 0) as [P0|P0]; [rewrite Q, P0; lia|]. specialize (RG P0 a b e Ha Hb). rewrite Q in *. assert (q = 0%Z) as -> by nia. reflexivity. }
  assert (AT : forall i j e, i < d -> j < d -> ((p | numcoef (mentry X i j) (Z.of_nat e + s))%Z <-> acoef P [k] i j e = 0%Z)).
  { intros a b e Ha Hb. specialize (HS a b (Z.of_nat e + s)%Z Ha Hb). destruct (Z.ltb_spec (Z.of_nat e + s) s); [lia|]. replace (Z.to_nat (Z.of_nat e + s - s)) with e in HS by lia. split.
    - intros [x Kx]. apply DZ; auto. destruct HS as [y Ky]. exists (x - y)%Z. lia.
    - intros Q. rewrite Q, Z.sub_0_r in HS. exact HS. }
  assert (BE : forall i j e, i < d -> j < d -> (e < s)%Z -> (p | numcoef (mentry X i j) e)%Z).
  { intros a b e Ha Hb He. specialize (HS a b e Ha Hb). destruct (Z.ltb_spec e s); [|lia]. rewrite Z.sub_0_r in HS. exact HS. }
  assert (L : (s <= lo)%Z) by (destruct (Z.le_gt_cases s lo); [assumption|exfalso; apply N1; apply BE; auto]).
  assert (L0 : (lo <= s)%Z). { apply (A i0 j0 s Hi0 Hj0). intros Q. apply N0. apply AT; auto. }
  assert (s = lo) as -> by lia. assert (D1 : 1 <= aD P) by (destruct (aD P) eqn:Q; [|lia]; exfalso; apply N0; apply acoef_over; lia).
  assert (LH : (lo <= hi)%Z) by (apply (A i' j' hi Hi' Hj' N2)).
  destruct (C66_nonzero P W D1) as (dm & vm & pl & el & _ & _ & EPL & _ & _ & _ & _ & _ & K). exists pl. split; [exact EPL|]. destruct (K [k] 0 (Z.to_nat (hi - lo)) V) as (_ & _ & Q & _).
  - rewrite EI, EJ'. split; [eauto|]. intros; lia.
  - rewrite EI, EJ'. split.
    + exists i', j'. split; [exact Hi'|]. split; [exact Hj'|]. intros Q. apply N2. apply AT in Q; auto. replace (Z.of_nat (Z.to_nat (hi - lo)) + lo)%Z with hi in Q by lia. exact Q.
    + intros a b e Ha Hb He. apply AT; auto. destruct (Znumtheory.Zdivide_dec p (numcoef (mentry X a b) (Z.of_nat e + lo))) as [Q|Q]; [exact Q|]. specialize (A a b _ Ha Hb Q). lia.
  - rewrite Q. lia.
Qed.
Theorem C114_projlen bs : bs <> [] -> (forall b, In b bs -> nf_value tb 3 b) -> (forall b b', In b bs -> In b' bs -> length (o_factors b) = length (o_factors b')) ->
  (p <> 0%Z -> (14 * ((p - 1) * (p - 1)) < 2 ^ 63)%Z) ->
  (p = 0%Z -> forall b X, In b bs -> (forall i, i <= length (o_factors b) -> rep_evaluate_nf tb R (NFObj 3 (o_pow b) (firstn i (o_factors b))) = Ok X -> int64_matrix X) /\
     (forall f, In f (o_factors b) -> rep_evaluate_nf tb R (NFObj 3 0 [f]) = Ok X -> int64_matrix X)) ->
  exists P pl, polymat_evaluate_braids_of_same_length tb R bs = Ok P /\ projlen P = Ok pl /\
    forall k b, nth_error bs k = Some b -> nth k pl 0%Z = (2 * Z.of_nat (length (o_factors b)) + 1)%Z.
Proof using EJ Hp1 Ht.
  intros NE HV HL BN BZ. destruct three_facts as (gens & invs & E & ED & EG & EI).
  destruct (C61_gnf 3 1 p R tb bs 2 EJ n2 Ht Hp1 ED NE HV HL) as (P & EP & W & AP & IP & JP & _ & K); [intros P0; specialize (BN P0); change (Z.of_nat 2) with 2%Z; change (Z.of_nat (3 * (3 - 1) + 1)) with 7%Z; lia|exact BZ|].
  assert (Q : forall k b, nth_error bs k = Some b -> exists pl, projlen P = Ok pl /\ nth k pl 0%Z = (2 * Z.of_nat (length (o_factors b)) + 1)%Z).
  { intros k b Hk. destruct (K k b Hk) as ((X & EX & HI) & N0 & RG). destruct (C114_span b (HV b (nth_error_In _ _ Hk))) as (X' & lo & EX' & HS & _). rewrite EX in EX'. injection EX' as <-.
    assert (V : valid_index (apre P) [k]) by (rewrite AP; apply valid_one; eexists; split; [reflexivity|]; apply nth_error_Some; congruence).
    destruct (image_projlen 2 X P k _ _ W IP JP V HI N0 RG HS) as (pl & Epl & Q). exists pl. split; [exact Epl|]. rewrite AP in Q. change (cpos [length bs] [k]) with k in Q. rewrite Q. lia. }
  destruct bs as [|b0 bs]; [contradiction|]. destruct (Q 0 b0 eq_refl) as (pl & Epl & _). exists P, pl. split; [exact EP|]. split; [exact Epl|]. intros k b Hk. destruct (Q k b Hk) as (pl' & Epl' & Q'). rewrite Epl in Epl'. injection Epl' as <-. exact Q'.
Qed.
End Three.
(** so the list of braids below 1 is always empty *)
Theorem C114_below p S R tb len : jones_summand 3 1 p = Ok S -> jones_rep 3 1 p = Ok R -> gnf_table 3 tb -> p <> 1%Z -> (p <> 0%Z -> (14 * ((p - 1) * (p - 1)) < 2 ^ 31)%Z) -> (0 <= len)%Z ->
  (forall b, nf_value tb 3 b -> o_pow b = 0%Z -> length (o_factors b) = Z.to_nat len -> small 3 p R tb b) -> all_of_length_below_1 tb S len = Ok ([], no_images).
Proof.
  intros ES EJ Ht Hp1 BN HL SM. destruct (three_facts p R EJ) as (gens & invs & E & ED & EG & EI).
  destruct (C109_below 3 1 p S R tb 2 ES EJ ltac:(lia) Ht Hp1 ED) with (len := len) as (all & keep & bs & im & _ & HA & _ & EB & FK & Ebs & _ & NI); auto.
  - intros P0. specialize (BN P0). change (Z.of_nat 2) with 2%Z. change (Z.of_nat (3 * (3 - 1) + 1)) with 7%Z. lia.
  - assert (KF : Forall (fun k => k = false) keep).
    { clear - FK HA EJ Hp1 Ht HL. assert (HA' : forall b, In b all -> nf_value tb 3 b /\ length (o_factors b) = Z.to_nat len) by (intros b Hb; apply HA in Hb; tauto). clear HA. induction FK as [|b k all keep (X & EX & Q) _ IH]; [constructor|]. constructor; [|apply IH; intros; apply HA'; now right].
      destruct (HA' b (or_introl eq_refl)) as (V & L). destruct (C114_span p R tb EJ Hp1 Ht b V) as (X' & lo & EX' & ((i & j & Hi & Hj & N1) & (i' & j' & Hi' & Hj' & N2) & _) & _). rewrite EX in EX'. injection EX' as <-. rewrite L in N2.
      destruct k; [|reflexivity]. exfalso. destruct (proj1 Q eq_refl) as (l0 & B). specialize (B _ _ _ Hi Hj N1) as B1. specialize (B _ _ _ Hi' Hj' N2) as B2. lia. }
    assert (bs = []) as ->. { rewrite Ebs. clear - KF. revert all. induction KF as [|k keep -> _ IH]; intros [|b all]; try reflexivity. cbn [flagged app]. apply IH. }
    rewrite EB, (NI eq_refl). reflexivity.
Qed.
(** B_3 modulo 2: a braid with 3 factors spans the degrees -1 .. 5 *)
Example C114_case : exists R X, jones_rep 3 1 2 = Ok R /\ gnf_table 3 (gtb hdpick) /\ nf_value (gtb hdpick) 3 (NFObj 3 (-1) [3; 4; 2]%Z) /\ rep_evaluate_nf (gtb hdpick) R (NFObj 3 (-1) [3; 4; 2]%Z) = Ok X /\ spans 2 2 X (-1) 5 /\
  jones_summand 3 1 2 = Ok (mkJS 3 1 2) /\ all_of_length_below_1 (gtb hdpick) (mkJS 3 1 2) 7 = Ok ([], no_images).
Proof.
  destruct (jones_rep 3 1 2) as [R|] eqn:EJ; [|discriminate]. assert (L7 : 3 < 7) by lia. pose proof (gtb_is_table hdpick 3 hdpick_ok L7) as GT.
  assert (V : nf_value (gtb hdpick) 3 (NFObj 3 (-1) [3; 4; 2]%Z)). { destruct (gtb hdpick 3) as [t|] eqn:E; [|vm_compute in E; discriminate]. exists t, (-1)%Z, [3; 4; 2]%Z. split; [exact E|]. assert (Q : t_order t = 6) by (vm_compute in E; injection E as <-; reflexivity). rewrite Q. split; [repeat constructor; lia|vm_compute; reflexivity]. }
  destruct (C114_span 2 R (gtb hdpick) EJ ltac:(lia) GT _ V) as (X & lo & EX & HS & _). exists R, X. split; [reflexivity|]. split; [exact GT|]. split; [exact V|]. split; [exact EX|]. split; [|split; [reflexivity|]].
  - cbn [o_factors length] in HS. assert (EX' : exists X', (R <- jones_rep 3 1 2 ;; rep_evaluate_nf (gtb hdpick) R (NFObj 3 (-1) [3; 4; 2]%Z)) = Ok X' /\ numcoef (mentry X' 0 1) (-1) = 1%Z /\ numcoef (mentry X' 1 0) 5 = 1%Z) by (eexists; split; [vm_compute; reflexivity|split; reflexivity]).
    destruct EX' as (X' & EX' & Q1 & Q2). rewrite EJ in EX'. cbn [bind] in EX'. rewrite EX in EX'. injection EX' as <-. destruct HS as (H1 & H2 & A).
    assert (N : ~ (2 | 1)%Z) by (intros [q Hq]; lia). pose proof (A 0 1 (-1)%Z ltac:(lia) ltac:(lia) ltac:(rewrite Q1; exact N)) as B1'. pose proof (A 1 0 5%Z ltac:(lia) ltac:(lia) ltac:(rewrite Q2; exact N)) as B2'. assert (lo = (-1)%Z) as -> by lia. split; [exact H1|]. split; [exact H2|exact A].
  - apply (C114_below 2 _ R); [reflexivity|exact EJ|exact GT|lia|intros _; reflexivity|lia|]. intros b _ _ _ Q. discriminate.
Qed.
