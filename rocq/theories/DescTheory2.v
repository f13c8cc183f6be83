(** DescTheory2.v – batches of images of GNF braids and their products. *)
From Verif Require Import Base ModelPoly SpecPoly PolyTheory PropsPoly ModelMatrix SpecMatrix MatrixTheory NumTheory ModelPolymat SpecPolymat PolymatTheory PropsPolymat PropsPolymat2 PropsPolymat3.
From Coq Require Import Ring Setoid Morphisms.
From Verif Require Import ModelPerm Germ GermNF GermAct GermBraid PermTheory WeakOrder PermWords SpecBraid BraidTheory FullTwistBraid FullTwist ModelBraid ModelTL ModelTLMor ModelRep SpecRep RepTheory RepCanon PropsRep PropsTwist ModelPolyRep TableTheory NFApi PermGerm PermTable PropsGNF PropsGNF2 PolyRepTheory PolyRepSpan PropsPolyRep PropsPolyRep2 JSTheory PropsJS DescTheory ModelTracker.
Local Open Scope nat_scope.
#[local] Existing Instance neqp_equiv.
#[local] Existing Instance pmeq_equiv.

(** the k-th matrix of the batch im is the image of the k-th braid, projectivised
    and reduced modulo p *)
Definition images_of (n : nat) (p : Z) (R : rep) (tb : nat -> res (nftable (list nat))) (d : nat) (t : dtype) (bs : list nfobj) (im : parr) : Prop :=
  wfa im /\ apre im = [length bs] /\ aI im = d /\ aJ im = d /\ adt im = t /\
  forall k b, nth_error bs k = Some b -> nf_value tb n b /\ (exists X, rep_evaluate_nf tb R b = Ok X /\ is_image p d X im k) /\
    (exists i j, i < d /\ j < d /\ acoef im [k] i j 0 <> 0%Z) /\ (p <> 0%Z -> forall i j e, i < d -> j < d -> (0 <= acoef im [k] i j e < p)%Z).

(** reshaping a batch *)
Lemma outer_left_ok A N : apre A = [N] -> wfa A -> wfa (outer_left A) /\ forall k i j e, acoef (outer_left A) [0; k] i j e = acoef A [k] i j e.
Proof.
  intros E (W1 & W2 & W3). split.
  - split; [|split; [exact W2|exact W3]]. cbn [outer_left apre ablocks]. rewrite W1. unfold nitems. cbn [fold_right]. lia.
  - intros k i j e. unfold acoef. cbn [outer_left apre aI aJ aD ablocks]. rewrite E. reflexivity.
Qed.
Lemma outer_right_ok A N : apre A = [N] -> wfa A -> wfa (outer_right A) /\ forall k i j e, acoef (outer_right A) [k; 0] i j e = acoef A [k] i j e.
Proof.
  intros E (W1 & W2 & W3). split.
  - split; [|split; [exact W2|exact W3]]. cbn [outer_right apre ablocks]. rewrite W1, E. unfold nitems. cbn [app fold_right]. lia.
  - intros k i j e. unfold acoef. cbn [outer_right apre aI aJ aD ablocks]. rewrite E. cbn [app]. unfold cpos. cbn [combine fold_left fst snd]. replace ((0 * N + k) * 1 + 0) with (0 * N + k) by lia. reflexivity.
Qed.
Lemma flatten_ok A N M : apre A = [N; M] -> wfa A -> wfa (flatten A) /\ apre (flatten A) = [N * M] /\ forall a b i j e, acoef (flatten A) [a * M + b] i j e = acoef A [a; b] i j e.
Proof.
  intros E (W1 & W2 & W3). assert (L : length (ablocks A) = N * M) by (rewrite W1, E; unfold nitems; cbn [fold_right]; lia). split; [|split].
  - split; [|split; [exact W2|exact W3]]. cbn [flatten apre ablocks]. unfold nitems. cbn [fold_right]. lia.
  - cbn [flatten apre]. now rewrite L.
  - intros a b i j e. unfold acoef. cbn [flatten apre aI aJ aD ablocks]. rewrite L, E. cbn [app]. unfold cpos. cbn [combine fold_left fst snd]. replace (0 * (N * M) + (a * M + b)) with ((0 * N + a) * M + b) by lia. reflexivity.
Qed.
Lemma bc_outer N M : broadcasts [1; M] [N; 1] [N; M].
Proof.
  assert (AX : forall a b k, axis [a; b] k = match k with 0 => b | 1 => a | _ => 1 end) by (intros a b [|[|[|k]]]; reflexivity).
  split; [|split; [reflexivity|]]; intros k; rewrite !AX; destruct k as [|[|k]]; cbn; auto; destruct (Nat.eqb_spec M 1); auto.
Qed.
Lemma op_left N M s b : s < N -> b < M -> operand_index [1; M] [s; b] = [0; b].
Proof. intros _ Hb. unfold operand_index. cbn. destruct (Nat.eqb_spec M 1) as [->|]; cbn; [|reflexivity]. repeat f_equal. lia. Qed.
Lemma op_right N M s b : s < N -> b < M -> operand_index [N; 1] [s; b] = [s; 0].
Proof. intros Hs _. unfold operand_index. cbn. destruct (Nat.eqb_spec N 1) as [->|]; cbn; [|reflexivity]. repeat f_equal. lia. Qed.
Lemma nth_prod {A B} (l : list A) (l' : list B) s b : b < length l' -> nth_error (list_prod l l') (s * length l' + b) = match nth_error l s, nth_error l' b with Some x, Some y => Some (x, y) | _, _ => None end.
Proof.
  intros Hb. revert s. induction l as [|x l IH]; intros [|s]; cbn [list_prod nth_error].
  - destruct (0 * _ + b); reflexivity.
  - destruct (Datatypes.S s * _ + b); reflexivity.
  - rewrite nth_error_app1 by (rewrite map_length; lia). rewrite nth_error_map. cbn [Nat.mul Nat.add]. destruct (nth_error l' b); reflexivity.
  - rewrite nth_error_app2 by (rewrite map_length; lia). rewrite map_length. replace (Datatypes.S s * length l' + b - length l') with (s * length l' + b) by lia. apply IH.
Qed.

Section I.
Variables (n r : nat) (p : Z) (R : rep) (d : nat) (tb : nat -> res (nftable (list nat))).
Hypothesis (EJ : jones_rep n r p = Ok R) (ED : rep_dimension R = Ok (Z.of_nat d)) (Hp1 : p <> 1%Z) (n2 : 2 <= n) (Ht : gnf_table n tb).
(** the word of a braid *)
Definition bwd (b : nfobj) : bword := match artin_word tb b with Ok w => expand w | Err _ => [] end.
Lemma bwd_denotes b : nf_value tb n b -> denotes tb n b (bwd b) /\ in_range n (bwd b).
Proof using n2 Ht.
  clear EJ ED. intros V. destruct (api_word (ptab n) (PG n) (prn n) (peqd n) n (pwd n) (PermGerm.atom n) (idx n) (val n) (ptab_ok n n2) tb (gnf_table_ptab n tb Ht) b V) as (u & Eu & Wu & Fu & Du). unfold bwd. rewrite Eu. split; [exact Du|]. destruct (value_reps (ptab n) (PG n) (prn n) (peqd n) n (pwd n) (PermGerm.atom n) (idx n) (val n) (ptab_ok n n2) tb (gnf_table_ptab n tb Ht) b V) as [w [Rw Iw]].
  now apply word_ok_range.
Qed.
Lemma bwd_value gens invs E b : rep_artin_gens_invs R = Ok (gens, invs) -> rep_id R = Ok E -> nf_value tb n b ->
  exists X, rep_evaluate_nf tb R b = Ok X /\ sq d X /\ pmeq p X (M gens invs E (bwd b)).
Proof using EJ ED Hp1 n2 Ht.
  intros EG EI V. destruct (api_word (ptab n) (PG n) (prn n) (peqd n) n (pwd n) (PermGerm.atom n) (idx n) (val n) (ptab_ok n n2) tb (gnf_table_ptab n tb Ht) b V) as (u & Eu & Wu & Fu & _).
  destruct (value_ok n r p R d gens invs E EJ ED EG EI Hp1 u (Logic.conj Wu Fu)) as (X & EX & SX & PX & _). exists X. unfold rep_evaluate_nf, bwd. rewrite Eu. cbn [bind]. auto.
Qed.
Lemma bwd_mul a b : nf_value tb n a -> nf_value tb n b -> exists c, nf_mul tb a b = Ok c /\ nf_value tb n c /\ braid_eq n (bwd c) (bwd a ++ bwd b).
Proof using n2 Ht.
  clear EJ ED. intros Va Vb. destruct (bwd_denotes a Va) as [Da _]. destruct (bwd_denotes b Vb) as [Db _].
  destruct (api_mul (ptab n) (PG n) (prn n) (peqd n) n (pwd n) (PermGerm.atom n) (idx n) (val n) (ptab_ok n n2) tb (gnf_table_ptab n tb Ht) a b _ _ Da Db) as [c [Ec Dc]].
  exists c. split; [exact Ec|]. destruct Dc as [Vc (u & Eu & _ & Bu)]. split; [exact Vc|]. unfold bwd at 1. rewrite Eu. exact Bu.
Qed.
Lemma fsw_length l : 2 * length (fsw (map (val n) l)) <= length l * (n * (n - 1)).
Proof using n2.
  clear EJ ED Ht. induction l as [|x l IH]; [cbn; lia|]. cbn [map fsw flat_map length]. rewrite app_length. destruct (sw_ok n (val n x) (val_P n x)) as (u & _ & _ & _ & _ & _ & L & _). unfold fsw in IH. lia.
Qed.
Lemma bwd_short b : nf_value tb n b -> exists k v, braid_eq n (bwd b) (wpow (FTw n) k ++ v) /\ in_range n v /\ 2 * length v <= (length (o_factors b) + 1) * (n * (n - 1)).
Proof using n2 Ht.
  clear EJ ED. intros V. destruct (val_enc n tb n2 Ht b V) as [[m l] [_ Eb]].
  destruct (artin_word_any (ptab n) (PG n) (prn n) (peqd n) n (pwd n) (PermGerm.atom n) (idx n) (val n) (ptab_ok n n2) tb (gnf_table_ptab n tb Ht) (m, l)) as [w [E1 [E2 _]]].
  assert (RF : in_range n (fsw (map (val n) l))) by (apply fsw_range; apply Forall_forall; intros x Hx; apply in_map_iff in Hx; destruct Hx as [y [<- _]]; apply val_P).
  exists (m / 2)%Z, ((if (m mod 2 =? 0)%Z then [] else sw (longest_element n)) ++ fsw (map (val n) l)). split; [|split].
  - rewrite Eb. unfold bwd. rewrite E1, E2. unfold word_of. rewrite liftl_fsw, lift_sw. change (val n (D (PG n))) with (val n (pD n)). rewrite val_D. now apply delta_pow.
  - apply in_range_app. split; [|exact RF]. destruct (_ =? 0)%Z; [constructor|]. destruct (sw_ok n (longest_element n) (isperm_longest n)) as (u & _ & _ & _ & _ & K & _). exact K.
  - rewrite app_length. pose proof (fsw_length l) as L. rewrite Eb. cbn [o_factors TableTheory.enc snd]. rewrite map_length.
    assert (2 * length (if (m mod 2 =? 0)%Z then [] else sw (longest_element n)) <= n * (n - 1)) by (destruct (_ =? 0)%Z; [cbn; lia|]; destruct (sw_ok n (longest_element n) (isperm_longest n)) as (u & _ & _ & _ & _ & _ & K & _); exact K). rewrite Nat.mul_add_distr_l, Nat.mul_add_distr_r, Nat.mul_1_l, Nat.add_comm. apply Nat.add_le_mono; assumption.
Qed.

Lemma depth gens invs E w A ix i j e : rep_artin_gens_invs R = Ok (gens, invs) -> rep_id R = Ok E -> in_range n w -> agrees p d (M gens invs E w) A ix -> least_degree (acoef A ix) d d 0 -> (forall i j e, i < d -> j < d -> p <> 0%Z -> (0 <= acoef A ix i j e < p)%Z) ->
  i < d -> j < d -> 2 * length w < e -> acoef A ix i j e = 0%Z.
Proof using EJ ED Hp1.
  clear Ht n2. intros EG EI Hw [s K] [(i0 & j0 & Hi0 & Hj0 & N0) _] RG Hi Hj He. destruct (Mfacts n r p R d gens invs E EJ ED EG EI) as (_ & _ & Hp & Hd & HE & _).
  assert (ND : forall a b f, a < d -> b < d -> acoef A ix a b f <> 0%Z -> ~ (p | acoef A ix a b f)%Z).
  { intros a b f Ha Hb N Dv. destruct (Z.eq_dec p 0) as [P0|P0]; [rewrite P0 in Dv; apply Z.divide_0_l in Dv; contradiction|]. specialize (RG a b f Ha Hb P0). destruct Dv as [q Dv]. destruct (Z.eq_dec q 0) as [->|Nq]; [lia|]. assert (1 <= Z.abs q)%Z by lia. nia. }
  assert (EX : forall a b f, a < d -> b < d -> acoef A ix a b f <> 0%Z -> (- 2 * nneg' w <= Z.of_nat f + s <= 2 * npos w)%Z).
  { intros a b f Ha Hb N. apply (M_span n r p R d gens invs E w EJ ED EG HE Hw a b _ Ha Hb). intros Dv. apply (ND a b f Ha Hb N). specialize (K a b (Z.of_nat f + s)%Z Ha Hb). destruct (Z.ltb_spec (Z.of_nat f + s) s); [lia|]. replace (Z.to_nat (Z.of_nat f + s - s)) with f in K by lia.
    replace (acoef A ix a b f) with (numcoef (mentry (M gens invs E w) a b) (Z.of_nat f + s) - (numcoef (mentry (M gens invs E w) a b) (Z.of_nat f + s) - acoef A ix a b f))%Z by ring. now apply Z.divide_sub_r. }
  destruct (Z.eq_dec (acoef A ix i j e) 0) as [Q|Q]; [exact Q|]. exfalso. pose proof (EX i0 j0 0 Hi0 Hj0 N0) as Q1. pose proof (EX i j e Hi Hj Q) as Q2. pose proof (npos_nneg w). lia.
Qed.
Local Notation IM := (images_of n p R tb d).
Lemma images_batch gens invs E t bs im : rep_artin_gens_invs R = Ok (gens, invs) -> rep_id R = Ok E -> IM t bs im ->
  batch_ok p t d [length bs] (fun ix => M gens invs E (bwd (nth (hd 0 ix) bs (NFObj 0 0 [])))) im /\ batch_proj p d [length bs] im /\ (forall b, In b bs -> nf_value tb n b).
Proof using EJ ED Hp1 n2 Ht.
  intros EG EI (W & I1 & I2 & I3 & I4 & K). destruct (Mfacts n r p R d gens invs E EJ ED EG EI) as (_ & _ & Hp & Hd & _ & SM & BM & PM).
  split; [|split].
  - split; [exact W|]. do 4 (split; [assumption|]). intros ix V. destruct (valid1 _ _ V) as [k [-> Hk]]. cbn [hd]. destruct (K k _ (nth_error_nth' bs (NFObj 0 0 []) Hk)) as (Vb & (X & EX & IX) & _).
    destruct (bwd_value gens invs E _ EG EI Vb) as (X' & EX' & SX & PX). rewrite EX in EX'. injection EX' as <-. exact (agrees_pmeq p d X _ im [k] SX (SM _) PX IX).
  - intros ix V. destruct (valid1 _ _ V) as [k [-> Hk]]. destruct (K k _ (nth_error_nth' bs (NFObj 0 0 []) Hk)) as (_ & _ & NZ & RG). split; [split; [exact NZ|intros; lia]|]. intros i j e Hi Hj P0. now apply RG.
  - intros b Hb. apply In_nth_error in Hb. destruct Hb as [k Hk]. apply (K k b Hk).
Qed.
Lemma batch_images gens invs E t bs im (w : nat -> bword) : rep_artin_gens_invs R = Ok (gens, invs) -> rep_id R = Ok E -> (forall b, In b bs -> nf_value tb n b) -> (forall k b, nth_error bs k = Some b -> braid_eq n (bwd b) (w k)) ->
  batch_ok p t d [length bs] (fun ix => M gens invs E (w (hd 0 ix))) im -> batch_proj p d [length bs] im -> IM t bs im.
Proof using EJ ED Hp1 n2 Ht.
  intros EG EI HV HW (W & I1 & I2 & I3 & I4 & K) PJ. destruct (Mfacts n r p R d gens invs E EJ ED EG EI) as (_ & _ & Hp & Hd & _ & SM & BM & PM).
  split; [exact W|]. do 4 (split; [assumption|]). intros k b Hk. assert (V : valid_index [length bs] [k]) by (constructor; [apply nth_error_Some; congruence|constructor]). assert (Vb : nf_value tb n b) by (apply HV; now apply nth_error_In in Hk).
  destruct (PJ [k] V) as [[NZ _] RG]. split; [exact Vb|]. split; [|split; [exact NZ|intros P0 i j e Hi Hj; now apply RG]]. destruct (bwd_value gens invs E _ EG EI Vb) as (X & EX & SX & PX). exists X. split; [exact EX|].
  apply (agrees_pmeq p d (M gens invs E (w k)) X im [k]); [apply SM|exact SX| |exact (K [k] V)]. symmetry. etransitivity; [exact PX|]. apply BM. now apply HW.
Qed.
(** the coefficients of a product *)
Lemma product_fits gens invs E a b c t : rep_artin_gens_invs R = Ok (gens, invs) -> rep_id R = Ok E -> p = 0%Z -> nf_value tb n a -> nf_value tb n b -> nf_mul tb a b = Ok c ->
  (forall X, rep_evaluate_nf tb R c = Ok X -> forall i j e, in_dtype t (numcoef (mentry X i j) e)) -> forall i j e, i < d -> j < d -> in_dtype t (numcoef (mentry (M gens invs E (bwd a ++ bwd b)) i j) e).
Proof using EJ ED Hp1 n2 Ht.
  intros EG EI P0 Va Vb Ec HX i j e Hi Hj. destruct (Mfacts n r p R d gens invs E EJ ED EG EI) as (_ & _ & Hp & Hd & _ & SM & BM & PM).
  destruct (bwd_mul a b Va Vb) as (c' & Ec' & Vc & Bc). rewrite Ec in Ec'. injection Ec' as <-. destruct (bwd_value gens invs E c EG EI Vc) as (X & EX & SX & PX). specialize (HX X EX i j e).
  assert (Q : pmeq p X (M gens invs E (bwd a ++ bwd b))) by (etransitivity; [exact PX|]; now apply BM).
  apply (meq_ent (NI 0) (neqp p)) in Q; [|apply SX|apply SM]. destruct Q as (_ & _ & Q). pose proof SX as (_ & R1 & C1). specialize (Q i j ltac:(rewrite R1; lia) ltac:(rewrite C1; lia)). apply neqp_congr in Q. specialize (Q e). rewrite P0 in Q. apply Z.divide_0_l in Q.
  change (ent (NI 0) X i j) with (mentry X i j) in Q. change (ent (NI 0) (M gens invs E (bwd a ++ bwd b)) i j) with (mentry (M gens invs E (bwd a ++ bwd b)) i j) in Q. replace (numcoef (mentry (M gens invs E (bwd a ++ bwd b)) i j) e) with (numcoef (mentry X i j) e) by lia. exact HX.
Qed.
(** the degree of the image of a braid with at most len factors *)
Lemma images_depth t bs im len : IM t bs im -> (forall b, In b bs -> length (o_factors b) <= len) ->
  forall k i j e, k < length bs -> i < d -> j < d -> (len + 1) * (n * (n - 1)) + 1 <= e -> acoef im [k] i j e = 0%Z.
Proof using EJ ED Hp1 n2 Ht.
  intros HI HL k i j e Hk Hi Hj He. destruct (jones_all n r p R EJ) as (d' & gens & invs & E & _ & _ & _ & _ & ED' & EG & EI & _). rewrite ED in ED'. injection ED' as ED'. apply Nat2Z.inj in ED'. subst d'.
  destruct (Mfacts n r p R d gens invs E EJ ED EG EI) as (_ & _ & Hp & Hd & _ & SM & BM & PM). destruct (images_batch gens invs E t bs im EG EI HI) as ((W & I1 & I2 & I3 & I4 & K) & PJ & HV).
  assert (V : valid_index [length bs] [k]) by (constructor; [exact Hk|constructor]). assert (Hb : In (nth k bs (NFObj 0 0 [])) bs) by now apply nth_In. set (b := nth k bs _) in *. specialize (K [k] V). cbn [hd] in K. fold b in K.
  destruct (bwd_short b (HV b Hb)) as (q & v & Bv & Rv & Lv). specialize (HL b Hb).
  assert (K' : agrees p d (M gens invs E v) im [k]).
  { pose proof (agrees_twist n r p R d gens invs E EJ ED EG EI (- q)%Z (bwd b) im [k] K) as T. eapply agrees_pmeq; [apply SM|apply SM| |exact T]. apply BM. rewrite Bv, app_assoc, <- wpow_add by apply FTw_range. replace (- q + q)%Z with 0%Z by lia. reflexivity. }
  destruct (PJ [k] V) as [LD RG]. apply (depth gens invs E v im [k] i j e EG EI Rv K' LD RG Hi Hj). assert ((length (o_factors b) + 1) * (n * (n - 1)) <= (len + 1) * (n * (n - 1))) by (apply Nat.mul_le_mono_r; lia). lia.
Qed.
(** all products *)
Lemma outer_product t bs left sfx rights len : bs <> [] -> sfx <> [] -> IM t bs left -> IM t sfx rights -> (forall x, In x sfx -> length (o_factors x) <= len) ->
  (p <> 0%Z -> in_dtype t p /\ (Z.of_nat d * (Z.of_nat ((len + 1) * (n * (n - 1)) + 1) * ((p - 1) * (p - 1))) < 2 ^ (dbits t - 1))%Z) ->
  (p = 0%Z -> forall b x c X, In b bs -> In x sfx -> nf_mul tb b x = Ok c -> rep_evaluate_nf tb R c = Ok X -> forall i j e, in_dtype t (numcoef (mentry X i j) e)) ->
  exists C prods, polymat_mul p (outer_left left) (outer_right rights) = Ok C /\ mapM (fun '(x, b) => nf_mul tb b x) (list_prod sfx bs) = Ok prods /\ IM t prods (flatten C).
Proof using EJ ED Hp1 n2 Ht.
  intros NB NS IL IR HL BN BZ. destruct (jones_all n r p R EJ) as (d' & gens & invs & E & _ & _ & _ & _ & ED' & EG & EI & _). rewrite ED in ED'. injection ED' as ED'. apply Nat2Z.inj in ED'. subst d'.
  pose proof (images_depth t sfx rights len IR HL) as DR. destruct (images_batch gens invs E t bs left EG EI IL) as ((WL & L1 & L2 & L3 & L4 & KL) & PL & VL). destruct (images_batch gens invs E t sfx rights EG EI IR) as ((WR & R1 & R2 & R3 & R4 & KR) & PR & VR).
  set (b0 := NFObj 0 0 []) in *. set (N := length sfx) in *. set (M' := length bs) in *. assert (N1 : 1 <= N) by (destruct sfx; [contradiction|cbn in N; lia]). assert (M1 : 1 <= M') by (destruct bs; [contradiction|cbn in M'; lia]).
  destruct (outer_left_ok left M' L1 WL) as [WL' KL']. destruct (outer_right_ok rights N R1 WR) as [WR' KR'].
  assert (VI : forall ix, valid_index [N; M'] ix -> exists s b, ix = [s; b] /\ s < N /\ b < M').
  { intros ix V. inversion V as [|s N' l1 l2 Hs V2 E1 E2]; subst. inversion V2 as [|b M2 l3 l4 Hb V3 E3 E4]; subst. inversion V3; subst. eauto. }
  assert (V1 : forall ix, valid_index [1; M'] ix -> exists b, ix = [0; b] /\ b < M').
  { intros ix V. inversion V as [|s N' l1 l2 Hs V2 E1 E2]; subst. inversion V2 as [|b M2 l3 l4 Hb V3 E3 E4]; subst. inversion V3; subst. exists b. split; [repeat f_equal; lia|assumption]. }
  assert (V2 : forall ix, valid_index [N; 1] ix -> exists s, ix = [s; 0] /\ s < N).
  { intros ix V. inversion V as [|s N' l1 l2 Hs V2 E1 E2]; subst. inversion V2 as [|b M2 l3 l4 Hb V3 E3 E4]; subst. inversion V3; subst. exists s. split; [repeat f_equal; lia|assumption]. }
  destruct (bc_step n r p R d gens invs E EJ ED EG EI Hp1 t [1; M'] [N; 1] [N; M'] (outer_left left) (outer_right rights) (fun ix => bwd (nth (nth 1 ix 0) bs b0)) (fun ix => bwd (nth (nth 0 ix 0) sfx b0)) ((len + 1) * (n * (n - 1)) + 1)) as (C & EC & BC & PC).
  - unfold nitems. cbn [fold_right]. nia.
  - apply bc_outer.
  - split; [exact WL'|]. split; [cbn [outer_left apre]; now rewrite L1|]. do 3 (split; [assumption|]). intros ix V. destruct (V1 ix V) as (b & -> & Hb). cbn [nth]. specialize (KL [b] ltac:(constructor; [exact Hb|constructor])). cbn [hd] in KL. destruct KL as [s KL]. exists s. intros i j e Hi Hj. rewrite KL'. now apply KL.
  - intros ix V. destruct (V1 ix V) as (b & -> & Hb). destruct (PL [b] ltac:(constructor; [exact Hb|constructor])) as [[NZ _] RG]. split; [split; [|intros; lia]|intros i j e Hi Hj P0; rewrite KL'; now apply RG]. destruct NZ as (i & j & Hi & Hj & Q). exists i, j. rewrite KL'. auto.
  - split; [exact WR'|]. split; [cbn [outer_right apre]; now rewrite R1|]. do 3 (split; [assumption|]). intros ix V. destruct (V2 ix V) as (b & -> & Hb). cbn [nth]. specialize (KR [b] ltac:(constructor; [exact Hb|constructor])). cbn [hd] in KR. destruct KR as [s KR]. exists s. intros i j e Hi Hj. rewrite KR'. now apply KR.
  - intros ix V. destruct (V2 ix V) as (b & -> & Hb). destruct (PR [b] ltac:(constructor; [exact Hb|constructor])) as [[NZ _] RG]. split; [split; [|intros; lia]|intros i j e Hi Hj P0; rewrite KR'; now apply RG]. destruct NZ as (i & j & Hi & Hj & Q). exists i, j. rewrite KR'. auto.
  - intros ix V. destruct (V1 ix V) as (b & -> & Hb). cbn [nth]. apply bwd_denotes. apply VL. now apply nth_In.
  - intros ix V. destruct (V2 ix V) as (b & -> & Hb). cbn [nth]. apply bwd_denotes. apply VR. now apply nth_In.
  - intros P0. destruct (BN P0) as [B1 B2]. split; [exact B1|]. split; [exact B2|]. intros ix i j e V Hi Hj He. destruct (V2 ix V) as (b & -> & Hb). rewrite KR'. now apply DR.
  - intros P0 ix i j e V Hi Hj. destruct (VI ix V) as (s & b & -> & Hs & Hb). rewrite (op_left N M' s b Hs Hb), (op_right N M' s b Hs Hb). cbn [nth]. assert (Hib : In (nth b bs b0) bs) by now apply nth_In. assert (Hix : In (nth s sfx b0) sfx) by now apply nth_In.
    destruct (bwd_mul (nth b bs b0) (nth s sfx b0) (VL _ Hib) (VR _ Hix)) as (c & Ec & _). apply (product_fits gens invs E _ _ c t EG EI P0 (VL _ Hib) (VR _ Hix) Ec); auto. intros X EX i' j' e'. now apply (BZ P0 (nth b bs b0) (nth s sfx b0) c X).
  - destruct (PropsTLMor2.mapM_Forall2 (fun '(x, b) => nf_mul tb b x) (fun '(x, b) c => nf_mul tb b x = Ok c /\ nf_value tb n c /\ braid_eq n (bwd c) (bwd b ++ bwd x)) (list_prod sfx bs)) as [prods [EM FM]].
    { intros [x b] H. apply in_prod_iff in H. destruct H as [Hx Hb]. destruct (bwd_mul b x (VL b Hb) (VR x Hx)) as (c & Ec & K1). exists c. split; [exact Ec|]. split; [exact Ec|exact K1]. }
    exists C, prods. split; [exact EC|]. split; [exact EM|]. destruct BC as (WC & C1 & C2 & C3 & C4 & KC). destruct (flatten_ok C N M' C1 WC) as (WF & F1 & KF).
    assert (LP : length prods = N * M') by (rewrite (PropsTLMor2.Forall2_len _ _ _ FM); apply prod_length).
    assert (DEC : forall k, k < N * M' -> exists s b, k = s * M' + b /\ s < N /\ b < M'). { intros k Hk. exists (k / M'), (k mod M'). split; [pose proof (Nat.div_mod k M' ltac:(lia)); lia|]. split; [apply Nat.div_lt_upper_bound; lia|apply Nat.mod_upper_bound; lia]. }
    apply (batch_images gens invs E t prods (flatten C) (fun k => bwd (nth (k mod M') bs b0) ++ bwd (nth (k / M') sfx b0)) EG EI).
    + intros c Hc. apply In_nth_error in Hc. destruct Hc as [k Hk]. assert (Lk : k < length prods) by (apply nth_error_Some; congruence).
      destruct (nth_error (list_prod sfx bs) k) as [[x b]|] eqn:EP; [|apply nth_error_None in EP; rewrite prod_length in EP; unfold N, M' in *; lia]. destruct (PropsTLMor2.Forall2_nth_error _ _ _ FM k _ EP) as (c' & Ec' & _ & Vc & _). congruence.
    + intros k c Hk. assert (Lk : k < N * M') by (rewrite <- LP; apply nth_error_Some; congruence). destruct (DEC k Lk) as (s & b & -> & Hs & Hb).
      pose proof (nth_prod sfx bs s b Hb) as NP. rewrite (nth_error_nth' sfx b0 Hs), (nth_error_nth' bs b0 Hb) in NP. fold M' in NP. destruct (PropsTLMor2.Forall2_nth_error _ _ _ FM _ _ NP) as (c' & Ec' & _ & _ & Bc). rewrite Hk in Ec'. injection Ec' as <-.
      replace ((s * M' + b) mod M') with b by (rewrite Nat.add_comm, Nat.mod_add, Nat.mod_small by lia; reflexivity). replace ((s * M' + b) / M') with s by (rewrite Nat.add_comm, Nat.div_add, Nat.div_small by lia; reflexivity). exact Bc.
    + rewrite LP. split; [exact WF|]. split; [exact F1|]. do 3 (split; [assumption|]). intros ix V. destruct (valid1 _ _ V) as [k [-> Hk]]. cbn [hd]. destruct (DEC k Hk) as (s & b & -> & Hs & Hb).
      replace ((s * M' + b) mod M') with b by (rewrite Nat.add_comm, Nat.mod_add, Nat.mod_small by lia; reflexivity). replace ((s * M' + b) / M') with s by (rewrite Nat.add_comm, Nat.div_add, Nat.div_small by lia; reflexivity).
      specialize (KC [s; b] ltac:(constructor; [exact Hs|constructor; [exact Hb|constructor]])). cbn beta in KC. rewrite (op_left N M' s b Hs Hb), (op_right N M' s b Hs Hb) in KC. cbn [nth] in KC. destruct KC as [q KC]. exists q. intros i j e Hi Hj. rewrite KF. now apply KC.
    + rewrite LP. intros ix V. destruct (valid1 _ _ V) as [k [-> Hk]]. destruct (DEC k Hk) as (s & b & -> & Hs & Hb). destruct (PC [s; b] ltac:(constructor; [exact Hs|constructor; [exact Hb|constructor]])) as [[NZ _] RG]. split; [split; [|intros; lia]|intros i j e Hi Hj P0; rewrite KF; now apply RG]. destruct NZ as (i & j & Hi & Hj & Q). exists i, j. rewrite KF. auto.
Qed.
End I.
