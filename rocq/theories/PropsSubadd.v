(** PropsSubadd.v – C134: inf and sup of the inverse; projective lengths are subadditive,
    and one multiplication changes the projective length by at most r(n-r+1) times the
    canonical length of what is multiplied. *)
From Verif Require Import Base ModelPoly SpecPoly PolyTheory PropsPoly ModelTL SpecTL TLTheory TLCells PropsTL ModelMatrix SpecMatrix MatrixTheory ModelTLMor TLMorTheory PropsTLMor2 JonesTheory TLGens TLFlip MarkovTheory.
From Coq Require Import Ring Setoid Morphisms Permutation.
From Verif Require Import ModelPerm Germ GermNF GermAct GermBraid PermTheory WeakOrder SpecPerm SpecPermTheory PermWords ModelBraid SpecBraid BraidTheory FullTwistBraid FullTwist ModelRep SpecRep NumTheory RepTheory RepCanon PropsRep FullTwistRep ModelPolymat PropsPolymat3 PropsTwist PolyRepTheory PolyRepSpan EmbedTheory PropsStable TableTheory NFApi PermGerm PermTable PropsGNF PropsGNF2 ModelPolyRep ModelTracker PropsPolyRep4 TrackerRun2 PropsTracker2 ModelSearch PropsDesc2 PropsKernel PropsScalar PropsPower HalfTwist PropsReflect PropsReflect2 PropsDegree.
From Verif Require BurauWords BurauStable.
From Verif Require PropsSearch PropsSearch2.
Local Open Scope nat_scope.

(** ** inf and sup of the inverse *)
Lemma pos_mor n u v : braid_eq n u v -> positive n u -> positive n v.
Proof. intros E [x [X1 [X2 X3]]]. exists x. split; [exact X1|]. split; [exact X2|]. rewrite <- E. exact X3. Qed.
Lemma flipl_flipl n w : in_range n w -> flipl n (flipl n w) = w.
Proof. unfold flipl, in_range. induction 1 as [|[i e] w Hi Hw IH]; [reflexivity|]. cbn [map fst snd] in *. rewrite IH. do 2 f_equal. lia. Qed.
Lemma pos_conj1 n x k : k = 1%Z \/ k = (-1)%Z -> positive n x -> positive n (wpow (hw n) k ++ x ++ wpow (hw n) (- k)).
Proof.
  intros Hk (u & Ru & Pu & BE). exists (flipl n u). split; [now apply flipl_range|]. split; [unfold flipl; apply Forall_map; eapply Forall_impl; [|exact Pu]; auto|]. rewrite BE. destruct Hk as [-> | ->].
  - rewrite wpow_1. change (- (1))%Z with (-1)%Z. rewrite wpow_m1. pose proof (hw_flip n (flipl n u) (flipl_range n u Ru)) as K. rewrite (flipl_flipl n u Ru) in K. rewrite app_assoc, <- K, <- app_assoc, be_inv_r by apply hw_range. now rewrite app_nil_r.
  - change (- -1)%Z with 1%Z. rewrite wpow_1, wpow_m1, (hw_flip n u Ru), app_assoc, be_inv_l by apply hw_range. reflexivity.
Qed.
Lemma pos_conj n x k : positive n x -> positive n (wpow (hw n) k ++ x ++ wpow (hw n) (- k)).
Proof.
  intros P. induction k as [|k IH|k IH] using Z_ind2.
  - rewrite wpow_0. cbn [app Z.opp]. rewrite wpow_0, app_nil_r. exact P.
  - eapply pos_mor; [|apply (pos_conj1 n _ 1 ltac:(auto) IH)]. replace (k + 1)%Z with (1 + k)%Z by lia. replace (- (1 + k))%Z with (- k + - (1))%Z by lia. rewrite !wpow_add by apply hw_range. now rewrite !app_assoc.
  - eapply pos_mor; [|apply (pos_conj1 n _ (-1) ltac:(auto) IH)]. replace (k - 1)%Z with (-1 + k)%Z by lia. replace (- (-1 + k))%Z with (- k + - -1)%Z by lia. rewrite !wpow_add by apply hw_range. now rewrite !app_assoc.
Qed.
Lemma pos_swap n x k : in_range n x -> positive n (x ++ wpow (hw n) k) <-> positive n (wpow (hw n) k ++ x).
Proof.
  intros Rx. split; intros P.
  - eapply pos_mor; [|apply (pos_conj n _ k P)]. rewrite <- app_assoc, <- wpow_add by apply hw_range. replace (k + - k)%Z with 0%Z by lia. now rewrite wpow_0, app_nil_r.
  - eapply pos_mor; [|apply (pos_conj n _ (- k) P)]. rewrite !app_assoc, <- wpow_add by apply hw_range. replace (- k + k)%Z with 0%Z by lia. rewrite wpow_0. cbn [app]. now rewrite Z.opp_involutive.
Qed.

(** C134.  The inverse has the opposite inf and sup, and the same canonical length. *)
Theorem C134_inverse n tb b i : 2 <= n -> gnf_table n tb -> nf_value tb n b -> nf_inv tb b = Ok i ->
  inf i = (- sup b)%Z /\ sup i = (- inf b)%Z /\ canonical_length i = canonical_length b.
Proof.
  intros n2 Ht Vb Ei. pose proof (gnf_table_ptab n tb Ht) as Etb. pose proof (ptab_ok n n2) as TK.
  destruct (api_word _ _ _ _ _ _ _ _ _ TK tb Etb b Vb) as (u & Eu & Hu & _ & Db). pose proof (word_ok_range n u Hu) as Ru. set (w := expand u) in *. clearbody w.
  destruct (api_inv _ _ _ _ _ _ _ _ _ TK tb Etb b w Db) as (i' & Ei' & Di). rewrite Ei in Ei'. injection Ei' as <-. assert (Ri : in_range n (winv w)) by now apply in_range_winv.
  pose proof (delta_lifts n ltac:(lia)) as LD. destruct (C54_inf_sup n tb b w _ n2 Ht Db LD) as (B1 & B2 & B3). destruct (C54_inf_sup n tb i (winv w) _ n2 Ht Di LD) as (I1 & I2 & I3). rewrite winv_winv in I2.
  assert (Q1 : inf i = (- sup b)%Z).
  { assert (K : forall k, (k <= inf i <-> sup b <= - k)%Z) by (intros k; rewrite <- I1, <- B2; symmetry; now apply pos_swap). pose proof (proj1 (K (inf i)) (Z.le_refl _)). pose proof (proj2 (K (- sup b)%Z)). lia. }
  assert (Q2 : sup i = (- inf b)%Z).
  { assert (K : forall k, (sup i <= k <-> - k <= inf b)%Z) by (intros k; rewrite <- I2, <- B1, Z.opp_involutive; now apply pos_swap). pose proof (proj1 (K (sup i)) (Z.le_refl _)). pose proof (proj2 (K (- inf b)%Z)). lia. }
  split; [exact Q1|]. split; [exact Q2|]. lia.
Qed.

(** ** products *)
Lemma zsum_div p m f : (forall k, k < m -> (p | f k)%Z) -> (p | SpecPoly.zsum m f)%Z.
Proof. induction m as [|m IH]; intros H; [apply Z.divide_0_r|]. cbn [SpecPoly.zsum]. apply Z.divide_add_r; [apply IH; auto|apply H; lia]. Qed.
Lemma L_div p P g : (forall e, (p | coef P e * g e)%Z) -> (p | L P g)%Z.
Proof. intros H. unfold L. rewrite (lin_of_coeff _ _ _ (lval P) (length (lcoeffs P))) by lia. apply zsum_div. intros k _. apply H. Qed.
Lemma nmul_div p x y e : (forall a, (p | numcoef x a)%Z \/ (p | numcoef y (e - a))%Z) -> (p | numcoef (nmul x y) e)%Z.
Proof.
  intros H. rewrite numcoef_coerce, (coerce_mul x y e), coef_L, L_mul. apply L_div. intros a. destruct (H a) as [K|K]; [apply Z.divide_mul_l; now rewrite <- numcoef_coerce|].
  apply Z.divide_mul_r, L_div. intros b. unfold delta. destruct (Z.eqb_spec (a + b) e) as [<-|]; [|rewrite Z.mul_0_r; apply Z.divide_0_r]. rewrite Z.mul_1_r, <- numcoef_coerce. now replace b with (a + b - a)%Z by lia.
Qed.
Lemma zsum_div' p m f : (forall k, k < m -> (p | f k)%Z) -> (p | BurauWords.zsum m f)%Z.
Proof. induction m as [|m IH]; intros H; [apply Z.divide_0_r|]. cbn [BurauWords.zsum]. apply Z.divide_add_r; [apply IH; auto|apply H; lia]. Qed.

Definition within (p : Z) (d : nat) (X : mat num) (lo hi : Z) : Prop := forall i j e, i < d -> j < d -> ~ (p | numcoef (mentry X i j) e)%Z -> (lo <= e <= hi)%Z.
Lemma product_within p d A B P C la ha lb hb : sq d A -> sq d B -> sq d C -> nmat_mul A B = Ok P -> mat_congr p C P -> within p d A la ha -> within p d B lb hb -> within p d C (la + lb) (ha + hb).
Proof.
  intros SA SB SC EP K WA WB i j e Hi Hj N. assert (EP' := nmul_ok d A B SA SB); rewrite EP' in EP; clear EP'. injection EP as <-.
  assert (SP : sq d (MatrixTheory.prod (NI 0) nadd nmul A B)) by exact (sq_pr d A B SA SB).
  apply pmeq_congr in K. apply (meq_ent (NI 0) (neqp p)) in K; [|apply SC|apply SP]. destruct K as (_ & _ & K). destruct SA as (_ & RA & CA), SB as (_ & RB & CB), SC as (_ & RC & CC).
  specialize (K i j ltac:(lia) ltac:(lia)). apply neqp_congr in K. specialize (K e). change (ent (NI 0) C i j) with (mentry C i j) in K.
  unfold MatrixTheory.prod in K. rewrite prod_ent in K by lia. rewrite BurauWords.numcoef_rsum in K.
  destruct (Z_le_dec (la + lb) e) as [L|L]; [destruct (Z_le_dec e (ha + hb)) as [U|U]; [lia|]|]; exfalso; apply N;
    match type of K with (_ | _ - ?z)%Z => assert (D : (p | z)%Z);
      [|replace (numcoef (mentry C i j) e) with (numcoef (mentry C i j) e - z + z)%Z by lia; now apply Z.divide_add_r] end;
    apply zsum_div'; intros k Hk; apply nmul_div; intros a.
  - destruct (Znumtheory.Zdivide_dec p (numcoef (mentry A i k) a)) as [|NA]; [now left|]. destruct (Znumtheory.Zdivide_dec p (numcoef (mentry B k j) (e - a))) as [|NB]; [now right|]. specialize (WA i k a Hi ltac:(lia) NA). specialize (WB k j _ ltac:(lia) Hj NB). lia.
  - destruct (Znumtheory.Zdivide_dec p (numcoef (mentry A i k) a)) as [|NA]; [now left|]. destruct (Znumtheory.Zdivide_dec p (numcoef (mentry B k j) (e - a))) as [|NB]; [now right|]. specialize (WA i k a Hi ltac:(lia) NA). specialize (WB k j _ ltac:(lia) Hj NB). lia.
Qed.
Lemma span_within p d X v : rep_span p d X v -> exists s, within p d X s (s + v - 1).
Proof. intros (s & A & _). exists s. intros i j e Hi Hj N. specialize (A i j e Hi Hj N). lia. Qed.
Lemma within_span p d X v lo hi : rep_span p d X v -> within p d X lo hi -> (v <= hi - lo + 1)%Z.
Proof. intros (s & _ & (i & j & Hi & Hj & N) & (i' & j' & Hi' & Hj' & N')) W. pose proof (W _ _ _ Hi Hj N). pose proof (W _ _ _ Hi' Hj' N'). lia. Qed.

Lemma nf_sq n r p R tb d b X : 2 <= n -> gnf_table n tb -> jones_rep n r p = Ok R -> rep_dimension R = Ok (Z.of_nat d) -> nf_value tb n b -> rep_evaluate_nf tb R b = Ok X -> sq d X.
Proof.
  intros n2 Ht EJ ED Vb EX. destruct (api_word _ _ _ _ _ _ _ _ _ (ptab_ok n n2) tb (gnf_table_ptab n tb Ht) b Vb) as (u & Eu & Hu & _). destruct (entry_Y n r p R d EJ ED u Hu) as (A & EA & SA & _).
  unfold rep_evaluate_nf in EX. rewrite Eu in EX. cbn [bind] in EX. rewrite EX in EA. injection EA as <-. now apply sq_square.
Qed.
Lemma nf_product n r p R tb d a b c A B C la ha lb hb : 2 <= n -> gnf_table n tb -> jones_rep n r p = Ok R -> rep_dimension R = Ok (Z.of_nat d) -> nf_value tb n a -> nf_value tb n b ->
  nf_mul tb a b = Ok c -> rep_evaluate_nf tb R a = Ok A -> rep_evaluate_nf tb R b = Ok B -> rep_evaluate_nf tb R c = Ok C -> within p d A la ha -> within p d B lb hb -> within p d C (la + lb) (ha + hb).
Proof.
  intros n2 Ht EJ ED Va Vb Ec EA EB EC WA WB. destruct (C59_gnf_mul n r p R tb a b EJ n2 Ht Va Vb) as (c' & A' & B' & C' & P & Ec' & EA' & EB' & EC' & EP & K). rewrite Ec in Ec'. injection Ec' as <-. rewrite EA in EA'. injection EA' as <-. rewrite EB in EB'. injection EB' as <-. rewrite EC in EC'. injection EC' as <-.
  assert (Vc : nf_value tb n c) by (destruct (C45_gnf_mul n tb a b n2 Ht Va Vb) as (c' & ? & ? & ? & Ec' & Vc & _); rewrite Ec in Ec'; now injection Ec' as <-).
  exact (product_within p d A B P C la ha lb hb (nf_sq n r p R tb d a A n2 Ht EJ ED Va EA) (nf_sq n r p R tb d b B n2 Ht EJ ED Vb EB) (nf_sq n r p R tb d c C n2 Ht EJ ED Vc EC) EP K WA WB).
Qed.

(** Projective lengths are subadditive: projlen(ab) <= projlen(a) + projlen(b) - 1. *)
Theorem C134_subadditive n r p R tb d a b c A B C u v w : 2 <= n -> gnf_table n tb -> jones_rep n r p = Ok R -> rep_dimension R = Ok (Z.of_nat d) -> nf_value tb n a -> nf_value tb n b ->
  nf_mul tb a b = Ok c -> rep_evaluate_nf tb R a = Ok A -> rep_evaluate_nf tb R b = Ok B -> rep_evaluate_nf tb R c = Ok C ->
  rep_span p d A u -> rep_span p d B v -> rep_span p d C w -> (w <= u + v - 1)%Z.
Proof.
  intros n2 Ht EJ ED Va Vb Ec EA EB EC SA SB SC. destruct (span_within _ _ _ _ SA) as [s WA], (span_within _ _ _ _ SB) as [t WB].
  pose proof (within_span _ _ _ _ _ _ SC (nf_product n r p R tb d a b c A B C _ _ _ _ n2 Ht EJ ED Va Vb Ec EA EB EC WA WB)). lia.
Qed.
(** Multiplying by b changes the projective length by at most r(n-r+1) times the canonical
    length of b, upwards or downwards: one step of the search moves it by at most
    r(n-r+1) times the number of factors appended. *)
Theorem C134_step n r p R tb d a b c A C u w : 2 <= n -> gnf_table n tb -> jones_rep n r p = Ok R -> rep_dimension R = Ok (Z.of_nat d) -> nf_value tb n a -> nf_value tb n b ->
  nf_mul tb a b = Ok c -> rep_evaluate_nf tb R a = Ok A -> rep_evaluate_nf tb R c = Ok C -> rep_span p d A u -> rep_span p d C w ->
  (Z.abs (w - u) <= Z.of_nat (r * (n - r + 1)) * Z.of_nat (canonical_length b))%Z.
Proof.
  intros n2 Ht EJ ED Va Vb Ec EA EC SA SC. destruct (C45_gnf_mul n tb a b n2 Ht Va Vb) as (c' & ? & ? & ? & Ec' & Vc & _). rewrite Ec in Ec'. injection Ec' as <-.
  destruct (C59_gnf_mul n r p R tb a b EJ n2 Ht Va Vb) as (_ & _ & B & _ & _ & _ & _ & EB & _).
  assert (WB : within p d B (Z.of_nat (r * (n - r + 1)) * inf b) (Z.of_nat (r * (n - r + 1)) * sup b)) by exact (C133_degrees n r p tb R d b B n2 Ht EJ ED Vb EB).
  destruct (C45_gnf_inverse n tb b n2 Ht Vb) as (i & e & Ei & Vi & Ee & I1 & I2). destruct (C134_inverse n tb b i n2 Ht Vb Ei) as (Q1 & Q2 & _).
  destruct (C59_gnf_mul n r p R tb c i EJ n2 Ht Vc Vi) as (a' & _ & I & A' & _ & Ea' & _ & EI & EA' & _).
  assert (WI : within p d I (Z.of_nat (r * (n - r + 1)) * inf i) (Z.of_nat (r * (n - r + 1)) * sup i)) by exact (C133_degrees n r p tb R d i I n2 Ht EJ ED Vi EI).
  assert (Qa : a' = a).
  { destruct (C45_gnf_assoc n tb a b i n2 Ht Va Vb Vi) as (c' & e' & a'' & F1 & F2 & F3 & F4). rewrite Ec in F1. injection F1 as <-. rewrite I1 in F2. injection F2 as <-. rewrite Ea' in F3. injection F3 as <-.
    destruct (C45_gnf_identity n tb a n2 Ht Va) as (e' & Ee' & _ & J1 & _). rewrite Ee in Ee'. injection Ee' as <-. rewrite J1 in F4. now injection F4 as <-. }
  rewrite Qa in *.
  rewrite EA in EA'. injection EA' as <-.
  destruct (span_within _ _ _ _ SA) as [s WA], (span_within _ _ _ _ SC) as [t WC].
  pose proof (within_span _ _ _ _ _ _ SC (nf_product n r p R tb d a b c A B C _ _ _ _ n2 Ht EJ ED Va Vb Ec EA EB EC WA WB)) as U1.
  pose proof (within_span _ _ _ _ _ _ SA (nf_product n r p R tb d c i a C I A _ _ _ _ n2 Ht EJ ED Vc Vi Ea' EC EI EA WC WI)) as U2.
  rewrite Q1, Q2 in U2. unfold canonical_length, sup, inf in *. clear - U1 U2. set (k := Z.of_nat (r * (n - r + 1))) in *. apply Z.abs_le. split; nia.
Qed.

(** The projective length of an image exists (and is unique, C133's tags): modulo any
    p <> 1 some power of v occurs. *)
Definition occursb (p : Z) (d : nat) (X : mat num) (e : Z) : bool :=
  existsb (fun i => existsb (fun j => negb (if Znumtheory.Zdivide_dec p (numcoef (mentry X i j) e) then true else false)) (seq 0 d)) (seq 0 d).
Lemma occursb_iff p d X e : occursb p d X e = true <-> exists i j, i < d /\ j < d /\ ~ (p | numcoef (mentry X i j) e)%Z.
Proof.
  unfold occursb. rewrite existsb_exists. split.
  - intros (i & Hi & K). apply existsb_exists in K as (j & Hj & K). apply in_seq in Hi, Hj. exists i, j. split; [lia|]. split; [lia|]. destruct (Znumtheory.Zdivide_dec _ _); [discriminate|assumption].
  - intros (i & j & Hi & Hj & N). exists i. split; [apply in_seq; lia|]. apply existsb_exists. exists j. split; [apply in_seq; lia|]. destruct (Znumtheory.Zdivide_dec _ _); [contradiction|reflexivity].
Qed.
Lemma least_true (f : Z -> bool) e0 lo : f e0 = true -> (forall e, f e = true -> (lo <= e)%Z) -> exists s, f s = true /\ forall e, f e = true -> (s <= e)%Z.
Proof.
  intros F. remember (Z.to_nat (e0 - lo)) as k eqn:Ek. revert lo Ek. induction k as [|k IH]; intros lo Ek L.
  - pose proof (L e0 F). exists e0. split; [exact F|]. intros e Fe. specialize (L e Fe). lia.
  - destruct (f lo) eqn:Fl; [exists lo; auto|]. apply (IH (lo + 1)%Z); [lia|]. intros e Fe. specialize (L e Fe). assert (e <> lo) by congruence. lia.
Qed.
Lemma within_exists p d X lo hi : within p d X lo hi -> (exists i j e, i < d /\ j < d /\ ~ (p | numcoef (mentry X i j) e)%Z) -> exists v, rep_span p d X v.
Proof.
  intros W (i & j & e & Hi & Hj & N). assert (O : occursb p d X e = true) by (apply occursb_iff; eauto).
  assert (WW : forall e, occursb p d X e = true -> (lo <= e <= hi)%Z) by (intros x Hx; apply occursb_iff in Hx as (? & ? & ? & ? & ?); eauto).
  destruct (least_true _ e lo O) as (s & Fs & Ls); [intros x Hx; now apply WW|].
  destruct (least_true (fun x => occursb p d X (- x)) (- e) (- hi)) as (t & Ft & Lt); [now rewrite Z.opp_involutive|intros x Hx; apply WW in Hx; lia|].
  exists (- t - s + 1)%Z, s. split; [|split].
  - intros i' j' x Hi' Hj' N'. assert (Q : occursb p d X x = true) by (apply occursb_iff; eauto). specialize (Ls x Q). specialize (Lt (- x)%Z). cbv beta in Lt. rewrite Z.opp_involutive in Lt. specialize (Lt Q). lia.
  - apply occursb_iff in Fs. exact Fs.
  - apply occursb_iff in Ft. destruct Ft as (i' & j' & ? & ? & ?). exists i', j'. replace (s + (- t - s + 1) - 1)%Z with (- t)%Z by lia. auto.
Qed.
Theorem C134_exists n r p R tb d b X : 2 <= n -> gnf_table n tb -> p <> 1%Z -> jones_rep n r p = Ok R -> rep_dimension R = Ok (Z.of_nat d) -> nf_value tb n b -> rep_evaluate_nf tb R b = Ok X ->
  exists v, rep_span p d X v /\ (1 <= v)%Z /\ forall v', rep_span p d X v' -> v' = v.
Proof.
  intros n2 Ht Hp1 EJ ED Vb EX. assert (W : within p d X (Z.of_nat (r * (n - r + 1)) * inf b) (Z.of_nat (r * (n - r + 1)) * sup b)) by exact (C133_degrees n r p tb R d b X n2 Ht EJ ED Vb EX).
  destruct (api_word _ _ _ _ _ _ _ _ _ (ptab_ok n n2) tb (gnf_table_ptab n tb Ht) b Vb) as (u & Eu & Hu & Fu & _). unfold rep_evaluate_nf in EX. rewrite Eu in EX. cbn [bind] in EX.
  destruct (jones_all n r p R EJ) as (d' & gens & invs & E & _ & _ & _ & _ & _ & EG & EI & _).
  destruct (value_ok n r p R d gens invs E EJ ED EG EI Hp1 u (Logic.conj Hu Fu)) as (X' & EX' & _ & _ & O & _). rewrite EX in EX'. injection EX' as <-.
  destruct (within_exists p d X _ _ W O) as (v & Sv). exists v. split; [exact Sv|]. split; [|intros v' Sv'; now apply (PropsSearch2.rep_span_unique p d X)].
  destruct Sv as (s & K & (i1 & j1 & Hi1 & Hj1 & N1) & _). specialize (K _ _ _ Hi1 Hj1 N1). lia.
Qed.

(** a braid whose image has projective length u is at least (u - 1) / (r(n-r+1)) canonical
    factors away from every braid of projective length 1 *)
Theorem C134_distance n r p R tb d a b c A C u : 2 <= n -> gnf_table n tb -> jones_rep n r p = Ok R -> rep_dimension R = Ok (Z.of_nat d) -> nf_value tb n a -> nf_value tb n b ->
  nf_mul tb a b = Ok c -> rep_evaluate_nf tb R a = Ok A -> rep_evaluate_nf tb R c = Ok C -> rep_span p d A u -> rep_span p d C 1 ->
  (u - 1 <= Z.of_nat (r * (n - r + 1)) * Z.of_nat (canonical_length b))%Z.
Proof. intros n2 Ht EJ ED Va Vb Ec EA EC SA SC. pose proof (C134_step n r p R tb d a b c A C u 1 n2 Ht EJ ED Va Vb Ec EA EC SA SC). lia. Qed.

(** a = s1 s2^-1 and b = s3 s1 in B_4: everything the theorems assume exists; b has
    canonical length 1 (s1 s3 is one factor), a has length 2 *)
Example C134_case : exists R a b c A B C u v w, gnf_table 4 PropsSearch2.tb4 /\ jones_rep 4 1 2 = Ok R /\ rep_dimension R = Ok (Z.of_nat 3) /\ nf_value PropsSearch2.tb4 4 a /\ nf_value PropsSearch2.tb4 4 b /\
  canonical_length a = 2 /\ canonical_length b = 1 /\ nf_mul PropsSearch2.tb4 a b = Ok c /\ rep_evaluate_nf PropsSearch2.tb4 R a = Ok A /\ rep_evaluate_nf PropsSearch2.tb4 R b = Ok B /\ rep_evaluate_nf PropsSearch2.tb4 R c = Ok C /\
  rep_span 2 3 A u /\ rep_span 2 3 B v /\ rep_span 2 3 C w /\ (w <= u + v - 1)%Z /\ (Z.abs (w - u) <= 4)%Z.
Proof.
  assert (exists R, jones_rep 4 1 2 = Ok R /\ rep_dimension R = Ok (Z.of_nat 3)) as (R & EJ & ED) by (eexists; split; vm_compute; reflexivity). pose proof PropsSearch2.C100_case_table as G. pose proof (gnf_table_ptab 4 _ G) as Etb. pose proof (ptab_ok 4 ltac:(lia)) as TK.
  set (wa := [(0, 1); (1, -1)]%Z). set (wb := [(2, 1); (0, 1)]%Z). assert (Ha : word_ok 4 wa) by (repeat constructor; cbn; lia). assert (Hb : word_ok 4 wb) by (repeat constructor; cbn; lia).
  destruct (api_from_word _ _ _ _ _ _ _ _ _ TK PropsSearch2.tb4 Etb wa Ha) as (a & Ea & Da). destruct (api_from_word _ _ _ _ _ _ _ _ _ TK PropsSearch2.tb4 Etb wb Hb) as (b & Eb & Db).
  destruct Da as (Va & _), Db as (Vb & _). destruct (C59_gnf_mul 4 1 2 R PropsSearch2.tb4 a b EJ ltac:(lia) G Va Vb) as (c & A & B & C & _ & Ec & EA & EB & EC & _).
  assert (Vc : nf_value PropsSearch2.tb4 4 c) by (destruct (C45_gnf_mul 4 PropsSearch2.tb4 a b ltac:(lia) G Va Vb) as (c' & ? & ? & ? & Ec' & Vc & _); rewrite Ec in Ec'; now injection Ec' as <-).
  destruct (C134_exists 4 1 2 R PropsSearch2.tb4 3 a A ltac:(lia) G ltac:(lia) EJ ED Va EA) as (u & Su & _). destruct (C134_exists 4 1 2 R PropsSearch2.tb4 3 b B ltac:(lia) G ltac:(lia) EJ ED Vb EB) as (v & Sv & _). destruct (C134_exists 4 1 2 R PropsSearch2.tb4 3 c C ltac:(lia) G ltac:(lia) EJ ED Vc EC) as (w & Sw & _).
  assert (La : canonical_length a = 2). { assert (Q : match from_artin_word PropsSearch2.tb4 4 wa with Ok x => canonical_length x = 2 | Err _ => False end) by (vm_compute; reflexivity). rewrite Ea in Q. exact Q. }
  assert (Lb : canonical_length b = 1). { assert (Q : match from_artin_word PropsSearch2.tb4 4 wb with Ok x => canonical_length x = 1 | Err _ => False end) by (vm_compute; reflexivity). rewrite Eb in Q. exact Q. }
  exists R, a, b, c, A, B, C, u, v, w. repeat (split; [assumption|]). split; [exact (C134_subadditive 4 1 2 R PropsSearch2.tb4 3 a b c A B C u v w ltac:(lia) G EJ ED Va Vb Ec EA EB EC Su Sv Sw)|].
  pose proof (C134_step 4 1 2 R PropsSearch2.tb4 3 a b c A C u w ltac:(lia) G EJ ED Va Vb Ec EA EC Su Sw) as K. rewrite Lb in K. change (Z.of_nat (1 * (4 - 1 + 1)) * Z.of_nat 1)%Z with 4%Z in K. exact K.
Qed.
(** a braid with sup <> -inf: the two are exchanged up to sign *)
Example C134_case_inverse : match from_artin_word PropsSearch2.tb4 4 [(0, 1); (0, 1); (1, 1); (2, -1)]%Z with Ok b => match nf_inv PropsSearch2.tb4 b with Ok i => inf i = (- sup b)%Z /\ sup i = (- inf b)%Z /\ sup b <> (- inf b)%Z | Err _ => False end | Err _ => False end.
Proof. vm_compute. repeat split. discriminate. Qed.
