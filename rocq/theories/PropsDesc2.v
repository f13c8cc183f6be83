(** PropsDesc2.v – C76 for braidsearch.Tracker: nf_descendants offers the products of
    every stored braid with every prefix of every suffix, each next to its image. *)
From Verif Require Import Base ModelPoly SpecPoly PolyTheory PropsPoly ModelMatrix SpecMatrix MatrixTheory NumTheory ModelPolymat SpecPolymat PolymatTheory PropsPolymat PropsPolymat2 PropsPolymat3.
From Coq Require Import Permutation QArith_base FinFun.
From Verif Require Import ModelPerm Germ GermNF GermAct GermBraid PermTheory WeakOrder PermWords SpecBraid BraidTheory FullTwistBraid FullTwist ModelBraid ModelTL ModelTLMor ModelRep SpecRep RepTheory RepCanon PropsRep PropsTwist ModelPolyRep TableTheory NFApi PermGerm PermTable PropsGNF PropsGNF2 PolyRepTheory PolyRepSpan PropsPolyRep PropsPolyRep2 JSTheory PropsJS DescTheory ModelTracker DescTheory2 DescTheory3.
From Verif Require Import SpecTracker TrackerTheory TrackerRun PropsTracker TrackerRun2 PropsTracker2 PropsDesc.
From Verif Require PropsSearch PropsExtra.

Local Open Scope nat_scope.

(** ** packing items of a batch *)
Lemma bcast_id N : broadcasts [N] [N] [N].
Proof. split; [|split; [reflexivity|]]; intros k; [now left|]. destruct (Nat.eqb_spec (axis [N] k) 1); auto. Qed.
Lemma pack_images n p R tb d t bs A idxs bs' N : 0 < d -> apre A = [N] -> images_of n p R tb d t bs (take_items A (length bs)) -> mapM (get bs) idxs = Ok bs' -> idxs <> [] ->
  exists ls left, mapM (fun i => arr_item A (Z.of_nat i)) idxs = Ok ls /\ pack ls = Ok left /\ images_of n p R tb d t bs' left.
Proof.
  intros Hd PA (W & I1 & I2 & I3 & I4 & K) E NE. set (B := take_items A (length bs)) in *. apply mapM_get in E. pose proof (PropsTLMor2.Forall2_len _ _ _ E) as LE.
  set (f := fun i => mkA [] d d (aD B) t [block B [i]]).
  assert (LA : length bs <= length (ablocks A)) by (unfold B in I1; cbn [take_items apre] in I1; injection I1 as I1; lia).
  assert (HB : forall i, In i idxs -> i < length bs). { intros i Hi. apply In_nth_error in Hi. destruct Hi as [k Hk]. destruct (PropsTLMor2.Forall2_nth_error _ _ _ E k i Hk) as (y & _ & Hy). apply nth_error_Some. congruence. }
  assert (EL : mapM (fun i => arr_item A (Z.of_nat i)) idxs = Ok (map f idxs)).
  { apply mapM_ok. intros i Hi. specialize (HB i Hi).
    assert (EB : block B [i] = nth i (ablocks A) []). { unfold block. rewrite I1. replace (ravel [length bs] [i]) with i by (unfold ravel; cbn; lia). unfold B. cbn [take_items ablocks]. erewrite nth_error_nth; [reflexivity|]. rewrite nth_error_firstn by exact HB. apply nth_error_nth'. lia. }
    unfold arr_item. rewrite PA, pyget_nat, (get_ok _ _ []) by lia. cbn [bind]. unfold f. rewrite EB. change (aI B) with (aI A) in I2. change (aJ B) with (aJ A) in I3. change (adt B) with (adt A) in I4. change (aD B) with (aD A). now rewrite I2, I3, I4. }
  assert (WI : forall i, i < length bs -> wfa (f i) /\ forall a c e, a < d -> c < d -> acoef (f i) [] a c e = acoef B [i] a c e).
  { intros i Hi. assert (V : valid_index (apre B) [i]) by (rewrite I1; constructor; [exact Hi|constructor]). unfold f. rewrite <- I4. replace (mkA [] d d (aD B) (adt B) [block B [i]]) with (mkA [] (aI B) (aJ B) (aD B) (adt B) [block B [i]]) by now rewrite I2, I3. split; [apply (item_acoef B i 0 0 0 W V); lia|]. intros a c e Ha Hc. apply item_acoef; auto; lia. }
  destruct idxs as [|i0 idxs]; [contradiction|]. destruct (C67_pack (f i0) (map f idxs)) as (P & EP & WP & P1 & P2 & P3 & P4 & PK & _).
  - apply Forall_forall. intros X HX. change (f i0 :: map f idxs) with (map f (i0 :: idxs)) in HX. apply in_map_iff in HX. destruct HX as (i & <- & Hi). split; [apply WI; now apply HB|]. auto.
  - intros X a c e HX Ha Hc. change (f i0 :: map f idxs) with (map f (i0 :: idxs)) in HX. apply in_map_iff in HX. destruct HX as (i & <- & Hi). change (adt (f i0)) with (adt (f i)). apply acoef_range; [apply WI; now apply HB|constructor|exact Ha|exact Hc].
  - exists (map f (i0 :: idxs)), P. split; [exact EL|]. split; [exact EP|]. change (f i0 :: map f idxs) with (map f (i0 :: idxs)) in *. cbn [f aI aJ adt] in *. split; [exact WP|]. rewrite map_length in *. split; [rewrite P1, LE; reflexivity|]. do 3 (split; [assumption|]).
    intros k b Hk. assert (Lk : k < length bs') by (apply nth_error_Some; congruence). destruct (nth_error (i0 :: idxs) k) as [i|] eqn:Ei; [|apply nth_error_None in Ei; lia].
    destruct (PropsTLMor2.Forall2_nth_error _ _ _ E k i Ei) as (b' & Eb & Hb). rewrite Hk in Eb. injection Eb as <-. assert (Li : i < length bs) by (apply nth_error_Some; congruence).
    assert (AC : forall a c e, a < d -> c < d -> acoef P [k] a c e = acoef B [i] a c e).
    { intros a c e Ha Hc. rewrite (PK k) by (auto; lia). rewrite (nth_indep _ A_default (f 0)) by (rewrite map_length; lia). rewrite map_nth, (nth_error_nth _ _ _ Ei). now apply WI. }
    destruct (K i b Hb) as (K1 & (X & EX & s & HX) & (a & a' & Ha & Ha' & HN) & KR). split; [exact K1|]. split; [|split].
    + exists X. split; [exact EX|]. exists s. intros a1 a2 e H1 H2. rewrite AC; auto.
    + exists a, a'. rewrite AC; auto.
    + intros P0 a1 a2 e H1 H2. rewrite AC; auto.
Qed.

(** ** products item by item *)
Lemma pair_product n r p R d tb t bs left ys rights len : jones_rep n r p = Ok R -> rep_dimension R = Ok (Z.of_nat d) -> p <> 1%Z -> 2 <= n -> gnf_table n tb ->
  bs <> [] -> length ys = length bs -> images_of n p R tb d t bs left -> images_of n p R tb d t ys rights -> (forall y, In y ys -> length (o_factors y) <= len) ->
  (p <> 0%Z -> in_dtype t p /\ (Z.of_nat d * (Z.of_nat ((len + 1) * (n * (n - 1)) + 1) * ((p - 1) * (p - 1))) < 2 ^ (dbits t - 1))%Z) ->
  (p = 0%Z -> forall b y c X, In (b, y) (combine bs ys) -> nf_mul tb b y = Ok c -> rep_evaluate_nf tb R c = Ok X -> forall i j e, in_dtype t (numcoef (mentry X i j) e)) ->
  exists C prods, polymat_mul p left rights = Ok C /\ mapM (fun '(b, y) => nf_mul tb b y) (combine bs ys) = Ok prods /\ images_of n p R tb d t prods C.
Proof.
  intros EJ ED Hp1 n2 Ht NB LY IL IR HL BN BZ. destruct (jones_all n r p R EJ) as (d' & gens & invs & E & _ & _ & _ & _ & ED' & EG & EI & _). rewrite ED in ED'. injection ED' as ED'. apply Nat2Z.inj in ED'. subst d'.
  pose proof (images_depth n r p R d tb EJ ED Hp1 n2 Ht t ys rights len IR HL) as DR. destruct (images_batch n r p R d tb EJ ED Hp1 n2 Ht gens invs E t bs left EG EI IL) as (BL & PL & VL). destruct (images_batch n r p R d tb EJ ED Hp1 n2 Ht gens invs E t ys rights EG EI IR) as (BR & PR & VR). rewrite LY in BR, PR, DR.
  set (b0 := NFObj 0 0 []) in *. set (N := length bs) in *. assert (N1 : 1 <= N) by (destruct bs; [contradiction|cbn in N; lia]).
  destruct (bc_step n r p R d gens invs E EJ ED EG EI Hp1 t [N] [N] [N] left rights (fun ix => bwd tb (nth (hd 0 ix) bs b0)) (fun ix => bwd tb (nth (hd 0 ix) ys b0)) ((len + 1) * (n * (n - 1)) + 1)) as (C & EC & BC & PC); auto.
  - unfold nitems. cbn [fold_right]. lia.
  - apply bcast_id.
  - intros ix V. destruct (valid1 _ _ V) as [k [-> Hk]]. cbn [hd]. apply (bwd_denotes n tb n2 Ht). apply VL. now apply nth_In.
  - intros ix V. destruct (valid1 _ _ V) as [k [-> Hk]]. cbn [hd]. apply (bwd_denotes n tb n2 Ht). apply VR. apply nth_In. lia.
  - intros P0. destruct (BN P0) as [B1 B2]. split; [exact B1|]. split; [exact B2|]. intros ix i j e V Hi Hj He. destruct (valid1 _ _ V) as [k [-> Hk]]. now apply DR.
  - intros P0 ix i j e V Hi Hj. rewrite (operand_self _ _ V). destruct (valid1 _ _ V) as [k [-> Hk]]. cbn [hd]. assert (Hib : In (nth k bs b0) bs) by now apply nth_In. assert (Hix : In (nth k ys b0) ys) by (apply nth_In; lia).
    destruct (bwd_mul n tb n2 Ht (nth k bs b0) (nth k ys b0) (VL _ Hib) (VR _ Hix)) as (c & Ec & _). apply (product_fits n r p R d tb EJ ED Hp1 n2 Ht gens invs E _ _ c t EG EI P0 (VL _ Hib) (VR _ Hix) Ec); auto. intros X EX i' j' e'. apply (BZ P0 (nth k bs b0) (nth k ys b0) c X); auto.
    rewrite <- combine_nth by (symmetry; exact LY). apply nth_In. rewrite combine_length. lia.
  - destruct (PropsTLMor2.mapM_Forall2 (fun '(b, y) => nf_mul tb b y) (fun '(b, y) c => nf_mul tb b y = Ok c /\ nf_value tb n c /\ braid_eq n (bwd tb c) (bwd tb b ++ bwd tb y)) (combine bs ys)) as [prods [EM FM]].
    { intros [b y] H. pose proof (in_combine_l _ _ _ _ H) as Hb. pose proof (in_combine_r _ _ _ _ H) as Hy. destruct (bwd_mul n tb n2 Ht b y (VL b Hb) (VR y Hy)) as (c & Ec & K1). exists c. split; [exact Ec|]. split; [exact Ec|exact K1]. }
    exists C, prods. split; [exact EC|]. split; [exact EM|]. assert (LP : length prods = N) by (rewrite (PropsTLMor2.Forall2_len _ _ _ FM), combine_length; lia).
    assert (CN : forall k c, nth_error prods k = Some c -> nf_value tb n c /\ braid_eq n (bwd tb c) (bwd tb (nth k bs b0) ++ bwd tb (nth k ys b0))).
    { intros k c Hk. assert (Lk : k < N) by (rewrite <- LP; apply nth_error_Some; congruence). assert (Ek : nth_error (combine bs ys) k = Some (nth k bs b0, nth k ys b0)). { rewrite <- combine_nth by (symmetry; exact LY). apply nth_error_nth'. rewrite combine_length. lia. }
      destruct (PropsTLMor2.Forall2_nth_error _ _ _ FM _ _ Ek) as (c' & Ec' & _ & Vc & Bc). rewrite Hk in Ec'. injection Ec' as <-. auto. }
    apply (batch_images n r p R d tb EJ ED Hp1 n2 Ht gens invs E t prods C (fun k => bwd tb (nth k bs b0) ++ bwd tb (nth k ys b0)) EG EI).
    + intros c Hc. apply In_nth_error in Hc. destruct Hc as [k Hk]. apply (CN k c Hk).
    + intros k c Hk. apply (CN k c Hk).
    + rewrite LP. destruct BC as (WC & C1 & C2 & C3 & C4 & KC). split; [exact WC|]. do 4 (split; [assumption|]). intros ix V. specialize (KC ix V). cbn beta in KC. now rewrite (operand_self _ _ V) in KC.
    + rewrite LP. exact PC.
Qed.

(** ** the descendants *)
Local Notation ptv := PropsSearch.positive_value.
(** b times the first i factors of x *)
Definition prefix_product (tb : nat -> res (nftable (list nat))) (b x : nfobj) (i : nat) : res nfobj := y <- substring tb x 0 i ;; nf_mul tb b y.
(** the products of b with the non-empty prefixes of its suffixes of the given length *)
Definition prefix_descendants (tb : nat -> res (nftable (list nat))) (len : Z) (b : nfobj) : res (list nfobj) :=
  xs <- nf_suffixes tb b len ;; mapM (fun '(x, i) => prefix_product tb b x i) (list_prod xs (seq 1 (Z.to_nat len))).

Lemma foldM_adds {X} rint crit (f : strk -> X -> res strk) l ads : Forall2 (fun x ad => forall s, f s x = st_add rint crit s (fst ad) (snd ad)) l ads ->
  forall s, foldM f l s = st_run rint crit s (PropsSearch.adds ads).
Proof.
  unfold st_run. induction 1 as [|x [bs im] l ads H F IH]; intros s; [reflexivity|]. cbn [foldM PropsSearch.adds map st_apply]. rewrite H. cbn [fst snd]. destruct (st_add rint crit s bs im) as [s1|]; [|reflexivity]. cbn [bind]. apply IH.
Qed.
Lemma adds_keep rint crit ads tag : (forall ad b, In ad ads -> In b (fst ad) -> length (o_factors b) <> fst tag) -> forall s s', st_run rint crit s (PropsSearch.adds ads) = Ok s' ->
  dget stag_eqb (st_buckets s') tag = dget stag_eqb (st_buckets s) tag.
Proof.
  unfold st_run. induction ads as [|[bs im] ads IH]; intros H s s'; cbn [PropsSearch.adds map foldM st_apply]; [now intros [= ->]|].
  destruct (st_add rint crit s bs im) as [s1|] eqn:E; [|discriminate]. cbn [bind]. intros F. rewrite (IH (fun ad b Ha Hb => H ad b (or_intror Ha) Hb) s1 s' F).
  destruct (PropsSearch.st_add_effect _ _ _ _ _ _ E) as (bs' & I1 & (_ & A2 & _)). apply A2. intros b Hb. apply (H (bs, im) b (or_introl eq_refl)). now apply I1.
Qed.

Lemma mapM_ext_in {X Y} (f g : X -> res Y) l : (forall x, In x l -> f x = g x) -> mapM f l = mapM g l.
Proof. induction l as [|x l IH]; intros H; [reflexivity|]. cbn [mapM]. rewrite (H x (or_introl eq_refl)), IH; auto. intros y Hy. apply H. now right. Qed.

Section D.
Variables (n r : nat) (p : Z) (S : jsum) (R : rep) (d : nat) (tb : nat -> res (nftable (list nat))).
Hypothesis (ES : jones_summand n r p = Ok S) (EJ : jones_rep n r p = Ok R) (Hr : 1 <= r) (ED : rep_dimension R = Ok (Z.of_nat d)) (Hp1 : p <> 1%Z) (n2 : 2 <= n) (Ht : gnf_table n tb).
Variables (rint : nat -> nat) (crit : criterion) (len : Z).
Hypothesis (Hlen : (0 <= len)%Z).
Local Notation t := (if (0 <? p)%Z then I32 else I64).
Hypothesis (BN : p <> 0%Z -> (Z.of_nat d * (((len + 1) * Z.of_nat (n * (n - 1)) + 1) * ((p - 1) * (p - 1))) < 2 ^ 31)%Z).
Variables (braids : list nfobj) (A : parr) (N : nat) (k0 : nat).
Hypothesis (PA : apre A = [N]) (HI : images_of n p R tb d t braids (take_items A (length braids))).
Hypothesis (HB : forall b, In b braids -> o_pow b = 0%Z /\ length (o_factors b) = k0).
Hypothesis (HZ : p = 0%Z -> n <= 9 /\ forall x X, ptv tb n x -> length (o_factors x) <= k0 + Z.to_nat len -> rep_evaluate_nf tb R x = Ok X -> int64_matrix X).

Lemma dpos : 0 < d /\ (0 <= p)%Z.
Proof using EJ ED.
  destruct (jones_all n r p R EJ) as (d' & gens & invs & E & _ & _ & Hp & Hd & ED' & _). rewrite ED in ED'. injection ED' as ED'. apply Nat2Z.inj in ED'. subst d'. auto.
Qed.
Lemma bval b : In b braids -> ptv tb n b.
Proof using HI HB.
  clear - HI HB. intros Hb. split; [|now apply HB]. apply In_nth_error in Hb. destruct Hb as [k Hk]. destruct HI as (_ & _ & _ & _ & _ & K). apply (K k b Hk).
Qed.
(** a pair of the list all_pairs *)
Definition pair_of (q : nat * nfobj * nfobj) : Prop := let '(k, b, x) := q in nth_error braids k = Some b /\ exists xs, nf_suffixes tb b len = Ok xs /\ In x xs.
Definition pprod (q : nat * nfobj * nfobj) (i : nat) : res nfobj := let '(_, b, x) := q in prefix_product tb b x i.
Lemma pair_product_ok k b x i : pair_of (k, b, x) -> i <= Z.to_nat len ->
  exists c, substring tb x 0 i = Ok (NFObj n (o_pow x) (firstn i (o_factors x))) /\ nf_mul tb b (NFObj n (o_pow x) (firstn i (o_factors x))) = Ok c /\ ptv tb n (NFObj n (o_pow x) (firstn i (o_factors x))) /\
    ptv tb n x /\ ptv tb n c /\ length (o_factors x) = Z.to_nat len /\ o_factors c = o_factors b ++ firstn i (o_factors x).
Proof using Hlen n2 Ht HI HB.
  clear ES EJ ED BN HZ. intros [Hk (xs & EX & Hx)] Hi. assert (Vb : ptv tb n b) by (apply bval; now apply nth_error_In in Hk).
  destruct (PropsSearch.suffix_product n tb b len xs x i n2 Ht Vb Hlen EX Hx Hi) as (y & c & Y1 & Y2 & Px & Py & Pc & Lx & Fy & Fc).
  assert (EY : y = NFObj n (o_pow x) (firstn i (o_factors x))). { destruct (val_enc n tb n2 Ht y (proj1 Py)) as [[e l] [_ Ey]]. destruct Py as [_ P0]. rewrite <- Fy, (proj2 Px), <- P0, Ey. reflexivity. }
  exists c. rewrite <- EY. rewrite <- Fy. split; [exact Y1|]. split; [exact Y2|]. split; [exact Py|]. auto.
Qed.
Lemma chunk_ok pairs : pairs <> [] -> (forall q, In q pairs -> pair_of q) ->
  exists ls left rights ads, mapM (fun '(i, _, _) => arr_item A (Z.of_nat i)) pairs = Ok ls /\ pack ls = Ok left /\ js_evaluate_prefixes tb S (map (fun '(_, _, x) => x) pairs) = Ok rights /\
    Forall2 (fun i ad => forall s : strk, (right <- get rights i ;; images <- js_mul S left right ;; bs <- mapM (fun '(_, braid, x) => y <- substring tb x 0 i ;; nf_mul tb braid y) pairs ;; st_add rint crit s bs images) = st_add rint crit s (fst ad) (snd ad)) (seq 1 (Z.to_nat len)) ads /\
    Forall (fun ad => images_of n p R tb d t (fst ad) (snd ad) /\ fst ad <> []) ads /\ Forall2 (fun i ad => mapM (fun q => pprod q i) pairs = Ok (fst ad)) (seq 1 (Z.to_nat len)) ads.
Proof using All.
  intros NE HP. destruct dpos as [Hd Hp0]. set (bs := map (fun q => snd (fst q)) pairs). set (xs := map (fun '(_, _, x) => x) pairs : list nfobj).
  assert (Lx : length xs = length bs) by (unfold xs, bs; now rewrite !map_length).
  assert (EB : mapM (get braids) (map (fun q => fst (fst q)) pairs) = Ok bs).
  { rewrite mapM_map'. apply (mapM_ok _ (fun q => snd (fst q))). intros [[k b] x] Hq. destruct (HP _ Hq) as [Hk _]. unfold get. cbn [fst snd]. now rewrite Hk. }
  destruct (pack_images n p R tb d t braids A _ bs N Hd PA HI EB) as (ls & left & EL & EP & IL). { intros Q. apply map_eq_nil in Q. contradiction. }
  rewrite mapM_map' in EL. assert (HX : forall x, In x xs -> exists k b, In (k, b, x) pairs) by (intros x Hx; apply in_map_iff in Hx; destruct Hx as ([[k b] x'] & <- & Hq); eauto).
  assert (BT : p <> 0%Z -> in_dtype t p /\ (Z.of_nat d * (Z.of_nat ((Z.to_nat len + 1) * (n * (n - 1)) + 1) * ((p - 1) * (p - 1))) < 2 ^ (dbits t - 1))%Z).
  { intros P0. specialize (BN P0). destruct (Z.ltb_spec 0 p); [|lia]. change (dbits I32 - 1)%Z with 31%Z. replace (Z.of_nat ((Z.to_nat len + 1) * (n * (n - 1)) + 1)) with ((len + 1) * Z.of_nat (n * (n - 1)) + 1)%Z by lia. split; [|exact BN].
    split; [change (dbits I32 - 1)%Z with 31%Z; lia|]. change (dbits I32 - 1)%Z with 31%Z. assert (Q2 : (2 <= Z.of_nat (n * (n - 1)))%Z) by nia. assert (Q : (1 * (3 * ((p - 1) * (p - 1))) <= Z.of_nat d * (((len + 1) * Z.of_nat (n * (n - 1)) + 1) * ((p - 1) * (p - 1))))%Z) by (apply Z.mul_le_mono_nonneg; [lia|lia|nia|]; apply Z.mul_le_mono_nonneg_r; nia). nia. }
  destruct (C61_summand_prefixes n r p S R tb xs d (Z.to_nat len) ES EJ Hr Ht Hp1 ED) as (L & ERr & LL & KL).
  - unfold xs. intros Q. apply map_eq_nil in Q. contradiction.
  - intros x Hx. destruct (HX x Hx) as (k & b & Hq). destruct (pair_product_ok k b x 0 (HP _ Hq) ltac:(lia)) as (c & _ & _ & _ & Vx & _ & Lx' & _). split; [apply Vx|exact Lx'].
  - intros P0. eapply Z.le_lt_trans; [|exact (BN P0)]. apply Z.mul_le_mono_nonneg_l; [lia|]. apply Z.mul_le_mono_nonneg_r; [nia|]. nia.
  - intros P0. destruct (HZ P0) as (H9 & HZ1). split; [exact H9|]. intros x q X Hx Hq EX. destruct (HX x Hx) as (k & b & Hqq). destruct (pair_product_ok k b x q (HP _ Hqq) Hq) as (c & _ & _ & Vy & _ & _ & Lx' & _). apply (HZ1 _ X Vy) in EX; [exact EX|]. cbn [o_factors]. rewrite firstn_length. lia.
  - exists ls, left, L. assert (EL' : mapM (fun '(i, _, _) => arr_item A (Z.of_nat i)) pairs = Ok ls) by (rewrite <- EL; apply mapM_ext_in; intros [[k b] x] _; reflexivity).
    assert (ST : forall i, 1 <= i <= Z.to_nat len -> exists right C prods, get L i = Ok right /\ js_mul S left right = Ok C /\ mapM (fun q => pprod q i) pairs = Ok prods /\ images_of n p R tb d t prods C).
    { intros i Hi. set (ys := map (fun x => NFObj n (o_pow x) (firstn i (o_factors x))) xs). destruct (nth_error L i) as [right|] eqn:EN; [|apply nth_error_None in EN; lia]. destruct (KL i right EN) as (W & I1 & I2 & I3 & I4 & K).
      assert (IY : images_of n p R tb d t ys right).
      { split; [exact W|]. split; [unfold ys; now rewrite map_length|]. do 3 (split; [assumption|]). intros k y Hk. unfold ys in Hk. rewrite nth_error_map in Hk. destruct (nth_error xs k) as [x|] eqn:Ex; [|discriminate]. cbn [option_map] in Hk. injection Hk as <-. destruct (K k x Ex) as (K1 & K2 & K3). split; [|auto].
        destruct (HX x) as (k' & b & Hq); [now apply nth_error_In in Ex|]. destruct (pair_product_ok k' b x i (HP _ Hq) ltac:(lia)) as (c & _ & _ & Vy & _). apply Vy. }
      assert (CB : combine bs ys = map (fun q => (snd (fst q), NFObj n (o_pow (snd q)) (firstn i (o_factors (snd q))))) pairs). { unfold bs, ys, xs. clear. induction pairs as [|[[k b] x] pairs IH]; [reflexivity|]. cbn [map combine fst snd]. now rewrite IH. }
      destruct (pair_product n r p R d tb t bs left ys right (Z.to_nat len) EJ ED Hp1 n2 Ht) as (C & prods & EC & EM & IC); auto.
      - unfold bs. intros Q. apply map_eq_nil in Q. contradiction.
      - unfold ys. now rewrite map_length.
      - intros y Hy. unfold ys in Hy. apply in_map_iff in Hy. destruct Hy as (x & <- & Hx). cbn [o_factors]. rewrite firstn_length. lia.
      - intros P0 b y c X Hin Ec EX. rewrite CB in Hin. apply in_map_iff in Hin. destruct Hin as ([[k b'] x] & [= -> <-] & Hq). destruct (HZ P0) as (_ & HZ2). cbn [fst snd] in *. destruct (pair_product_ok k b x i (HP _ Hq) ltac:(lia)) as (c' & _ & Ec' & _ & _ & Vc & Lx' & Fc). rewrite Ec in Ec'. injection Ec' as <-. destruct (HP _ Hq) as [Hk _]. apply nth_error_In in Hk.
        assert (Q : int64_matrix X) by (apply (HZ2 c X Vc); [rewrite Fc, app_length, firstn_length, (proj2 (HB b Hk)); lia|exact EX]). intros i' j' e'. rewrite P0. apply Q.
      - exists right, C, prods. split; [unfold get; now rewrite EN|]. split; [|split; [|exact IC]].
        + unfold js_mul. assert (EP' : js_p S = p). { unfold jones_summand in ES. destruct (assert_ (1 <=? n)); [|discriminate]. cbn [bind] in ES. destruct (assert_ (2 * r <=? n)); [|discriminate]. cbn [bind] in ES. destruct (assert_ (0 <=? p)%Z); [|discriminate]. cbn [bind] in ES. injection ES as <-. reflexivity. } now rewrite EP'.
        + rewrite CB, mapM_map' in EM. rewrite <- EM. apply mapM_ext_in. intros [[k b] x] Hq. cbn [pprod fst snd]. unfold prefix_product. destruct (pair_product_ok k b x i (HP _ Hq) ltac:(lia)) as (c' & E1 & _). rewrite E1. reflexivity. }
    assert (FA : exists ads, Forall2 (fun i ad => exists right, get L i = Ok right /\ js_mul S left right = Ok (snd ad) /\ mapM (fun q => pprod q i) pairs = Ok (fst ad) /\ images_of n p R tb d t (fst ad) (snd ad)) (seq 1 (Z.to_nat len)) ads).
    { assert (Q : forall i, In i (seq 1 (Z.to_nat len)) -> 1 <= i <= Z.to_nat len) by (intros i Hi; apply in_seq in Hi; lia). revert Q. generalize (seq 1 (Z.to_nat len)) as l. clear - ST. induction l as [|i l IH]; intros Q; [exists []; constructor|]. destruct IH as [ads F]; [intros; apply Q; now right|]. destruct (ST i (Q i (or_introl eq_refl))) as (right & C & prods & H1 & H2 & H3 & H4). exists ((prods, C) :: ads). constructor; [|exact F]. exists right. auto. }
    destruct FA as [ads FA]. exists ads. split; [exact EL'|]. split; [exact EP|]. split; [exact ERr|]. split; [|split].
    + eapply PropsTLMor2.Forall2_imp; [|exact FA]. intros i ad (right & H1 & H2 & H3 & _) s. rewrite H1. cbn [bind]. rewrite H2. cbn [bind]. assert (H3' : mapM (fun '(_, braid, x) => y <- substring tb x 0 i ;; nf_mul tb braid y) pairs = Ok (fst ad)) by (rewrite <- H3; apply mapM_ext_in; intros [[k b] x] _; reflexivity). rewrite H3'. reflexivity.
    + clear - FA NE. induction FA as [|i ad l ads (right & _ & _ & H3 & H4) F IH]; constructor; auto. split; [exact H4|]. intros Q. rewrite Q in H3. apply mapM_Ok_Forall2, PropsTLMor2.Forall2_len in H3. destruct pairs; [contradiction|discriminate].
    + eapply PropsTLMor2.Forall2_imp; [|exact FA]. intros i ad (right & _ & _ & H3 & _). exact H3.
Qed.
End D.

(** C76 for braidsearch.  If the images of a bucket are the images of its braids, which
    are positive and of the length of the tag, then nf_descendants is a sequence of
    additions of batches of products with their images, and the products are those of
    every stored braid with every non-empty prefix of every suffix. *)
Theorem C76_braidsearch n r p S R d tb rint crit s tag bk len N :
  jones_summand n r p = Ok S -> jones_rep n r p = Ok R -> 1 <= r -> rep_dimension R = Ok (Z.of_nat d) -> p <> 1%Z -> 2 <= n -> gnf_table n tb -> (0 <= len)%Z ->
  (p <> 0%Z -> (Z.of_nat d * (((len + 1) * Z.of_nat (n * (n - 1)) + 1) * ((p - 1) * (p - 1))) < 2 ^ 31)%Z) ->
  dget stag_eqb (st_buckets s) tag = Some bk -> apre (sb_images bk) = [N] -> images_of n p R tb d (if (0 <? p)%Z then I32 else I64) (sb_braids bk) (take_items (sb_images bk) (length (sb_braids bk))) ->
  (forall b, In b (sb_braids bk) -> o_pow b = 0%Z /\ length (o_factors b) = fst tag) ->
  (p = 0%Z -> n <= 9 /\ forall x X, ptv tb n x -> length (o_factors x) <= fst tag + Z.to_nat len -> rep_evaluate_nf tb R x = Ok X -> int64_matrix X) ->
  exists ads, st_nf_descendants rint crit tb S s tag len = st_run rint crit s (PropsSearch.adds ads) /\
    Forall (fun ad => images_of n p R tb d (if (0 <? p)%Z then I32 else I64) (fst ad) (snd ad) /\ fst ad <> []) ads /\
    exists dss, mapM (prefix_descendants tb len) (sb_braids bk) = Ok dss /\ Permutation (concat (map fst ads)) (concat dss).
Proof.
  intros ES EJ Hr ED Hp1 n2 Ht Hlen BN G PA HI HB HZ. set (braids := sb_braids bk) in *. set (A := sb_images bk) in *. set (m := Z.to_nat len).
  assert (HV : forall b, In b braids -> ptv tb n b) by exact (bval n p R d tb braids A (fst tag) HI HB).
  assert (HS : forall b, In b braids -> exists xs, nf_suffixes tb b len = Ok xs). { intros b Hb. destruct (val_enc n tb n2 Ht b (proj1 (HV b Hb))) as [[e l] [Ho ->]]. destruct (suffixes_enc n tb n2 Ht e l len Hlen Ho) as (ls & E & _). eauto. }
  set (sf := fun b => match nf_suffixes tb b len with Ok xs => xs | Err _ => [] end). assert (ESF : forall b, In b braids -> nf_suffixes tb b len = Ok (sf b)) by (intros b Hb; unfold sf; destruct (HS b Hb) as [xs ->]; reflexivity).
  set (all := flat_map (fun q => map (fun x => (fst q, snd q, x)) (sf (snd q))) (combine (seq 0 (length braids)) braids)).
  assert (EA : mapM (fun '(i, braid) => ss <- nf_suffixes tb braid len ;; Ok (map (fun x => (i, braid, x)) ss)) (combine (seq 0 (length braids)) braids) = Ok (map (fun q => map (fun x => (fst q, snd q, x)) (sf (snd q))) (combine (seq 0 (length braids)) braids))).
  { apply mapM_ok. intros [i b] Hq. apply in_combine_r in Hq. rewrite (ESF b Hq). reflexivity. }
  assert (HP : forall q, In q all -> pair_of tb len braids q).
  { intros [[i b] x] Hq. unfold all in Hq. apply in_flat_map in Hq. destruct Hq as ([i' b'] & Hc & Hx). apply in_map_iff in Hx. destruct Hx as (x' & [= -> -> ->] & Hx). split; [|exists (sf b); split; [apply ESF; now apply in_combine_r in Hc|exact Hx]].
    apply In_nth_error in Hc. destruct Hc as [k Hk]. clear - Hk. assert (E : forall a l k, nth_error (combine (seq a (length l)) l) k = Some (i, b) -> nth_error l k = Some b /\ i = a + k). { clear. intros a l. revert a. induction l as [|y l IH]; intros a [|k]; cbn [length seq combine nth_error]; try discriminate; [intros [= -> ->]; split; [reflexivity|lia]|]. intros H. apply IH in H. destruct H as [-> ->]. split; [reflexivity|lia]. } apply E in Hk. destruct Hk as [H1 H2]. cbn in H2. subst i. exact H1. }
  destruct (proj2 (C75_batched all 1000) ltac:(lia)) as (cs & EC & CC & CN & _).
  set (pr := fun (q : nat * nfobj * nfobj) i => match pprod tb q i with Ok c => c | Err _ => NFObj 0 0 [] end).
  assert (PO : forall q i, In q all -> i <= m -> pprod tb q i = Ok (pr q i) /\ fst tag + Nat.min i m = length (o_factors (pr q i))).
  { intros [[k b] x] i Hq Hi. destruct (pair_product_ok n p R d tb n2 Ht len Hlen braids A (fst tag) HI HB k b x i (HP _ Hq) Hi) as (c & E1 & E2 & _ & _ & _ & Lx & Fc). assert (EP : pprod tb (k, b, x) i = Ok c) by (cbn [pprod]; unfold prefix_product; rewrite E1; exact E2). unfold pr. rewrite EP. split; [reflexivity|]. rewrite Fc, app_length, firstn_length, Lx. destruct (HP _ Hq) as [Hk _]. apply nth_error_In in Hk. rewrite (proj2 (HB b Hk)). reflexivity. }
  assert (MAIN : forall cs s, (forall c, In c cs -> c <> []) -> (forall q, In q (concat cs) -> In q all) -> dget stag_eqb (st_buckets s) tag = Some bk ->
    exists ads, (forall sf', foldM (fun s pairs => b <- dgetE stag_eqb (st_buckets s) tag ;; ls <- mapM (fun '(i, _, _) => arr_item (sb_images b) (Z.of_nat i)) pairs ;; left <- pack ls ;; rights <- js_evaluate_prefixes tb S (map (fun '(_, _, x) => x) pairs) ;;
        foldM (fun s i => right <- get rights i ;; images <- js_mul S left right ;; braids <- mapM (fun '(_, braid, x) => y <- substring tb x 0 i ;; nf_mul tb braid y) pairs ;; st_add rint crit s braids images) (seq 1 m) s) cs s = sf' <-> st_run rint crit s (PropsSearch.adds ads) = sf') /\
      Forall (fun ad => images_of n p R tb d (if (0 <? p)%Z then I32 else I64) (fst ad) (snd ad) /\ fst ad <> []) ads /\ concat (map fst ads) = flat_map (fun c => flat_map (fun i => map (fun q => pr q i) c) (seq 1 m)) cs).
  { clear EC CC CN cs G s. intros cs. induction cs as [|c cs IH]; intros s NE HC G.
    - exists []. split; [intros sf'; reflexivity|]. split; [constructor|reflexivity].
    - destruct (chunk_ok n r p S R d tb ES EJ Hr ED Hp1 n2 Ht rint crit len Hlen BN braids A N (fst tag) PA HI HB HZ c) as (ls & left & rights & ads & E1 & E2 & E3 & F1 & F2 & F3).
      + apply NE. now left.
      + intros q Hq. apply HP, HC. cbn [concat]. apply in_or_app. now left.
      + assert (FE : map fst ads = map (fun i => map (fun q => pr q i) c) (seq 1 m)).
        { assert (Q : forall i, In i (seq 1 (Z.to_nat len)) -> mapM (fun q => pprod tb q i) c = Ok (map (fun q => pr q i) c)). { intros i Hi. apply in_seq in Hi. apply mapM_ok. intros q Hq. apply PO; [apply HC; cbn [concat]; apply in_or_app; now left|unfold m; lia]. }
          unfold m. revert Q. clear - F3. induction F3 as [|i ad l ads H F IH]; intros Q; [reflexivity|]. cbn [map]. rewrite (Q i (or_introl eq_refl)) in H. injection H as <-. rewrite IH; [reflexivity|]. intros; apply Q; now right. }
        pose proof (foldM_adds rint crit _ _ _ F1) as FA. assert (KEEP : forall s1, st_run rint crit s (PropsSearch.adds ads) = Ok s1 -> dget stag_eqb (st_buckets s1) tag = Some bk).
        { intros s1 R1. rewrite <- G. apply (adds_keep rint crit ads tag) with (s := s); [|exact R1]. intros ad b Had Hb. assert (Hf : In (fst ad) (map fst ads)) by now apply in_map. rewrite FE in Hf. apply in_map_iff in Hf. destruct Hf as (i & Ei & Hi). apply in_seq in Hi. rewrite <- Ei in Hb. apply in_map_iff in Hb. destruct Hb as (q & <- & Hq). destruct (PO q i) as [_ L]; [apply HC; cbn [concat]; apply in_or_app; now left|lia|]. rewrite <- L. lia. }
        destruct (st_run rint crit s (PropsSearch.adds ads)) as [s1|e] eqn:R1.
        * destruct (IH s1) as (ads2 & K1 & K2 & K3); [intros; apply NE; now right|intros; apply HC; cbn [concat]; apply in_or_app; now right|now apply KEEP|].
          exists (ads ++ ads2). split; [|split; [apply Forall_app; auto|rewrite map_app, concat_app, K3, FE; cbn [flat_map]; now rewrite <- flat_map_concat_map]].
          intros sf'. cbn [foldM]. unfold dgetE at 1. rewrite G. cbn [bind]. fold A. rewrite E1. cbn [bind]. rewrite E2. cbn [bind]. rewrite E3. cbn [bind]. unfold m at 1. rewrite FA, R1. cbn [bind]. unfold PropsSearch.adds. rewrite map_app, PropsSearch.st_run_app. fold (PropsSearch.adds ads) (PropsSearch.adds ads2). rewrite R1. cbn [bind]. apply K1.
        * (* an error in this chunk: the rest is not reached *)
          assert (REST : exists ads2, Forall (fun ad => images_of n p R tb d (if (0 <? p)%Z then I32 else I64) (fst ad) (snd ad) /\ fst ad <> []) ads2 /\ concat (map fst ads2) = flat_map (fun c => flat_map (fun i => map (fun q => pr q i) c) (seq 1 m)) cs).
          { destruct (IH s) as (ads2 & _ & K2 & K3); [intros; apply NE; now right|intros; apply HC; cbn [concat]; apply in_or_app; now right|exact G|]. eauto. }
          destruct REST as (ads2 & K2 & K3). exists (ads ++ ads2). split; [|split; [apply Forall_app; auto|rewrite map_app, concat_app, K3, FE; cbn [flat_map]; now rewrite <- flat_map_concat_map]].
          intros sf'. cbn [foldM]. unfold dgetE at 1. rewrite G. cbn [bind]. fold A. rewrite E1. cbn [bind]. rewrite E2. cbn [bind]. rewrite E3. cbn [bind]. unfold m at 1. rewrite FA, R1. cbn [bind]. unfold PropsSearch.adds. rewrite map_app, PropsSearch.st_run_app. fold (PropsSearch.adds ads) (PropsSearch.adds ads2). rewrite R1. reflexivity. }
  destruct (MAIN cs s) as (ads & K1 & K2 & K3); [intros c Hc; apply (CN c Hc)|rewrite CC; auto|exact G|].
  exists ads. split; [|split; [exact K2|]].
  - unfold st_nf_descendants, dgetE at 1. rewrite G. cbn [bind]. fold braids. rewrite EA. cbn [bind]. rewrite <- flat_map_concat_map. fold all. rewrite EC. cbn [bind]. apply K1. reflexivity.
  - set (pd := fun b => map (fun '(x, i) => match prefix_product tb b x i with Ok c => c | Err _ => NFObj 0 0 [] end) (list_prod (sf b) (seq 1 m))). exists (map pd braids). split.
    + apply mapM_ok. intros b Hb. unfold prefix_descendants. rewrite (ESF b Hb). cbn [bind]. apply mapM_ok. intros [x i] Hin. apply in_prod_iff in Hin. destruct Hin as [Hx Hi]. apply in_seq in Hi. apply In_nth_error in Hb. destruct Hb as [k Hk].
      assert (Hq : pair_of tb len braids (k, b, x)) by (split; [exact Hk|exists (sf b); split; [apply ESF; now apply nth_error_In in Hk|exact Hx]]). destruct (pair_product_ok n p R d tb n2 Ht len Hlen braids A (fst tag) HI HB k b x i Hq) as (c & E1 & E2 & _); [unfold m in Hi; lia|]. unfold prefix_product. rewrite E1. cbn [bind]. now rewrite E2.
    + rewrite K3. transitivity (flat_map (fun q => map (pr q) (seq 1 m)) all).
      * rewrite <- CC. clear. induction cs as [|c cs IH]; [constructor|]. cbn [flat_map concat]. rewrite flat_map_app. apply Permutation_app; [|exact IH]. symmetry. apply (flat_map_swap pr).
      * rewrite <- (flat_map_concat_map pd braids). unfold all. clear. assert (E : forall a l, flat_map (fun q => map (pr q) (seq 1 m)) (flat_map (fun q => map (fun x => (fst q, snd q, x)) (sf (snd q))) (combine (seq a (length l)) l)) = flat_map pd l); [|rewrite (E 0); reflexivity].
        intros a l. revert a. induction l as [|b l IH]; intros a; [reflexivity|]. cbn [length seq combine flat_map]. rewrite flat_map_app. f_equal; [|apply IH]. unfold pd. rewrite map_list_prod. cbn [fst snd]. induction (sf b) as [|x xs IHx]; [reflexivity|]. cbn [map flat_map]. f_equal. exact IHx.
Qed.

(** C76.  For a positive braid these products are exactly the positive normal forms that
    extend its factors by between 1 and [len] factors. *)
Theorem C76_prefix_descendants n tb b len l : 2 <= n -> gnf_table n tb -> nf_value tb n b -> o_pow b = 0%Z -> (0 <= len)%Z -> prefix_descendants tb len b = Ok l ->
  forall c, In c l <-> nf_value tb n c /\ o_pow c = 0%Z /\ exists s, 1 <= length s <= Z.to_nat len /\ o_factors c = o_factors b ++ s.
Proof.
  intros n2 Ht V P Hl E. pose proof (ptab_ok n n2) as TK. destruct (val_enc n tb n2 Ht b V) as [[e fs] [Ho ->]]. cbn [TableTheory.enc o_pow fst] in P. subst e. destruct (suffixes_enc n tb n2 Ht 0%Z fs len Hl Ho) as (ls & Es & ND & H).
  unfold prefix_descendants in E. rewrite Es in E. cbn [bind] in E.
  assert (PP : forall m i, In m ls -> i <= Z.to_nat len -> prefix_product tb (TableTheory.enc (PG n) n (idx n) (0%Z, fs)) (TableTheory.enc (PG n) n (idx n) (0%Z, m)) i = Ok (TableTheory.enc (PG n) n (idx n) (0%Z, fs ++ firstn i m))).
  { intros m i Hm Hi. apply H in Hm. destruct Hm as (Lm & O1 & O2). pose proof (PropsSearch.ok_prefix n n2 [] m i O1) as O3. pose proof (PropsSearch.ok_prefix n n2 fs m i O2) as O4. unfold prefix_product, substring. cbn [o_factors o_n o_pow TableTheory.enc fst snd]. rewrite map_length.
    match goal with |- context [i <=? ?q] => replace (i <=? q) with true by (symmetry; apply Nat.leb_le; rewrite <- Lm in Hi; exact Hi) end. cbn [Nat.leb andb assert_ bind]. rewrite Nat.sub_0_r. cbn [skipn]. rewrite firstn_map. match goal with |- bind ?e _ = _ => replace e with (Ok (TableTheory.enc (PG n) n (idx n) (0%Z, firstn i m))) by (symmetry; apply (mkE n tb n2 Ht 0%Z); exact O3) end. cbn [bind]. apply (mul_even n tb n2 Ht (0%Z, fs) (0%Z, firstn i m)); auto. now exists 0%Z. }
  assert (EL : forall c, In c l <-> exists m i, In m ls /\ 1 <= i <= Z.to_nat len /\ c = TableTheory.enc (PG n) n (idx n) (0%Z, fs ++ firstn i m)).
  { intros c. apply mapM_Ok_Forall2 in E. split.
    - intros Hc. apply In_nth_error in Hc. destruct Hc as [k Hk]. assert (Lk : k < length l) by (apply nth_error_Some; congruence). pose proof (PropsTLMor2.Forall2_len _ _ _ E) as LE. set (lp := list_prod (map (fun m => TableTheory.enc (PG n) n (idx n) (0%Z, m)) ls) (seq 1 (Z.to_nat len))) in *. destruct (nth_error lp k) as [[x i]|] eqn:EN; [|apply nth_error_None in EN; lia]. clear LE.
      destruct (PropsTLMor2.Forall2_nth_error _ _ _ E k _ EN) as (c' & Ec & Hp). rewrite Hk in Ec. injection Ec as <-. apply nth_error_In, in_prod_iff in EN. destruct EN as [Hx Hi]. apply in_map_iff in Hx. destruct Hx as (m & <- & Hm). apply in_seq in Hi. rewrite PP in Hp by (auto; lia). injection Hp as <-. exists m, i. split; [exact Hm|]. split; [lia|reflexivity].
    - intros (m & i & Hm & Hi & ->). assert (Hin : In (TableTheory.enc (PG n) n (idx n) (0%Z, m), i) (list_prod (map (fun m => TableTheory.enc (PG n) n (idx n) (0%Z, m)) ls) (seq 1 (Z.to_nat len)))) by (apply in_prod_iff; split; [apply in_map_iff; eauto|apply in_seq; lia]).
      apply In_nth_error in Hin. destruct Hin as [k Hk]. destruct (PropsTLMor2.Forall2_nth_error _ _ _ E k _ Hk) as (c' & Ec & Hp). cbn beta iota in Hp. rewrite PP in Hp by (auto; lia). injection Hp as <-. now apply nth_error_In in Ec. }
  intros c. rewrite EL. split.
  - intros (m & i & Hm & Hi & ->). apply H in Hm. destruct Hm as (Lm & O1 & O2). split; [apply enc_val; auto; now apply PropsSearch.ok_prefix|]. split; [reflexivity|]. exists (map (idx n) (firstn i m)). cbn [TableTheory.enc o_factors snd]. rewrite map_length, firstn_length, map_app. split; [lia|reflexivity].
  - intros (Vc & Pc & s & Hs & Fc). destruct (val_enc n tb n2 Ht c Vc) as [[e gs] [Og ->]]. cbn [TableTheory.enc o_pow fst o_factors snd] in Pc, Fc. subst e.
    assert (EQ : gs = fs ++ skipn (length fs) gs /\ length (skipn (length fs) gs) = length s).
    { assert (LG : length gs = length fs + length s) by (apply (f_equal (@length Z)) in Fc; rewrite app_length, !map_length in Fc; exact Fc). split; [|rewrite skipn_length; lia]. rewrite <- (firstn_skipn (length fs) gs) at 1. f_equal.
      apply (f_equal (firstn (length fs))) in Fc. rewrite firstn_map, firstn_app, map_length, Nat.sub_diag, firstn_O, app_nil_r in Fc. rewrite (firstn_all2 (map (idx n) fs)) in Fc by (rewrite map_length; apply Nat.le_refl). apply (f_equal (fun l => NFObj n 0 l)) in Fc. change (TableTheory.enc (PG n) n (idx n) (0%Z, firstn (length fs) gs) = TableTheory.enc (PG n) n (idx n) (0%Z, fs)) in Fc. apply (enc_inj _ _ _ _ _ _ _ _ _ TK) in Fc. now injection Fc. }
    destruct EQ as [EQ LS]. set (w := skipn (length fs) gs) in *. clearbody w. subst gs. destruct (suffixes_nonempty n n2 0%Z (fs ++ w) (Z.to_nat len - length w)) as (m & Lm & O1 & O2); [intros Q; apply app_eq_nil in Q as [_ ->]; cbn in LS; lia|exact Og|]. rewrite <- app_assoc in O2.
    exists (w ++ m), (length w). split; [|split; [lia|]].
    + apply H. split; [rewrite app_length; lia|]. split; [|exact O2]. rewrite (ok_normal n n2 0%Z) in O2 |- *. rewrite map_app in O2. destruct O2 as [F C]. rewrite Forall_app in F. apply PropsExtra.chain_app_inv in C. exact (Logic.conj (proj2 F) (proj2 C)).
    + rewrite firstn_app, Nat.sub_diag, firstn_O, app_nil_r, firstn_all. reflexivity.
Qed.

(** the powers of v that occur, modulo p, in the matrix X span v degrees *)
Definition rep_span (p : Z) (d : nat) (X : mat num) (v : Z) : Prop :=
  exists s, (forall i j e, i < d -> j < d -> ~ (p | numcoef (mentry X i j) e)%Z -> (s <= e < s + v)%Z) /\
    (exists i j, i < d /\ j < d /\ ~ (p | numcoef (mentry X i j) s)%Z) /\ (exists i j, i < d /\ j < d /\ ~ (p | numcoef (mentry X i j) (s + v - 1))%Z).

(** C76.  If every batch added to a tracker holds the images of its braids, then the
    buckets do; the tag of a stored braid is its length and the projlen of its matrix. *)
Theorem C76_stored_braidsearch n p R tb d t rint crit size rand os s (Q : nfobj -> Prop) : 1 <= size -> (0 <= p)%Z ->
  (forall bs im, In (SAdd bs im) os -> images_of n p R tb d t bs im /\ Forall Q bs) -> st_run rint crit (strk_init size rand) os = Ok s ->
  forall tag b, dget stag_eqb (st_buckets s) tag = Some b -> apre (sb_images b) = [size] /\ images_of n p R tb d t (sb_braids b) (take_items (sb_images b) (length (sb_braids b))) /\
    forall c, In c (sb_braids b) -> Q c /\ length (o_factors c) = fst tag /\ forall X, rep_evaluate_nf tb R c = Ok X -> rep_span p d X (snd tag).
Proof.
  intros Hsz Hp HO H tag b G. assert (F : Forall (sop_ok d d t) os).
  { apply Forall_forall. intros [bs im|tg] Ho; [|exact Logic.I]. destruct (HO bs im Ho) as [(W & I1 & E1 & E2 & E3 & K) _]. cbn. do 4 (split; [assumption|]). intros ix V. rewrite I1 in V. destruct (valid1 _ _ V) as [k [-> Hk]]. destruct (K k _ (nth_error_nth' bs (NFObj 0 0 []) Hk)) as (_ & _ & (i & j & Hi & Hj & NZ) & _). exists i, j, 0. rewrite E1, E2. auto. }
  destruct (st_new_run rint crit size rand d d t Hsz os s F H) as (h & HH & (_ & _ & _ & SO)). specialize (SO tag). rewrite G in SO. destruct SO as (NE & B & _ & _).
  destruct (held_props rint size rand tag h Hsz) as ((rest & P) & _). set (items := held rint size rand tag h) in *.
  assert (SRC : forall x, In x items -> exists bs im i v, In (SAdd bs im) os /\ nth_error bs i = Some (ibraid x) /\ projective_of im i (iimage x) /\ tag = (length (o_factors (ibraid x)), v) /\ degree_span im i v).
  { intros x Hx. assert (Hi : In x (since stagdec tag h)) by (apply (Permutation_in _ (Permutation_sym P)), in_app_iff; now left).
    destruct (shistory_in _ _ _ _ _ HH (since_in2 _ _ _ Hi)) as (bs & im & i & Ha & (b' & y & v & Hb & Py & Dv & Ee)). injection Ee as E1 E2. exists bs, im, i, v. rewrite E2, E1. cbn [ibraid iimage fst snd]. auto. }
  destruct B as [b4 b13 b5 b6 b7 b8 b9 b10 b11 b14]. rewrite Forall_forall in b14.
  assert (SZ : length (sb_braids b) = length items) by (now rewrite b4, map_length). rewrite SZ, b4.
  assert (W : wfa (take_items (sb_images b) (length items))).
  { assert (EQ : forall c, In c (firstn (length items) (ablocks (sb_images b))) -> exists x, In x items /\ c = block (iimage x) []).
    { intros c Hc. apply In_nth_error in Hc. destruct Hc as [k Hk]. assert (Lk : k < length items) by (assert (K : k < length (firstn (length items) (ablocks (sb_images b)))) by (apply nth_error_Some; congruence); rewrite firstn_length in K; lia). rewrite nth_error_firstn in Hk by exact Lk.
      destruct (nth_error items k) as [x|] eqn:Ex; [|apply nth_error_None in Ex; lia]. exists x. split; [now apply nth_error_In in Ex|]. rewrite (b11 k x Ex) in Hk. congruence. }
    split; [cbn [take_items ablocks apre]; rewrite firstn_length; unfold nitems; cbn [fold_right]; lia|]. cbn [take_items ablocks aI aJ aD adt]. rewrite !Forall_forall.
    assert (WB : forall c, In c (firstn (length items) (ablocks (sb_images b))) -> length c = nitems [d; d; aD (sb_images b)] /\ Forall (in_dtype t) c).
    { intros c Hc. destruct (EQ c Hc) as (x & Hx & ->). destruct (b14 x Hx) as (Wx & Px & X1 & X2 & X3 & X4). destruct (wfa_block (iimage x) [] Wx) as [L1 L2]; [rewrite Px; constructor|]. rewrite X1, X2, X3, X4 in *. split; [rewrite L1, b7; unfold nitems; cbn; lia|exact L2]. }
    rewrite b5, b6, b8. split; intros c Hc; apply (WB c Hc). }
  assert (IMG : forall k x, nth_error items k = Some x -> nf_value tb n (ibraid x) /\ (exists X, rep_evaluate_nf tb R (ibraid x) = Ok X /\ is_image p d X (take_items (sb_images b) (length items)) k) /\
    (exists i j, i < d /\ j < d /\ acoef (take_items (sb_images b) (length items)) [k] i j 0 <> 0%Z) /\ (p <> 0%Z -> forall i j e, i < d -> j < d -> (0 <= acoef (take_items (sb_images b) (length items)) [k] i j e < p)%Z) /\
    Q (ibraid x) /\ length (o_factors (ibraid x)) = fst tag /\ snd tag = Z.of_nat (aD (iimage x)) /\ greatest_degree (acoef (take_items (sb_images b) (length items)) [k]) d d (aD (iimage x) - 1) /\ aD (iimage x) <> 0).
  { intros k x Ex. assert (Lk : k < length items) by (apply nth_error_Some; congruence). pose proof (nth_error_In _ _ Ex) as Hx. destruct (b14 x Hx) as (Wx & Px & X1 & X2 & X3 & X4).
    assert (AC : forall i j e, i < d -> j < d -> acoef (take_items (sb_images b) (length items)) [k] i j e = acoef (iimage x) [] i j e).
    { intros i j e Hi Hj. rewrite !coef_block; auto; try (cbn [take_items aI aJ]; lia).
      - cbn [take_items aD aJ]. rewrite b6, b7, X2, X3. destruct (e <? _); [|reflexivity]. f_equal. unfold block at 1. cbn [take_items apre ablocks]. replace (ravel _ [k]) with k by (unfold ravel; cbn; lia). apply nth_error_nth. rewrite nth_error_firstn by exact Lk. now apply b11.
      - rewrite Px. constructor.
      - cbn [take_items apre]. rewrite b10. constructor; [lia|constructor]. }
    destruct (SRC x Hx) as (bs & im & i & v & Ha & Hb & Pj0 & Et & Dv). destruct (span_unique im i (iimage x) v Pj0 Dv) as [DX _]. destruct Pj0 as (Pj & _ & _ & _ & q & Sh). destruct (HO bs im Ha) as [(_ & _ & E1 & E2 & _ & HK) HQ]. rewrite Forall_forall in HQ. rewrite E1, E2 in Sh. destruct (HK i _ Hb) as (K1 & (X & EX & a & HX) & KN & KR). split; [exact K1|]. split; [|split; [|split; [|split; [|split; [|split; [|split]]]]]].
    - exists X. split; [exact EX|]. exists (a + Z.of_nat q)%Z. intros i' j' e Hi Hj. specialize (HX i' j' e Hi Hj). destruct (Z.ltb_spec e a); destruct (Z.ltb_spec e (a + Z.of_nat q)); try lia; try exact HX.
      + rewrite Sh in HX by assumption. unfold SpecPolymat.shift in HX. destruct (Nat.ltb_spec (Z.to_nat (e - a)) q); [exact HX|lia].
      + rewrite Sh in HX by assumption. unfold SpecPolymat.shift in HX. destruct (Nat.ltb_spec (Z.to_nat (e - a)) q); [lia|]. rewrite AC by assumption. replace (Z.to_nat (e - (a + Z.of_nat q))) with (Z.to_nat (e - a) - q) by lia. exact HX.
    - destruct Pj as (_ & _ & ((i' & j' & Hi & Hj & N) & _) & _). rewrite X1 in Hi. rewrite X2 in Hj. exists i', j'. rewrite AC by assumption. auto.
    - intros P0 i' j' e Hi Hj. rewrite AC by assumption. specialize (KR P0 i' j' (e + q) Hi Hj). rewrite Sh in KR by assumption. unfold SpecPolymat.shift in KR. destruct (Nat.ltb_spec (e + q) q); [lia|]. now replace (e + q - q) with e in KR by lia.
    - apply HQ. now apply nth_error_In in Hb.
    - now rewrite Et.
    - rewrite Et. cbn [snd]. symmetry. exact DX.
    - destruct Pj as (_ & _ & _ & (i' & j' & Hi & Hj & N) & GT). rewrite X1 in *. rewrite X2 in *. split; [exists i', j'; rewrite AC by assumption; auto|]. intros i'' j'' e Hi' Hj' He. rewrite AC by assumption. now apply GT.
    - destruct Pj as (_ & _ & ((i' & j' & Hi & Hj & N) & _) & _). intros Z0. unfold acoef in N. rewrite Z0 in N. cbn in N. contradiction. }
  split; [exact b9|]. split.
  - split; [exact W|]. split; [cbn [take_items apre]; rewrite map_length, b10; f_equal; lia|]. do 3 (split; [assumption|]). intros k c Hk. rewrite nth_error_map in Hk. destruct (nth_error items k) as [x|] eqn:Ex; [|discriminate]. injection Hk as <-. destruct (IMG k x Ex) as (K1 & K2 & K3 & K4 & _). auto.
  - intros c Hc. apply in_map_iff in Hc. destruct Hc as (x & <- & Hx). apply In_nth_error in Hx. destruct Hx as [k Ex]. destruct (IMG k x Ex) as (K1 & (X & EX & a & HX) & (i0 & j0 & Hi0 & Hj0 & N0) & K4 & K5 & K6 & K7 & ((i1 & j1 & Hi1 & Hj1 & N1) & GT) & D0). split; [exact K5|]. split; [exact K6|]. intros X' EX'. rewrite EX in EX'. injection EX' as <-. rewrite K7. set (im := take_items _ _) in *. set (D := aD (iimage x)) in *.
    assert (ND : forall i j e, i < d -> j < d -> acoef im [k] i j e <> 0%Z -> ~ (p | acoef im [k] i j e)%Z). { intros i j e Hi Hj N Dv. destruct (Z.eq_dec p 0) as [P0|P0]; [rewrite P0 in Dv; apply Z.divide_0_l in Dv; contradiction|]. specialize (K4 P0 i j e Hi Hj). apply Z.divide_pos_le in Dv; lia. }
    assert (TR : forall i j e, i < d -> j < d -> (p | numcoef (mentry X i j) e)%Z <-> (p | (if e <? a then 0 else acoef im [k] i j (Z.to_nat (e - a))))%Z).
    { intros i j e Hi Hj. specialize (HX i j e Hi Hj). set (u := numcoef _ _) in *. set (w := if (e <? a)%Z then _ else _) in *. split; intros Dv; [replace w with (u - (u - w))%Z by ring|replace u with (w + (u - w))%Z by ring]; [apply Z.divide_sub_r|apply Z.divide_add_r]; assumption. }
    exists a. split; [|split].
    + intros i j e Hi Hj N. rewrite TR in N by assumption. destruct (Z.ltb_spec e a) as [L|L]; [exfalso; apply N, Z.divide_0_r|]. split; [exact L|]. destruct (Z.lt_ge_cases e (a + Z.of_nat D)) as [L2|L2]; [exact L2|]. exfalso. apply N. rewrite GT by (auto; lia). apply Z.divide_0_r.
    + exists i0, j0. split; [exact Hi0|]. split; [exact Hj0|]. rewrite TR by assumption. rewrite Z.ltb_irrefl. replace (Z.to_nat (a - a)) with 0 by lia. now apply ND.
    + exists i1, j1. split; [exact Hi1|]. split; [exact Hj1|]. rewrite TR by assumption. destruct (Z.ltb_spec (a + Z.of_nat D - 1) a) as [L|L]; [lia|]. replace (Z.to_nat (a + Z.of_nat D - 1 - a)) with (D - 1) by lia. now apply ND.
Qed.

Lemma in_cumsum limit l : forall acc x, In x (cumsum_le limit acc l) -> In x l.
Proof. induction l as [|y l IH]; intros acc x; cbn [cumsum_le]; [intros []|]. destruct (_ <=? limit)%Z; [intros [<-|H]; [now left|right; eauto]|intros H; right; eauto]. Qed.
Lemma in_selection rows k limit x : In x (selection rows k limit) -> fst (fst x) = k.
Proof.
  unfold selection. intros H. apply in_cumsum in H. apply (Permutation_in _ (PropsSearch.sort_perm _)) in H. apply filter_In in H. now apply Nat.eqb_eq.
Qed.
Lemma discard_run rint crit ts : forall s, st_run rint crit s (map SDiscard ts) = Ok (fold_left st_discard ts s).
Proof. unfold st_run. induction ts as [|t ts IH]; intros s; [reflexivity|]. cbn [map foldM st_apply bind fold_left]. apply IH. Qed.

(** the tracker of a search is the result of a run of additions of images (and of
    deletions) on a new tracker *)
Lemma search_reach n r p S R d tb rint crit order size rand L first count use_best save_best step s0 saves s :
  jones_summand n r p = Ok S -> jones_rep n r p = Ok R -> 1 <= r -> rep_dimension R = Ok (Z.of_nat d) -> p <> 1%Z -> 2 <= n -> gnf_table n tb -> 1 <= size -> (0 <= step)%Z ->
  (p <> 0%Z -> (Z.of_nat d * (((step + 1) * Z.of_nat (n * (n - 1)) + 1) * ((p - 1) * (p - 1))) < 2 ^ 31)%Z) ->
  (p = 0%Z -> n <= 9 /\ forall x X, ptv tb n x -> (Z.of_nat (length (o_factors x)) <= Z.max L (first + Z.of_nat count - 1 + step))%Z -> rep_evaluate_nf tb R x = Ok X -> int64_matrix X) ->
  st_bootstrap rint crit tb S (strk_init size rand) L = Ok s0 -> search_steps rint crit tb S order s0 first count use_best save_best step = Ok (saves, s) ->
  exists os, st_run rint crit (strk_init size rand) os = Ok s /\ forall bs im, In (SAdd bs im) os -> images_of n p R tb d (if (0 <? p)%Z then I32 else I64) bs im /\ Forall (ptv tb n) bs.
Proof.
  intros ES EJ Hr ED Hp1 n2 Ht Hsz Hst BN HZ HBt HSt. destruct (jones_all n r p R EJ) as (_ & _ & _ & _ & _ & _ & Hp & _). clear - ES EJ Hr ED Hp1 n2 Ht Hsz Hst BN HZ HBt HSt Hp.
  set (t := if (0 <? p)%Z then I32 else I64) in *.
  assert (ESn : js_n S = n). { unfold jones_summand in ES. destruct (assert_ (1 <=? n)); [|discriminate]. cbn [bind] in ES. destruct (assert_ (2 * r <=? n)); [|discriminate]. cbn [bind] in ES. destruct (assert_ (0 <=? p)%Z); [|discriminate]. cbn [bind] in ES. injection ES as <-. reflexivity. }
  set (good := fun bs im => images_of n p R tb d t bs im /\ Forall (ptv tb n) bs).
  set (reach := fun s => exists os, st_run rint crit (strk_init size rand) os = Ok s /\ forall bs im, In (SAdd bs im) os -> good bs im).
  assert (FIN : forall s, reach s -> forall tag bk, dget stag_eqb (st_buckets s) tag = Some bk -> apre (sb_images bk) = [size] /\ images_of n p R tb d t (sb_braids bk) (take_items (sb_images bk) (length (sb_braids bk))) /\
    forall c, In c (sb_braids bk) -> ptv tb n c /\ length (o_factors c) = fst tag /\ forall X, rep_evaluate_nf tb R c = Ok X -> rep_span p d X (snd tag)).
  { intros q (os & E & HO) tag bk G. apply (C76_stored_braidsearch n p R tb d t rint crit size rand os q (ptv tb n) Hsz Hp HO E tag bk G). }
  assert (R0 : reach s0).
  { destruct (PropsSearch.C79_braidsearch n tb rint crit S _ L s0 n2 Ht ESn HBt) as (ops & E & F & _ & IN & _). exists (PropsSearch.adds ops). split; [exact E|]. intros bs im Hin. unfold PropsSearch.adds in Hin. apply in_map_iff in Hin. destruct Hin as ([bs1 im1] & Q & Hin). injection Q as -> ->.
    rewrite Forall_forall in F. specialize (F _ Hin). cbn [fst snd] in F. assert (HB : forall b, In b bs -> nf_value tb n b /\ o_pow b = 0%Z /\ 1 <= length (o_factors b) <= Z.to_nat L) by (intros b Hb; apply IN; apply in_flat_map; exists (bs, im); auto).
    assert (FP : Forall (ptv tb n) bs) by (apply Forall_forall; intros b Hb; destruct (HB b Hb) as (V & P0 & _); split; assumption). split; [|exact FP].
    assert (EL : exists b0 bs', bs = b0 :: bs' /\ forall b, In b bs -> length (o_factors b) = length (o_factors b0)).
    { unfold js_evaluate_same_length, js_evaluate_prefixes in F. destruct bs as [|b0 bs']; [discriminate|]. exists b0, bs'. split; [reflexivity|]. change (get (b0 :: bs') 0) with (Ok b0) in F. cbn [bind] in F. destruct (forallb _ (b0 :: bs')) eqn:FB; [|discriminate]. rewrite forallb_forall in FB. intros b Hb. apply Nat.eqb_eq. now apply FB. }
    destruct EL as (b0 & bs' & EB & EL). destruct (C61_summand n r p S R tb bs d (length (o_factors b0)) ES EJ Hr Ht Hp1 ED) as (P & EP & W & I1 & I2 & I3 & I4 & K).
    - rewrite EB. discriminate.
    - intros b Hb. split; [apply (HB b Hb)|now apply EL].
    - intros P0. eapply Z.le_lt_trans; [|exact (BN P0)]. apply Z.mul_le_mono_nonneg_l; [lia|]. apply Z.mul_le_mono_nonneg_r; [nia|]. nia.
    - intros P0. destruct (HZ P0) as [H9 HX]. split; [exact H9|]. intros b q X Hb Hq EX. apply (HX _ X) in EX; [exact EX| |].
      + destruct (HB b Hb) as (V & Pb & _). destruct (val_enc n tb n2 Ht b V) as [[e l] [Ho Eb]]. rewrite Eb in *. cbn [TableTheory.enc o_pow o_factors fst snd] in *. subst e. split; [|reflexivity]. rewrite firstn_map. apply (enc_val n tb n2 Ht (0%Z, firstn q l)). exact (PropsSearch.ok_prefix n n2 [] l q Ho).
      + cbn [o_factors]. rewrite firstn_length. destruct (HB b Hb) as (_ & _ & Lb). lia.
    - rewrite F in EP. injection EP as <-. split; [exact W|]. do 4 (split; [assumption|]). intros k b Hk. destruct (K k b Hk) as (K1 & K2 & K3). split; [apply HB; now apply nth_error_In in Hk|]. auto. }
  assert (DESC : forall q tag q', (fst tag < Z.to_nat (first + Z.of_nat count)) -> reach q -> st_nf_descendants rint crit tb S q tag step = Ok q' -> reach q').
  { intros q tag q' Hk Rq E. destruct (dget stag_eqb (st_buckets q) tag) as [bk|] eqn:G; [|unfold st_nf_descendants, dgetE in E; rewrite G in E; discriminate].
    destruct (FIN q Rq tag bk G) as (PA & HI & HB). destruct (C76_braidsearch n r p S R d tb rint crit q tag bk step size) as (ads & EA & IA & dss & ED' & PD); auto.
    - intros b Hb. destruct (HB b Hb) as ([_ P0] & Lb & _). auto.
    - intros P0. destruct (HZ P0) as [H9 HX]. split; [exact H9|]. intros x X Vx Lx. apply HX; [exact Vx|lia].
    - destruct Rq as (os & Eo & HO). exists (os ++ PropsSearch.adds ads). split; [rewrite PropsSearch.st_run_app, Eo; cbn [bind]; rewrite <- EA; exact E|]. intros bs im Hin. apply in_app_iff in Hin. destruct Hin as [Hin|Hin]; [now apply HO|].
      unfold PropsSearch.adds in Hin. apply in_map_iff in Hin. destruct Hin as ([bs1 im1] & Q & Hin). injection Q as -> ->. rewrite Forall_forall in IA. split; [exact (proj1 (IA _ Hin))|]. apply Forall_forall. intros c Hc.
      assert (Hd : In c (concat dss)) by (apply (Permutation_in _ PD), in_concat; exists bs; split; [apply in_map_iff; exists (bs, im); auto|exact Hc]). apply in_concat in Hd. destruct Hd as (ds & Hds & Hcd). destruct (PropsSearch.mapM_in _ _ _ _ ED' Hds) as (b & Hb & Eb). destruct (HB b Hb) as ([Vb Pb] & _ & _).
      destruct (proj1 (C76_prefix_descendants n tb b step ds n2 Ht Vb Pb Hst Eb c) Hcd) as (Vc & Pc & _). split; assumption. }
  assert (STEP : forall q k sel saved q', (k < Z.to_nat (first + Z.of_nat count)) -> reach q -> search_step rint crit tb S order q k use_best save_best step = Ok (sel, saved, q') -> reach q').
  { intros q k sel saved q' Hk Rq. unfold search_step. set (rows := order k (stats_rows q)). destruct (mapM _ _) as [sv|]; [|discriminate]. cbn [bind]. destruct (foldM _ _ q) as [q1|] eqn:EF; [|discriminate]. cbn [bind]. intros [= <- <- <-].
    assert (R1 : reach q1).
    { assert (HS : forall x, In x (map fst (selection rows k use_best)) -> fst x = k) by (intros x Hx; apply in_map_iff in Hx; destruct Hx as (y & <- & Hy); exact (in_selection _ _ _ _ Hy)). revert HS EF Rq. generalize (map fst (selection rows k use_best)) as l. clear - DESC Hk. intros l. revert q. induction l as [|tg l IH]; intros q HS; cbn [foldM]; [now intros [= <-]|].
      destruct (st_nf_descendants rint crit tb S q tg step) as [q2|] eqn:E; [|discriminate]. cbn [bind]. intros EF Rq. apply (IH q2); [intros; apply HS; now right|exact EF|]. apply (DESC q tg q2); auto. rewrite (HS tg (or_introl eq_refl)). exact Hk. }
    destruct R1 as (os & Eo & HO). exists (os ++ map SDiscard (map fst (filter (fun r0 => fst (fst r0) <=? k) rows))). split; [rewrite PropsSearch.st_run_app, Eo; cbn [bind]; apply discard_run|]. intros bs im Hin. apply in_app_iff in Hin. destruct Hin as [Hin|Hin]; [now apply HO|]. apply in_map_iff in Hin. destruct Hin as (? & ? & _). discriminate. }
  assert (RS : reach s).
  { unfold search_steps in HSt. assert (K : forall l a q a' q', (forall i, In i l -> i < count) -> reach q -> foldM (fun '(saves, s) i => let k := (first + Z.of_nat i)%Z in if (k <? 0)%Z then Ok (saves ++ [[]], s) else '(_, saved, s) <- search_step rint crit tb S order s (Z.to_nat k) use_best save_best step ;; Ok (saves ++ [saved], s)) l (a, q) = Ok (a', q') -> reach q').
    { clear - STEP. induction l as [|i l IH]; intros a q a' q' Hl Rq; cbn [foldM]; [intros E; injection E as _ <-; exact Rq|]. cbv zeta. destruct (Z.ltb_spec (first + Z.of_nat i) 0) as [N|N].
      - cbn [bind]. apply IH; auto. intros; apply Hl; now right.
      - destruct (search_step _ _ _ _ _ q _ _ _ _) as [[[sel sv] q3]|] eqn:EQ; [|discriminate]. cbn [bind]. apply IH; [intros; apply Hl; now right|]. apply (STEP q _ sel sv q3) in EQ; auto. specialize (Hl i (or_introl eq_refl)). lia. }
    apply (K _ _ _ _ _ (fun i Hi => proj2 (proj1 (in_seq count 0 i) Hi)) R0 HSt). }
  exact RS.
Qed.
(** C76, the search: in every state that bootstrap_exhaustive and then any number of
    iterations of the main loop of search.py lead to, every bucket holds positive
    normal forms of the length of its tag next to their own images modulo p,
    and the second component of the tag is the projlen of each of these images. *)
Theorem C76_search n r p S R d tb rint crit order size rand L first count use_best save_best step s0 saves s :
  jones_summand n r p = Ok S -> jones_rep n r p = Ok R -> 1 <= r -> rep_dimension R = Ok (Z.of_nat d) -> p <> 1%Z -> 2 <= n -> gnf_table n tb -> 1 <= size -> (0 <= step)%Z ->
  (p <> 0%Z -> (Z.of_nat d * (((step + 1) * Z.of_nat (n * (n - 1)) + 1) * ((p - 1) * (p - 1))) < 2 ^ 31)%Z) ->
  (p = 0%Z -> n <= 9 /\ forall x X, ptv tb n x -> (Z.of_nat (length (o_factors x)) <= Z.max L (first + Z.of_nat count - 1 + step))%Z -> rep_evaluate_nf tb R x = Ok X -> int64_matrix X) ->
  st_bootstrap rint crit tb S (strk_init size rand) L = Ok s0 -> search_steps rint crit tb S order s0 first count use_best save_best step = Ok (saves, s) ->
  forall tag bk, dget stag_eqb (st_buckets s) tag = Some bk ->
    images_of n p R tb d (if (0 <? p)%Z then I32 else I64) (sb_braids bk) (take_items (sb_images bk) (length (sb_braids bk))) /\
    forall c, In c (sb_braids bk) -> ptv tb n c /\ length (o_factors c) = fst tag /\ forall X, rep_evaluate_nf tb R c = Ok X -> rep_span p d X (snd tag).
Proof.
  intros ES EJ Hr ED Hp1 n2 Ht Hsz Hst BN HZ HBt HSt tag bk G. destruct (jones_all n r p R EJ) as (_ & _ & _ & _ & _ & _ & Hp & _).
  destruct (search_reach n r p S R d tb rint crit order size rand L first count use_best save_best step s0 saves s ES EJ Hr ED Hp1 n2 Ht Hsz Hst BN HZ HBt HSt) as (os & E & HO).
  destruct (C76_stored_braidsearch n p R tb d _ rint crit size rand os s (ptv tb n) Hsz Hp HO E tag bk G) as (_ & K1 & K2). auto.
Qed.

(** C76: nf_descendants raises no error on a bucket of a tracker filled with images,
    if the filter gives one answer for each pair *)
Theorem C76_total_braidsearch n r p S R d tb rint crit size rand os s tag bk len :
  jones_summand n r p = Ok S -> jones_rep n r p = Ok R -> 1 <= r -> rep_dimension R = Ok (Z.of_nat d) -> p <> 1%Z -> 2 <= n -> gnf_table n tb -> 1 <= size -> (0 <= len)%Z ->
  (p <> 0%Z -> (Z.of_nat d * (((len + 1) * Z.of_nat (n * (n - 1)) + 1) * ((p - 1) * (p - 1))) < 2 ^ 31)%Z) ->
  (p = 0%Z -> n <= 9 /\ forall x X, ptv tb n x -> length (o_factors x) <= fst tag + Z.to_nat len -> rep_evaluate_nf tb R x = Ok X -> int64_matrix X) ->
  (forall bs im, exists keep, crit bs im = Ok keep /\ length keep <= length bs) ->
  (forall bs im, In (SAdd bs im) os -> images_of n p R tb d (if (0 <? p)%Z then I32 else I64) bs im /\ Forall (ptv tb n) bs) -> st_run rint crit (strk_init size rand) os = Ok s ->
  dget stag_eqb (st_buckets s) tag = Some bk -> exists s', st_nf_descendants rint crit tb S s tag len = Ok s'.
Proof.
  intros ES EJ Hr ED Hp1 n2 Ht Hsz Hlen BN HZ HC HO HR G. destruct (jones_all n r p R EJ) as (_ & _ & _ & _ & _ & _ & Hp & _). set (t := if (0 <? p)%Z then I32 else I64) in *.
  destruct (C76_stored_braidsearch n p R tb d t rint crit size rand os s (ptv tb n) Hsz Hp HO HR tag bk G) as (PA & HI & HB).
  destruct (C76_braidsearch n r p S R d tb rint crit s tag bk len size) as (ads & EA & IA & _); auto. { intros b Hb. destruct (HB b Hb) as ([_ P0] & Lb & _). auto. }
  assert (OPS : forall bs im, images_of n p R tb d t bs im -> sop_ok d d t (SAdd bs im)).
  { intros bs im (W & I1 & E1 & E2 & E3 & K). cbn. do 4 (split; [assumption|]). intros ix V. rewrite I1 in V. destruct (valid1 _ _ V) as [k [-> Hk]]. destruct (K k _ (nth_error_nth' bs (NFObj 0 0 []) Hk)) as (_ & _ & (i & j & Hi & Hj & NZ) & _). exists i, j, 0. rewrite E1, E2. auto. }
  destruct (st_new_run rint crit size rand d d t Hsz os s) as (h & _ & SO); [|exact HR|]. { apply Forall_forall. intros [bs im|tg] Ho; [|exact Logic.I]. apply OPS. now apply HO. }
  rewrite EA. clear EA HR G HB HI PA. revert s h SO. induction IA as [|[bs im] ads [I1 NE] IA IH]; intros s h SO; [exists s; reflexivity|]. cbn [fst snd] in I1, NE. unfold st_run, PropsSearch.adds. cbn [map foldM st_apply].
  destruct (st_add_total rint crit size rand d d t Hsz s h bs im (OPS bs im I1)) as (s1 & es & E1 & _ & SO1); [|exact SO|].
  - pose proof I1 as (W & J1 & E1 & E2 & E3 & K). split; [exact J1|]. split; [|split; [|apply HC]].
    + destruct bs as [|b bs']; [contradiction|]. destruct (K 0 b eq_refl) as (_ & _ & (i & j & Hi & Hj & NZ) & _). intros Z0. unfold acoef in NZ. rewrite Z0 in NZ. cbn in NZ. contradiction.
    + intros i Hi. destruct (K i _ (nth_error_nth' bs (NFObj 0 0 []) Hi)) as (_ & _ & NZ & _). rewrite E1, E2. split; [exact NZ|intros; lia].
  - rewrite E1. cbn [bind]. exact (IH s1 _ SO1).
Qed.

(** ** A case *)
Notation ex_run := (s <- PropsSearch.ex_tracker ;; '(saves, s') <- search_steps (fun _ => 0) every (gtb hdpick) PropsSearch.ex_js (fun _ l => rev l) s 1 2 4 4 1 ;; Ok (PropsSearch.contents s')).
Example C76_search_case : ex_run = Ok [((3, 7%Z), [[1; 4; 3]; [2; 3; 4]]%Z)].
Proof. vm_compute. reflexivity. Qed.
Example C76_search_case_hyps : exists R s0 saves s bk, jones_summand 3 1 2 = Ok PropsSearch.ex_js /\ jones_rep 3 1 2 = Ok R /\ rep_dimension R = Ok (Z.of_nat 2) /\ gnf_table 3 (gtb hdpick) /\
  (Z.of_nat 2 * (((1 + 1) * Z.of_nat (3 * (3 - 1)) + 1) * ((2 - 1) * (2 - 1))) < 2 ^ 31)%Z /\ PropsSearch.ex_tracker = Ok s0 /\
  search_steps (fun _ => 0) every (gtb hdpick) PropsSearch.ex_js (fun _ l => rev l) s0 1 2 4 4 1 = Ok (saves, s) /\ dget stag_eqb (st_buckets s) (3, 7%Z) = Some bk /\ length (sb_braids bk) = 2 /\
  (forall bs im, exists keep, every bs im = Ok keep /\ length keep <= length bs).
Proof.
  assert (L7 : 3 < 7) by lia. pose proof (gtb_is_table hdpick 3 hdpick_ok L7) as GT. pose proof C76_search_case as CC. assert (exists R, jones_rep 3 1 2 = Ok R /\ rep_dimension R = Ok (Z.of_nat 2)) as (R & EJ & ED) by (eexists; split; vm_compute; reflexivity).
  match type of CC with (bind ?e _ = _) => destruct e as [s0|] eqn:E0 end; [|discriminate CC]. cbn [bind] in CC. match type of CC with (bind ?e _ = _) => destruct e as [[saves s]|] eqn:E1 end; [|discriminate CC]. cbn [bind] in CC. injection CC as CC.
  assert (exists bk, st_buckets s = [((3, 7%Z), bk)] /\ length (sb_braids bk) = 2) as (bk & EB & LB). { unfold PropsSearch.contents in CC. destruct (st_buckets s) as [|[tg bk] [|? ?]]; try discriminate CC. cbn [map] in CC. injection CC as -> CC. exists bk. split; [reflexivity|]. apply (f_equal (@length _)) in CC. rewrite map_length in CC. exact CC. }
  exists R, s0, saves, s, bk. split; [reflexivity|]. split; [exact EJ|]. split; [exact ED|]. split; [exact GT|]. split; [cbn; lia|]. split; [reflexivity|]. split; [exact E1|]. split; [now rewrite EB|]. split; [exact LB|]. intros bs im. exists (map (fun _ => true) bs). split; [reflexivity|]. now rewrite map_length.
Qed.
