(** PropsSubstr.v – C104: braidsearch.Tracker.substrings. *)
From Verif Require Import Base ModelPoly SpecPoly PolyTheory PropsPoly ModelMatrix SpecMatrix MatrixTheory NumTheory ModelPolymat SpecPolymat PolymatTheory PropsPolymat PropsPolymat2 PropsPolymat3.
From Coq Require Import Permutation FinFun.
From Verif Require Import ModelPerm Germ GermNF GermAct GermBraid PermTheory WeakOrder PermWords SpecBraid BraidTheory FullTwistBraid FullTwist ModelBraid ModelTL ModelTLMor ModelRep SpecRep RepTheory RepCanon PropsRep PropsTwist ModelPolyRep TableTheory NFApi PermGerm PermTable PropsGNF PropsGNF2 PolyRepTheory PolyRepSpan PropsPolyRep PropsPolyRep2 JSTheory PropsJS DescTheory ModelTracker DescTheory2 DescTheory3.
From Verif Require Import SpecTracker TrackerTheory TrackerRun PropsTracker TrackerRun2 PropsTracker2 PropsDesc PropsDesc2 ModelTools.
From Verif Require PropsSearch PropsExtra.
Local Open Scope nat_scope.

Lemma sub_obj n tb b i j : 2 <= n -> gnf_table n tb -> nf_value tb n b -> i <= j -> j <= length (o_factors b) ->
  substring tb b i j = Ok (NFObj n (o_pow b) (firstn (j - i) (skipn i (o_factors b)))) /\ nf_value tb n (NFObj n (o_pow b) (firstn (j - i) (skipn i (o_factors b)))).
Proof.
  intros n2 Ht V A B. destruct (val_enc n tb n2 Ht b V) as [[d l] [Ho ->]]. cbn [o_factors o_pow o_n TableTheory.enc fst snd] in *. rewrite map_length in B.
  assert (Ho' : ok (PG n) (peqd n) (d, firstn (j - i) (skipn i l))).
  { apply (ok_normal n n2 d). destruct (proj1 (ok_normal n n2 d l) Ho) as [F C]. rewrite (PropsExtra.slice_split l i j A), !map_app in F, C.
    rewrite !Forall_app in F. apply PropsExtra.chain_app_inv in C. destruct C as [_ C]. apply PropsExtra.chain_app_inv in C. split; tauto. }
  unfold substring. cbn [o_factors o_pow o_n TableTheory.enc fst snd]. rewrite map_length, (proj2 (Nat.leb_le i j) A), (proj2 (Nat.leb_le j (length l)) B). cbn [andb assert_ bind].
  rewrite skipn_map, firstn_map. split; [apply (mkE n tb n2 Ht); exact Ho'|]. exact (enc_val n tb n2 Ht (d, _) Ho').
Qed.

(** steps that are runs of additions, as long as [P] holds *)
Lemma foldM_live {X} rint crit (P : strk -> Prop) (f : strk -> X -> res strk) l adss :
  Forall2 (fun x ads => (forall s, P s -> f s x = st_run rint crit s (PropsSearch.adds ads)) /\ forall s s', P s -> st_run rint crit s (PropsSearch.adds ads) = Ok s' -> P s') l adss ->
  forall s, P s -> foldM f l s = st_run rint crit s (PropsSearch.adds (concat adss)).
Proof.
  induction 1 as [|x ads l adss [H1 H2] F IH]; intros s Ps; [reflexivity|]. cbn [foldM concat]. rewrite H1 by exact Ps. unfold PropsSearch.adds. rewrite map_app, PropsSearch.st_run_app. fold (PropsSearch.adds ads) (PropsSearch.adds (concat adss)).
  destruct (st_run rint crit s (PropsSearch.adds ads)) as [s1|] eqn:E; [|reflexivity]. cbn [bind]. apply IH. exact (H2 s s1 Ps E).
Qed.
(** adding batches of images raises no error *)
Lemma adds_total n p R tb d t rint crit size rand : 1 <= size -> (forall bs im, exists keep, crit bs im = Ok keep /\ length keep <= length bs) ->
  forall os s ads, (forall bs im, In (SAdd bs im) os -> images_of n p R tb d t bs im) -> st_run rint crit (strk_init size rand) os = Ok s ->
  Forall (fun ad => images_of n p R tb d t (fst ad) (snd ad) /\ fst ad <> []) ads -> exists s', st_run rint crit s (PropsSearch.adds ads) = Ok s'.
Proof.
  intros Hsz HC os s ads HO HR IA.
  assert (OPS : forall bs im, images_of n p R tb d t bs im -> sop_ok d d t (SAdd bs im)).
  { intros bs im (W & I1 & E1 & E2 & E3 & K). cbn. do 4 (split; [assumption|]). intros ix V. rewrite I1 in V. destruct (valid1 _ _ V) as [k [-> Hk]]. destruct (K k _ (nth_error_nth' bs (NFObj 0 0 []) Hk)) as (_ & _ & (i & j & Hi & Hj & NZ) & _). exists i, j, 0. rewrite E1, E2. auto. }
  destruct (st_new_run rint crit size rand d d t Hsz os s) as (h & _ & SO); [|exact HR|]. { apply Forall_forall. intros [bs im|tg] Ho; [|exact Logic.I]. apply OPS. now apply HO. }
  clear HR. revert s h SO. induction IA as [|[bs im] ads [I1 NE] IA IH]; intros s h SO; [exists s; reflexivity|]. cbn [fst snd] in I1, NE. unfold st_run, PropsSearch.adds. cbn [map foldM st_apply].
  destruct (st_add_total rint crit size rand d d t Hsz s h bs im (OPS bs im I1)) as (s1 & es & E1 & _ & SO1); [|exact SO|].
  - pose proof I1 as (W & J1 & E1 & E2 & E3 & K). split; [exact J1|]. split; [|split; [|apply HC]].
    + destruct bs as [|b bs']; [contradiction|]. destruct (K 0 b eq_refl) as (_ & _ & (i & j & Hi & Hj & NZ) & _). intros Z0. unfold acoef in NZ. rewrite Z0 in NZ. cbn in NZ. contradiction.
    + intros i Hi. destruct (K i _ (nth_error_nth' bs (NFObj 0 0 []) Hi)) as (_ & _ & NZ & _). rewrite E1, E2. split; [exact NZ|intros; lia].
  - rewrite E1. cbn [bind]. exact (IH s1 _ SO1).
Qed.
(** the buckets of a tracker are not empty *)
Lemma bucket_nonempty n p R tb d t rint crit size rand os s tag bk : 1 <= size -> (forall bs im, In (SAdd bs im) os -> images_of n p R tb d t bs im) -> st_run rint crit (strk_init size rand) os = Ok s ->
  dget stag_eqb (st_buckets s) tag = Some bk -> sb_braids bk <> [].
Proof.
  intros Hsz HO HR G. assert (F : Forall (sop_ok d d t) os).
  { apply Forall_forall. intros [bs im|tg] Ho; [|exact Logic.I]. destruct (HO bs im Ho) as (W & J1 & E1 & E2 & E3 & K). cbn. do 4 (split; [assumption|]). intros ix V. rewrite J1 in V. destruct (valid1 _ _ V) as [k [-> Hk]]. destruct (K k _ (nth_error_nth' bs (NFObj 0 0 []) Hk)) as (_ & _ & (i & j & Hi & Hj & NZ) & _). exists i, j, 0. rewrite E1, E2. auto. }
  destruct (st_new_run rint crit size rand d d t Hsz os s F HR) as (h & _ & (_ & _ & _ & SO)). specialize (SO tag). rewrite G in SO. destruct SO as (NE & B & _). destruct B as [b4 b13]. intros Q. rewrite Q in b4. symmetry in b4. apply map_eq_nil in b4. pose proof (held_len rint size rand tag h Hsz) as HL. rewrite b4 in HL. cbn [length] in HL. apply firsts_nil in NE. destruct (firsts _); [contradiction|cbn [length] in HL; lia].
Qed.

(** the windows that the method tries *)
Definition windows (len : nat) : list (nat * nat) := flat_map (fun i => map (pair i) (seq (i + 2) (len - 1 - (i + 2)))) (seq 1 (len - 2)).
Lemma windows_in len i j : In (i, j) (windows len) <-> 1 <= i /\ i + 2 <= j /\ j + 2 <= len.
Proof.
  unfold windows. rewrite in_flat_map. split.
  - intros (k & Hk & H). apply in_map_iff in H. destruct H as (m & [= -> ->] & Hm). apply in_seq in Hk, Hm. lia.
  - intros H. exists i. split; [apply in_seq; lia|]. apply in_map. apply in_seq. lia.
Qed.
Lemma windows_nodup len : NoDup (windows len).
Proof.
  unfold windows. generalize (seq_NoDup (len - 2) 1). generalize (seq 1 (len - 2)). induction 1 as [|i l N ND IH]; cbn [flat_map]; [constructor|].
  apply NoDup_app_intro; [|exact IH|].
  - apply Injective_map_NoDup; [intros x y [= ->]; reflexivity|apply seq_NoDup].
  - intros [a b] H1 H2. apply in_map_iff in H1. destruct H1 as (m & [= <- <-] & _). apply in_flat_map in H2. destruct H2 as (k & Hk & H). apply in_map_iff in H. destruct H as (m' & [= -> _] & _). contradiction.
Qed.

(** C104.  On a tracker filled with images, [substrings] is a sequence of additions of
    images: for every window (i, j) with 1 <= i, i + 2 <= j <= length - 2, the substrings
    from i to j of all braids of the bucket. *)
Theorem C104_substrings n r p S R d tb rint crit size rand os s tag bk :
  jones_summand n r p = Ok S -> jones_rep n r p = Ok R -> 1 <= r -> rep_dimension R = Ok (Z.of_nat d) -> p <> 1%Z -> 2 <= n -> gnf_table n tb -> 1 <= size ->
  (p <> 0%Z -> (Z.of_nat d * (Z.of_nat (n * (n - 1) + 1) * ((p - 1) * (p - 1))) < 2 ^ 31)%Z) ->
  (forall bs im, In (SAdd bs im) os -> images_of n p R tb d (if (0 <? p)%Z then I32 else I64) bs im) -> st_run rint crit (strk_init size rand) os = Ok s ->
  dget stag_eqb (st_buckets s) tag = Some bk ->
  (p = 0%Z -> n <= 9 /\ forall b i j c X, In b (sb_braids bk) -> substring tb b i j = Ok c -> rep_evaluate_nf tb R c = Ok X -> int64_matrix X) ->
  exists ads, st_substrings rint crit tb S s tag = st_run rint crit s (PropsSearch.adds ads) /\
    Forall (fun ad => images_of n p R tb d (if (0 <? p)%Z then I32 else I64) (fst ad) (snd ad) /\ fst ad <> []) ads /\
    exists ws, NoDup ws /\ (forall i j, In (i, j) ws <-> 1 <= i /\ i + 2 <= j /\ j + 2 <= fst tag) /\
      Forall2 (fun w ad => mapM (fun b => substring tb b (fst w) (snd w)) (sb_braids bk) = Ok (fst ad)) ws ads.
Proof.
  intros ES EJ Hr ED Hp1 n2 Ht Hsz BN HO HR G HZ. destruct (jones_all n r p R EJ) as (_ & _ & _ & _ & _ & _ & Hp & _). set (t := if (0 <? p)%Z then I32 else I64) in *.
  assert (HO' : forall bs im, In (SAdd bs im) os -> images_of n p R tb d t bs im /\ Forall (fun _ => True) bs) by (intros bs im H; split; [now apply HO|apply Forall_forall; auto]).
  destruct (C76_stored_braidsearch n p R tb d t rint crit size rand os s (fun _ => True) Hsz Hp HO' HR tag bk G) as (_ & I1 & B1).
  pose proof (bucket_nonempty n p R tb d t rint crit size rand os s tag bk Hsz HO HR G) as NE. set (bs := sb_braids bk) in *. set (len := fst tag) in *.
  assert (HV : forall b, In b bs -> nf_value tb n b /\ length (o_factors b) = len). { intros b Hb. destruct (B1 b Hb) as (_ & L & _). split; [|exact L]. apply In_nth_error in Hb. destruct Hb as [k Hk]. destruct I1 as (_ & _ & _ & _ & _ & K). apply (K k b Hk). }
  set (sub := fun i j (b : nfobj) => NFObj n (o_pow b) (firstn (j - i) (skipn i (o_factors b)))).
  assert (ESUB : forall i j, i <= j -> j <= len -> mapM (fun b => substring tb b i j) bs = Ok (map (sub i j) bs)). { intros i j A B. apply mapM_ok. intros b Hb. destruct (HV b Hb) as [V L]. apply (sub_obj n tb b i j n2 Ht V A). lia. }
  set (P := fun q : strk => dget stag_eqb (st_buckets q) tag = Some bk).
  assert (IMG : forall i, i <= len -> exists L, js_evaluate_prefixes tb S (map (sub i len) bs) = Ok L /\ forall j, i <= j -> j <= len -> exists im, get L (j - i) = Ok im /\ images_of n p R tb d t (map (sub i j) bs) im).
  { intros i Hi. destruct (C61_summand_prefixes n r p S R tb (map (sub i len) bs) d (len - i) ES EJ Hr Ht Hp1 ED) as (L & EL & LL & KL).
    - intros Q. apply map_eq_nil in Q. contradiction.
    - intros c Hc. apply in_map_iff in Hc. destruct Hc as (b & <- & Hb). destruct (HV b Hb) as [V Lb]. split; [apply (sub_obj n tb b i len n2 Ht V Hi); lia|]. unfold sub. cbn [o_factors]. rewrite firstn_length, skipn_length. lia.
    - exact BN.
    - intros P0. destruct (HZ P0) as [H9 HX]. split; [exact H9|]. intros c q X Hc Hq EX. apply in_map_iff in Hc. destruct Hc as (b & <- & Hb). unfold sub in EX. cbn [o_pow o_factors] in EX. rewrite firstn_firstn in EX. replace (Nat.min q (len - i)) with (i + q - i) in EX by lia. destruct (HV b Hb) as [V Lb].
      destruct (sub_obj n tb b i (i + q) n2 Ht V) as [E1 _]; [lia|lia|]. exact (HX b i (i + q) _ X Hb E1 EX).
    - exists L. split; [exact EL|]. intros j A B. destruct (nth_error L (j - i)) as [im|] eqn:EN; [|apply nth_error_None in EN; lia]. exists im. split; [unfold get; now rewrite EN|]. destruct (KL _ _ EN) as (W & J1 & J2 & J3 & J4 & K). rewrite map_length in J1.
      split; [exact W|]. split; [now rewrite map_length|]. do 3 (split; [assumption|]). intros k c Hk. rewrite nth_error_map in Hk. destruct (nth_error bs k) as [b|] eqn:Eb; [|discriminate]. cbn [option_map] in Hk. injection Hk as <-. assert (Hb : In b bs) by now apply nth_error_In in Eb. destruct (HV b Hb) as [V Lb].
      split; [apply (sub_obj n tb b i j n2 Ht V A); lia|]. destruct (K k (sub i len b)) as ((X & EX & IX) & K2); [rewrite nth_error_map, Eb; reflexivity|]. split; [|exact K2]. exists X. split; [|exact IX]. unfold sub in EX. cbn [o_pow o_factors] in EX. rewrite firstn_firstn in EX. replace (Nat.min (j - i) (len - i)) with (j - i) in EX by lia. exact EX. }
  assert (KEEP : forall i j im, 1 <= i -> i <= j -> j <= len -> forall q q', P q -> st_run rint crit q (PropsSearch.adds [(map (sub i j) bs, im)]) = Ok q' -> P q').
  { intros i j im H1 A B q q' Pq E. unfold P. rewrite <- Pq. apply (adds_keep rint crit [(map (sub i j) bs, im)] tag) with (s := q); [|exact E]. intros ad b [<-|[]] Hb. cbn [fst] in Hb. apply in_map_iff in Hb. destruct Hb as (b' & <- & Hb'). destruct (HV b' Hb') as [_ Lb]. unfold sub. cbn [o_factors]. rewrite firstn_length, skipn_length. fold len. lia. }
  (* the images for one i *)
  assert (INNER : forall i, 1 <= i -> i <= len -> exists L ads, js_evaluate_prefixes tb S (map (sub i len) bs) = Ok L /\
     Forall2 (fun j ad => get L (j - i) = Ok (snd ad) /\ fst ad = map (sub i j) bs /\ images_of n p R tb d t (fst ad) (snd ad)) (seq (i + 2) (len - 1 - (i + 2))) ads).
  { intros i H1 H2. destruct (IMG i H2) as (L & EL & KL). assert (exists ads, Forall2 (fun j ad => get L (j - i) = Ok (snd ad) /\ fst ad = map (sub i j) bs /\ images_of n p R tb d t (fst ad) (snd ad)) (seq (i + 2) (len - 1 - (i + 2))) ads) as [ads FA]; [|eauto].
    assert (Q : forall j, In j (seq (i + 2) (len - 1 - (i + 2))) -> i <= j /\ j <= len) by (intros j Hj; apply in_seq in Hj; lia). revert Q. generalize (seq (i + 2) (len - 1 - (i + 2))) as l. clear - KL. induction l as [|j l IH]; intros Q; [exists []; constructor|].
    destruct IH as [ads F]; [intros; apply Q; now right|]. destruct (Q j (or_introl eq_refl)) as [A B]. destruct (KL j A B) as (im & E & I). exists ((map (sub i j) bs, im) :: ads). constructor; [auto|exact F]. }
  assert (FUN : exists adss, Forall2 (fun i ads => 1 <= i <= len /\ exists L, js_evaluate_prefixes tb S (map (sub i len) bs) = Ok L /\
     Forall2 (fun j ad => get L (j - i) = Ok (snd ad) /\ fst ad = map (sub i j) bs /\ images_of n p R tb d t (fst ad) (snd ad)) (seq (i + 2) (len - 1 - (i + 2))) ads) (seq 1 (len - 2)) adss).
  { assert (Q : forall i, In i (seq 1 (len - 2)) -> 1 <= i <= len) by (intros i Hi; apply in_seq in Hi; lia). revert Q. generalize (seq 1 (len - 2)) as l. clear - INNER. induction l as [|i l IH]; intros Q; [exists []; constructor|]. destruct IH as [adss F]; [intros; apply Q; now right|]. destruct (Q i (or_introl eq_refl)) as [A B]. destruct (INNER i A B) as (L & ads & E & FA). exists (ads :: adss). constructor; [|exact F]. split; [lia|]. eauto. }
  destruct FUN as [adss FUN].
  assert (INR : forall i j, In j (seq (i + 2) (len - 1 - (i + 2))) -> i <= j /\ j <= len) by (intros i j Hj; apply in_seq in Hj; lia).
  exists (concat adss). split; [|split].
  - unfold st_substrings, dgetE at 1. rewrite G. cbn [assert_ bind]. fold bs. assert (exists b0, get bs 0 = Ok b0 /\ In b0 bs) as (b0 & E0 & Hb0) by (destruct bs as [|b0 bs']; [contradiction|]; exists b0; split; [reflexivity|now left]). rewrite E0. cbn [bind]. rewrite (proj2 (HV b0 Hb0)). cbv zeta.
    apply (foldM_live rint crit P); [|exact G]. eapply PropsTLMor2.Forall2_imp; [|exact FUN]. intros i ads ((H1 & H2) & L & EL & FA).
    assert (F1 : Forall2 (fun j ads1 => (forall q, P q -> (b <- dgetE stag_eqb (st_buckets q) tag ;; braids <- mapM (fun x => substring tb x i j) (sb_braids b) ;; im <- get L (j - i) ;; st_add rint crit q braids im) = st_run rint crit q (PropsSearch.adds ads1)) /\ forall q q', P q -> st_run rint crit q (PropsSearch.adds ads1) = Ok q' -> P q') (seq (i + 2) (len - 1 - (i + 2))) (map (fun ad => [ad]) ads)).
    { pose proof (INR i) as INRi. revert INRi FA. generalize (seq (i + 2) (len - 1 - (i + 2))) as l. clear - ESUB KEEP H1. intros l INRi FA. induction FA as [|j [c im] l ads (E1 & E2 & _) F IH]; cbn [map]; constructor.
      - cbn [fst snd] in *. subst c. destruct (INRi j (or_introl eq_refl)) as [A B]. split; [|now apply KEEP]. intros q Pq. unfold dgetE. unfold P in Pq. rewrite Pq. cbn [bind]. change (sb_braids bk) with bs. rewrite (ESUB i j A B). cbn [bind]. rewrite E1. cbn [bind]. unfold st_run. cbn [PropsSearch.adds map foldM st_apply]. destruct (st_add _ _ _ _ _); reflexivity.
      - apply IH. intros; apply INRi; now right. }
    assert (CC : concat (map (fun ad => [ad]) ads) = ads) by (clear; induction ads as [|x l IH]; [reflexivity|cbn [map concat app]; now rewrite IH]).
    split.
    + intros q Pq. unfold dgetE at 1. unfold P in Pq. rewrite Pq. cbn [bind]. change (sb_braids bk) with bs. rewrite (ESUB i len H2 (le_n _)). cbn [bind]. rewrite EL. cbn [bind]. rewrite (foldM_live rint crit P _ _ _ F1 q Pq). now rewrite CC.
    + intros q q' Pq. rewrite <- CC. revert q Pq. clear - F1. induction F1 as [|j a l adl [_ K] F IH]; intros q Pq; cbn [concat]; [unfold st_run, PropsSearch.adds; cbn [map foldM]; now intros [= <-]|]. unfold PropsSearch.adds. rewrite map_app, PropsSearch.st_run_app. fold (PropsSearch.adds a) (PropsSearch.adds (concat adl)). destruct (st_run rint crit q (PropsSearch.adds a)) as [q1|] eqn:E; [|discriminate]. cbn [bind]. apply IH. exact (K q q1 Pq E).
  - clear - FUN NE. induction FUN as [|i ads l adss (_ & L & _ & FA) F IH]; cbn [concat]; [constructor|]. apply Forall_app. split; [|exact IH]. clear IH F. induction FA as [|j ad l' ads (_ & E & I) F IH]; constructor; [|exact IH]. split; [exact I|]. rewrite E. intros Q. apply map_eq_nil in Q. contradiction.
  - exists (windows len). split; [apply windows_nodup|]. split; [intros i j; apply windows_in|]. unfold windows. clear - FUN ESUB INR. induction FUN as [|i ads l adss (_ & L & _ & FA) F IH]; cbn [flat_map concat]; [constructor|]. apply Forall2_app; [|exact IH]. clear IH F. specialize (INR i). revert INR FA. generalize (seq (i + 2) (len - 1 - (i + 2))) as l'. intros l' INR FA. induction FA as [|j ad l' ads (_ & E & _) F IH]; cbn [map]; constructor; [|apply IH; intros; apply INR; now right].
    cbn [fst snd]. destruct (INR j (or_introl eq_refl)) as [A B]. rewrite E. now apply ESUB.
Qed.
(** ... and it raises no error, if the filter gives one answer for each pair *)
Theorem C104_total n r p S R d tb rint crit size rand os s tag bk :
  jones_summand n r p = Ok S -> jones_rep n r p = Ok R -> 1 <= r -> rep_dimension R = Ok (Z.of_nat d) -> p <> 1%Z -> 2 <= n -> gnf_table n tb -> 1 <= size ->
  (p <> 0%Z -> (Z.of_nat d * (Z.of_nat (n * (n - 1) + 1) * ((p - 1) * (p - 1))) < 2 ^ 31)%Z) ->
  (forall bs im, In (SAdd bs im) os -> images_of n p R tb d (if (0 <? p)%Z then I32 else I64) bs im) -> st_run rint crit (strk_init size rand) os = Ok s ->
  dget stag_eqb (st_buckets s) tag = Some bk ->
  (p = 0%Z -> n <= 9 /\ forall b i j c X, In b (sb_braids bk) -> substring tb b i j = Ok c -> rep_evaluate_nf tb R c = Ok X -> int64_matrix X) ->
  (forall bs im, exists keep, crit bs im = Ok keep /\ length keep <= length bs) -> exists s', st_substrings rint crit tb S s tag = Ok s' /\ dget stag_eqb (st_buckets s') tag = Some bk.
Proof.
  intros ES EJ Hr ED Hp1 n2 Ht Hsz BN HO HR G HZ HC. destruct (C104_substrings n r p S R d tb rint crit size rand os s tag bk ES EJ Hr ED Hp1 n2 Ht Hsz BN HO HR G HZ) as (ads & E & F & ws & ND & HW & F2). destruct (jones_all n r p R EJ) as (_ & _ & _ & _ & _ & _ & Hp & _).
  destruct (adds_total n p R tb d _ rint crit size rand Hsz HC os s ads HO HR F) as [s' E']. exists s'. split; [congruence|]. rewrite <- G. apply (adds_keep rint crit ads tag) with (s := s); [|exact E'].
  intros ad c Had Hc. apply In_nth_error in Had. destruct Had as [k Hk]. assert (Lk : k < length ads) by (apply nth_error_Some; congruence). pose proof (PropsTLMor2.Forall2_len _ _ _ F2) as L2. destruct (nth_error ws k) as [[i j]|] eqn:Ew; [|apply nth_error_None in Ew; lia].
  destruct (PropsTLMor2.Forall2_nth_error _ _ _ F2 k _ Ew) as (ad' & Ea & EM). rewrite Hk in Ea. injection Ea as <-. cbn [fst snd] in EM. assert (Wij : In (i, j) ws) by (now apply nth_error_In in Ew). apply HW in Wij.
  destruct (PropsSearch.mapM_in _ _ _ _ EM Hc) as (b & Hb & Eb). unfold substring in Eb. destruct ((i <=? j) && (j <=? length (o_factors b))); [|discriminate]. cbn [assert_ bind] in Eb. assert (LE : length (o_factors c) = length (firstn (j - i) (skipn i (o_factors b)))). { clear - Eb. unfold mk in Eb. destruct (tb (o_n b)) as [tt|]; [|discriminate]. cbn [bind] in Eb. destruct (is_factors_normalised _ _) as [x|]; [|discriminate]. cbn [bind] in Eb. destruct (assert_ x); [|discriminate]. cbn [bind] in Eb. injection Eb as <-. reflexivity. } rewrite LE, firstn_length. lia.
Qed.
(** A bucket of braids of length at most 4 has no such window: nothing happens. *)
Theorem C104_short n r p S R d tb rint crit size rand os s tag bk :
  jones_summand n r p = Ok S -> jones_rep n r p = Ok R -> 1 <= r -> rep_dimension R = Ok (Z.of_nat d) -> p <> 1%Z -> 2 <= n -> gnf_table n tb -> 1 <= size ->
  (p <> 0%Z -> (Z.of_nat d * (Z.of_nat (n * (n - 1) + 1) * ((p - 1) * (p - 1))) < 2 ^ 31)%Z) ->
  (forall bs im, In (SAdd bs im) os -> images_of n p R tb d (if (0 <? p)%Z then I32 else I64) bs im) -> st_run rint crit (strk_init size rand) os = Ok s ->
  dget stag_eqb (st_buckets s) tag = Some bk ->
  (p = 0%Z -> n <= 9 /\ forall b i j c X, In b (sb_braids bk) -> substring tb b i j = Ok c -> rep_evaluate_nf tb R c = Ok X -> int64_matrix X) ->
  fst tag <= 4 -> st_substrings rint crit tb S s tag = Ok s.
Proof.
  intros ES EJ Hr ED Hp1 n2 Ht Hsz BN HO HR G HZ L4. destruct (C104_substrings n r p S R d tb rint crit size rand os s tag bk ES EJ Hr ED Hp1 n2 Ht Hsz BN HO HR G HZ) as (ads & E & F & ws & ND & HW & F2).
  destruct ws as [|[i j] ws]; [|exfalso; specialize (HW i j); destruct HW as [HW _]; specialize (HW (or_introl eq_refl)); lia]. inversion F2; subst. rewrite E. reflexivity.
Qed.
Theorem C104_missing tb rint crit S s tag : dget stag_eqb (st_buckets s) tag = None -> st_substrings rint crit tb S s tag = Err AssertionError.
Proof. intros H. unfold st_substrings. now rewrite H. Qed.

(** A case: one braid of length 5; only the factors 1 and 2 are tried. *)
Notation exb := (NFObj 3 0 [1; 4; 3; 1; 4]%Z).
Notation exb3 := (NFObj 3 0 [1; 4; 3]%Z).
Notation ex_im b := (js_evaluate_same_length (gtb hdpick) PropsSearch.ex_js [b]).
Notation ex_add b := (im <- ex_im b ;; st_run (fun _ => 0) every (strk_init 2 true) [SAdd [b] im]).
Notation ex_sub b tag := (s <- ex_add b ;; s' <- st_substrings (fun _ => 0) every (gtb hdpick) PropsSearch.ex_js s tag ;; Ok (PropsSearch.contents s, PropsSearch.contents s')).
Example C104_case : ex_sub exb (5, 11%Z) = Ok ([((5, 11%Z), [[1; 4; 3; 1; 4]]%Z)], [((5, 11%Z), [[1; 4; 3; 1; 4]]%Z); ((2, 5%Z), [[4; 3]]%Z)]).
Proof. vm_compute. reflexivity. Qed.
(** The hypotheses hold for a tracker that got one braid. *)
Lemma ex_add_hyps b s : nf_value (gtb hdpick) 3 b -> ex_add b = Ok s -> exists R os, jones_summand 3 1 2 = Ok PropsSearch.ex_js /\ jones_rep 3 1 2 = Ok R /\ rep_dimension R = Ok (Z.of_nat 2) /\ gnf_table 3 (gtb hdpick) /\
  (Z.of_nat 2 * (Z.of_nat (3 * (3 - 1) + 1) * ((2 - 1) * (2 - 1))) < 2 ^ 31)%Z /\ st_run (fun _ => 0) every (strk_init 2 true) os = Ok s /\
  (forall bs im, In (SAdd bs im) os -> images_of 3 2 R (gtb hdpick) 2 I32 bs im) /\ (forall bs im, exists keep, every bs im = Ok keep /\ length keep <= length bs).
Proof.
  intros V EA. assert (L7 : 3 < 7) by lia. pose proof (gtb_is_table hdpick 3 hdpick_ok L7) as GT. assert (exists R, jones_rep 3 1 2 = Ok R /\ rep_dimension R = Ok (Z.of_nat 2)) as (R & EJ & ED) by (eexists; split; vm_compute; reflexivity).
  destruct (C61_summand 3 1 2 PropsSearch.ex_js R (gtb hdpick) [b] 2 (length (o_factors b))) as (P & EP & W & I1 & I2 & I3 & I4 & K); auto; try lia; try discriminate.
  - intros c [<-|[]]. auto.
  - rewrite EP in EA. cbn [bind] in EA. exists R, [SAdd [b] P]. split; [reflexivity|]. split; [exact EJ|]. split; [exact ED|]. split; [exact GT|]. split; [cbn; lia|]. split; [exact EA|]. split.
    + intros bs im [E|[]]. injection E as <- <-. split; [exact W|]. do 4 (split; [assumption|]). intros k c Hk. destruct k as [|[|k]]; [|discriminate|discriminate]. injection Hk as <-. destruct (K 0 b eq_refl) as (K1 & K2 & K3). auto.
    + intros bs im. exists (map (fun _ => true) bs). split; [reflexivity|]. now rewrite map_length.
Qed.
Example C104_case_hyps : exists R s os bk, ex_add exb = Ok s /\ jones_summand 3 1 2 = Ok PropsSearch.ex_js /\ jones_rep 3 1 2 = Ok R /\ rep_dimension R = Ok (Z.of_nat 2) /\ gnf_table 3 (gtb hdpick) /\
  (Z.of_nat 2 * (Z.of_nat (3 * (3 - 1) + 1) * ((2 - 1) * (2 - 1))) < 2 ^ 31)%Z /\ st_run (fun _ => 0) every (strk_init 2 true) os = Ok s /\
  (forall bs im, In (SAdd bs im) os -> images_of 3 2 R (gtb hdpick) 2 I32 bs im) /\ (forall bs im, exists keep, every bs im = Ok keep /\ length keep <= length bs) /\ dget stag_eqb (st_buckets s) (5, 11%Z) = Some bk.
Proof.
  pose proof C104_case as CC. match type of CC with (bind ?e _ = _) => destruct e as [s|] eqn:E0 end; [|discriminate CC]. cbn [bind] in CC.
  assert (V : nf_value (gtb hdpick) 3 exb) by (eexists _, 0%Z, [1; 4; 3; 1; 4]%Z; split; [vm_compute; reflexivity|split; [cbn; repeat constructor; lia|vm_compute; reflexivity]]).
  destruct (ex_add_hyps exb s V E0) as (R & os & H1 & H2 & H3 & H4 & H5 & H6 & H7 & H8).
  assert (exists bk, dget stag_eqb (st_buckets s) (5, 11%Z) = Some bk) as [bk EB]. { destruct (st_substrings _ _ _ _ _ _); [|discriminate CC]. cbn [bind] in CC. injection CC as CC _. clear - CC. unfold PropsSearch.contents in CC. destruct (st_buckets s) as [|[tg bk] [|? ?]]; try discriminate CC. cbn [map] in CC. injection CC as -> _. exists bk. reflexivity. }
  exists R, s, os, bk. split; [reflexivity|]. do 8 (split; [assumption|]). exact EB.
Qed.
(** The docstring promises all substrings of length 2 or more; the prefix of length 2 of
    this braid of length 3 is not tried, although every pair passes the filter and
    nothing is stored for length 2. *)
Theorem C104_all_refuted : exists s s' c, ex_add exb3 = Ok s /\ substring (gtb hdpick) exb3 0 2 = Ok c /\ st_substrings (fun _ => 0) every (gtb hdpick) PropsSearch.ex_js s (3, 7%Z) = Ok s' /\
  (exists bk, dget stag_eqb (st_buckets s) (3, 7%Z) = Some bk /\ In exb3 (sb_braids bk)) /\ forall tag bk, In (tag, bk) (st_buckets s') -> ~ In c (sb_braids bk).
Proof.
  assert (CC : (s <- ex_add exb3 ;; s' <- st_substrings (fun _ => 0) every (gtb hdpick) PropsSearch.ex_js s (3, 7%Z) ;; Ok (map (fun '(t, b) => (t, sb_braids b)) (st_buckets s), map (fun '(t, b) => (t, sb_braids b)) (st_buckets s'))) = Ok ([((3, 7%Z), [exb3])], [((3, 7%Z), [exb3])])) by (vm_compute; reflexivity).
  match type of CC with (bind ?e _ = _) => destruct e as [s|] eqn:E0 end; [|discriminate CC]. cbn [bind] in CC. destruct (st_substrings _ _ _ _ _ _) as [s'|] eqn:E1; [|discriminate CC]. cbn [bind] in CC. injection CC as C1 C2.
  exists s, s', (NFObj 3 0 [1; 4]%Z). split; [reflexivity|]. split; [vm_compute; reflexivity|]. split; [exact E1|]. split.
  - destruct (st_buckets s) as [|[tg bk] [|? ?]]; try discriminate C1. cbn [map] in C1. injection C1 as -> C1. exists bk. split; [reflexivity|]. rewrite C1. now left.
  - intros tag bk Hin Hc. destruct (st_buckets s') as [|[tg bk'] [|? ?]]; try discriminate C2. cbn [map] in C2. injection C2 as -> C2. destruct Hin as [Hin|[]]. injection Hin as _ <-. rewrite C2 in Hc. destruct Hc as [Hc|[]]. discriminate.
Qed.
