(** PropsProduct.v – C103: braidsearch.Tracker.bucket_product offers every product of a
    braid of the first bucket with a braid of the second, next to its image. *)
From Verif Require Import Base ModelPoly SpecPoly PolyTheory PropsPoly ModelMatrix SpecMatrix MatrixTheory NumTheory ModelPolymat SpecPolymat PolymatTheory PropsPolymat PropsPolymat2 PropsPolymat3.
From Coq Require Import Permutation Setoid Morphisms.
From Verif Require Import ModelPerm Germ GermNF GermAct GermBraid PermTheory WeakOrder PermWords SpecBraid BraidTheory FullTwistBraid FullTwist ModelBraid ModelTL ModelTLMor ModelRep SpecRep RepTheory RepCanon PropsRep PropsTwist ModelPolyRep TableTheory NFApi PermGerm PermTable PropsGNF PropsGNF2 PolyRepTheory PolyRepSpan PropsPolyRep PropsPolyRep2 JSTheory PropsJS DescTheory ModelTracker DescTheory2 DescTheory3.
From Verif Require Import SpecTracker TrackerTheory TrackerRun PropsTracker TrackerRun2 PropsTracker2 PropsDesc PropsDesc2.
From Verif Require PropsSearch.
Local Open Scope nat_scope.
#[local] Existing Instance neqp_equiv.
#[local] Existing Instance pmeq_equiv.

(** axes of lengths N, 1 and 1, M *)
Lemma bc_outer2 N M : broadcasts [N; 1] [1; M] [N; M].
Proof.
  assert (AX : forall a b k, axis [a; b] k = match k with 0 => b | 1 => a | _ => 1 end) by (intros a b [|[|[|k]]]; reflexivity).
  split; [|split; [reflexivity|]]; intros k; rewrite !AX; destruct k as [|[|k]]; cbn; auto; destruct (Nat.eqb_spec N 1); auto.
Qed.

Section I.
Variables (n r : nat) (p : Z) (R : rep) (d : nat) (tb : nat -> res (nftable (list nat))).
Hypothesis (EJ : jones_rep n r p = Ok R) (ED : rep_dimension R = Ok (Z.of_nat d)) (Hp1 : p <> 1%Z) (n2 : 2 <= n) (Ht : gnf_table n tb).
Local Notation IM := (images_of n p R tb d).
Local Notation bwd := (DescTheory2.bwd tb).
(** all products, the left factor first *)
Lemma outer_product2 t bs left ys rights len : bs <> [] -> ys <> [] -> IM t bs left -> IM t ys rights -> (forall y, In y ys -> length (o_factors y) <= len) ->
  (p <> 0%Z -> in_dtype t p /\ (Z.of_nat d * (Z.of_nat ((len + 1) * (n * (n - 1)) + 1) * ((p - 1) * (p - 1))) < 2 ^ (dbits t - 1))%Z) ->
  (p = 0%Z -> forall b y c X, In b bs -> In y ys -> nf_mul tb b y = Ok c -> rep_evaluate_nf tb R c = Ok X -> forall i j e, in_dtype t (numcoef (mentry X i j) e)) ->
  exists C prods, polymat_mul p (outer_right left) (outer_left rights) = Ok C /\ mapM (fun '(b, y) => nf_mul tb b y) (list_prod bs ys) = Ok prods /\ IM t prods (flatten C).
Proof using EJ ED Hp1 n2 Ht.
  intros NB NS IL IR HL BN BZ. destruct (jones_all n r p R EJ) as (d' & gens & invs & E & _ & _ & _ & _ & ED' & EG & EI & _). rewrite ED in ED'. injection ED' as ED'. apply Nat2Z.inj in ED'. subst d'.
  pose proof (images_depth n r p R d tb EJ ED Hp1 n2 Ht t ys rights len IR HL) as DR. destruct (images_batch n r p R d tb EJ ED Hp1 n2 Ht gens invs E t bs left EG EI IL) as ((WL & L1 & L2 & L3 & L4 & KL) & PL & VL). destruct (images_batch n r p R d tb EJ ED Hp1 n2 Ht gens invs E t ys rights EG EI IR) as ((WR & R1 & R2 & R3 & R4 & KR) & PR & VR).
  set (b0 := NFObj 0 0 []) in *. set (N := length bs) in *. set (M' := length ys) in *. assert (N1 : 1 <= N) by (destruct bs; [contradiction|cbn in N; lia]). assert (M1 : 1 <= M') by (destruct ys; [contradiction|cbn in M'; lia]).
  destruct (outer_right_ok left N L1 WL) as [WL' KL']. destruct (outer_left_ok rights M' R1 WR) as [WR' KR'].
  assert (VI : forall ix, valid_index [N; M'] ix -> exists s b, ix = [s; b] /\ s < N /\ b < M').
  { intros ix V. inversion V as [|s N' l1 l2 Hs V2 E1 E2]; subst. inversion V2 as [|b M2 l3 l4 Hb V3 E3 E4]; subst. inversion V3; subst. eauto. }
  assert (V1 : forall ix, valid_index [1; M'] ix -> exists b, ix = [0; b] /\ b < M').
  { intros ix V. inversion V as [|s N' l1 l2 Hs V2 E1 E2]; subst. inversion V2 as [|b M2 l3 l4 Hb V3 E3 E4]; subst. inversion V3; subst. exists b. split; [repeat f_equal; lia|assumption]. }
  assert (V2 : forall ix, valid_index [N; 1] ix -> exists s, ix = [s; 0] /\ s < N).
  { intros ix V. inversion V as [|s N' l1 l2 Hs V2 E1 E2]; subst. inversion V2 as [|b M2 l3 l4 Hb V3 E3 E4]; subst. inversion V3; subst. exists s. split; [repeat f_equal; lia|assumption]. }
  destruct (bc_step n r p R d gens invs E EJ ED EG EI Hp1 t [N; 1] [1; M'] [N; M'] (outer_right left) (outer_left rights) (fun ix => bwd (nth (nth 0 ix 0) bs b0)) (fun ix => bwd (nth (nth 1 ix 0) ys b0)) ((len + 1) * (n * (n - 1)) + 1)) as (C & EC & BC & PC).
  - unfold nitems. cbn [fold_right]. nia.
  - apply bc_outer2.
  - split; [exact WL'|]. split; [cbn [outer_right apre]; now rewrite L1|]. do 3 (split; [assumption|]). intros ix V. destruct (V2 ix V) as (b & -> & Hb). cbn [nth]. specialize (KL [b] ltac:(constructor; [exact Hb|constructor])). cbn [hd] in KL. destruct KL as [s KL]. exists s. intros i j e Hi Hj. rewrite KL'. now apply KL.
  - intros ix V. destruct (V2 ix V) as (b & -> & Hb). destruct (PL [b] ltac:(constructor; [exact Hb|constructor])) as [[NZ _] RG]. split; [split; [|intros; lia]|intros i j e Hi Hj P0; rewrite KL'; now apply RG]. destruct NZ as (i & j & Hi & Hj & Q). exists i, j. rewrite KL'. auto.
  - split; [exact WR'|]. split; [cbn [outer_left apre]; now rewrite R1|]. do 3 (split; [assumption|]). intros ix V. destruct (V1 ix V) as (b & -> & Hb). cbn [nth]. specialize (KR [b] ltac:(constructor; [exact Hb|constructor])). cbn [hd] in KR. destruct KR as [s KR]. exists s. intros i j e Hi Hj. rewrite KR'. now apply KR.
  - intros ix V. destruct (V1 ix V) as (b & -> & Hb). destruct (PR [b] ltac:(constructor; [exact Hb|constructor])) as [[NZ _] RG]. split; [split; [|intros; lia]|intros i j e Hi Hj P0; rewrite KR'; now apply RG]. destruct NZ as (i & j & Hi & Hj & Q). exists i, j. rewrite KR'. auto.
  - intros ix V. destruct (V2 ix V) as (b & -> & Hb). cbn [nth]. apply (bwd_denotes n tb n2 Ht). apply VL. now apply nth_In.
  - intros ix V. destruct (V1 ix V) as (b & -> & Hb). cbn [nth]. apply (bwd_denotes n tb n2 Ht). apply VR. now apply nth_In.
  - intros P0. destruct (BN P0) as [B1 B2]. split; [exact B1|]. split; [exact B2|]. intros ix i j e V Hi Hj He. destruct (V1 ix V) as (b & -> & Hb). rewrite KR'. now apply DR.
  - intros P0 ix i j e V Hi Hj. destruct (VI ix V) as (s & b & -> & Hs & Hb). rewrite (op_left N M' s b Hs Hb), (op_right N M' s b Hs Hb). cbn [nth]. assert (Hib : In (nth s bs b0) bs) by now apply nth_In. assert (Hix : In (nth b ys b0) ys) by now apply nth_In.
    destruct (bwd_mul n tb n2 Ht (nth s bs b0) (nth b ys b0) (VL _ Hib) (VR _ Hix)) as (c & Ec & _). apply (product_fits n r p R d tb EJ ED Hp1 n2 Ht gens invs E _ _ c t EG EI P0 (VL _ Hib) (VR _ Hix) Ec); auto. intros X EX i' j' e'. now apply (BZ P0 (nth s bs b0) (nth b ys b0) c X).
  - destruct (PropsTLMor2.mapM_Forall2 (fun '(b, y) => nf_mul tb b y) (fun '(b, y) c => nf_mul tb b y = Ok c /\ nf_value tb n c /\ braid_eq n (bwd c) (bwd b ++ bwd y)) (list_prod bs ys)) as [prods [EM FM]].
    { intros [b x] H. apply in_prod_iff in H. destruct H as [Hb Hx]. destruct (bwd_mul n tb n2 Ht b x (VL b Hb) (VR x Hx)) as (c & Ec & K1). exists c. split; [exact Ec|]. split; [exact Ec|exact K1]. }
    exists C, prods. split; [exact EC|]. split; [exact EM|]. destruct BC as (WC & C1 & C2 & C3 & C4 & KC). destruct (flatten_ok C N M' C1 WC) as (WF & F1 & KF).
    assert (LP : length prods = N * M') by (rewrite (PropsTLMor2.Forall2_len _ _ _ FM); apply prod_length).
    assert (DEC : forall k, k < N * M' -> exists s b, k = s * M' + b /\ s < N /\ b < M'). { intros k Hk. exists (k / M'), (k mod M'). split; [pose proof (Nat.div_mod k M' ltac:(lia)); lia|]. split; [apply Nat.div_lt_upper_bound; lia|apply Nat.mod_upper_bound; lia]. }
    apply (batch_images n r p R d tb EJ ED Hp1 n2 Ht gens invs E t prods (flatten C) (fun k => bwd (nth (k / M') bs b0) ++ bwd (nth (k mod M') ys b0)) EG EI).
    + intros c Hc. apply In_nth_error in Hc. destruct Hc as [k Hk]. assert (Lk : k < length prods) by (apply nth_error_Some; congruence).
      destruct (nth_error (list_prod bs ys) k) as [[b x]|] eqn:EP; [|apply nth_error_None in EP; rewrite prod_length in EP; unfold N, M' in *; lia]. destruct (PropsTLMor2.Forall2_nth_error _ _ _ FM k _ EP) as (c' & Ec' & _ & Vc & _). congruence.
    + intros k c Hk. assert (Lk : k < N * M') by (rewrite <- LP; apply nth_error_Some; congruence). destruct (DEC k Lk) as (s & b & -> & Hs & Hb).
      pose proof (nth_prod bs ys s b Hb) as NP. rewrite (nth_error_nth' bs b0 Hs), (nth_error_nth' ys b0 Hb) in NP. fold M' in NP. destruct (PropsTLMor2.Forall2_nth_error _ _ _ FM _ _ NP) as (c' & Ec' & _ & _ & Bc). rewrite Hk in Ec'. injection Ec' as <-.
      replace ((s * M' + b) mod M') with b by (rewrite Nat.add_comm, Nat.mod_add, Nat.mod_small by lia; reflexivity). replace ((s * M' + b) / M') with s by (rewrite Nat.add_comm, Nat.div_add, Nat.div_small by lia; reflexivity). exact Bc.
    + rewrite LP. split; [exact WF|]. split; [exact F1|]. do 3 (split; [assumption|]). intros ix V. destruct (valid1 _ _ V) as [k [-> Hk]]. cbn [hd]. destruct (DEC k Hk) as (s & b & -> & Hs & Hb).
      replace ((s * M' + b) mod M') with b by (rewrite Nat.add_comm, Nat.mod_add, Nat.mod_small by lia; reflexivity). replace ((s * M' + b) / M') with s by (rewrite Nat.add_comm, Nat.div_add, Nat.div_small by lia; reflexivity).
      specialize (KC [s; b] ltac:(constructor; [exact Hs|constructor; [exact Hb|constructor]])). cbn beta in KC. rewrite (op_left N M' s b Hs Hb), (op_right N M' s b Hs Hb) in KC. cbn [nth] in KC. destruct KC as [q KC]. exists q. intros i j e Hi Hj. rewrite KF. now apply KC.
    + rewrite LP. intros ix V. destruct (valid1 _ _ V) as [k [-> Hk]]. destruct (DEC k Hk) as (s & b & -> & Hs & Hb). destruct (PC [s; b] ltac:(constructor; [exact Hs|constructor; [exact Hb|constructor]])) as [[NZ _] RG]. split; [split; [|intros; lia]|intros i j e Hi Hj P0; rewrite KF; now apply RG]. destruct NZ as (i & j & Hi & Hj & Q). exists i, j. rewrite KF. auto.
Qed.
End I.

(** C103.  On a tracker filled with images, [bucket_product] is one addition: the braids
    are the products a * b for a in the first bucket and b in the second, in this
    order, and the matrices are their images. *)
Theorem C103_product n r p S R d tb rint crit size rand os s tag1 tag2 bk1 bk2 :
  jones_summand n r p = Ok S -> jones_rep n r p = Ok R -> 1 <= r -> rep_dimension R = Ok (Z.of_nat d) -> p <> 1%Z -> 2 <= n -> gnf_table n tb -> 1 <= size ->
  (p <> 0%Z -> (Z.of_nat d * (((Z.of_nat (fst tag2) + 1) * Z.of_nat (n * (n - 1)) + 1) * ((p - 1) * (p - 1))) < 2 ^ 31)%Z) ->
  (forall bs im, In (SAdd bs im) os -> images_of n p R tb d (if (0 <? p)%Z then I32 else I64) bs im) -> st_run rint crit (strk_init size rand) os = Ok s ->
  dget stag_eqb (st_buckets s) tag1 = Some bk1 -> dget stag_eqb (st_buckets s) tag2 = Some bk2 ->
  (p = 0%Z -> forall a b c X, In a (sb_braids bk1) -> In b (sb_braids bk2) -> nf_mul tb a b = Ok c -> rep_evaluate_nf tb R c = Ok X -> int64_matrix X) ->
  exists prods im, mapM (fun '(a, b) => nf_mul tb a b) (list_prod (sb_braids bk1) (sb_braids bk2)) = Ok prods /\
    images_of n p R tb d (if (0 <? p)%Z then I32 else I64) prods im /\ prods <> [] /\
    st_bucket_product rint crit tb S s tag1 tag2 = st_add rint crit s prods im.
Proof.
  intros ES EJ Hr ED Hp1 n2 Ht Hsz BN HO HR G1 G2 HZ. destruct (jones_all n r p R EJ) as (_ & _ & _ & _ & _ & _ & Hp & _). set (t := if (0 <? p)%Z then I32 else I64) in *.
  assert (HO' : forall bs im, In (SAdd bs im) os -> images_of n p R tb d t bs im /\ Forall (fun _ => True) bs) by (intros bs im H; split; [now apply HO|apply Forall_forall; auto]).
  destruct (C76_stored_braidsearch n p R tb d t rint crit size rand os s (fun _ => True) Hsz Hp HO' HR tag1 bk1 G1) as (_ & I1 & B1).
  destruct (C76_stored_braidsearch n p R tb d t rint crit size rand os s (fun _ => True) Hsz Hp HO' HR tag2 bk2 G2) as (_ & I2 & B2).
  assert (F : Forall (sop_ok d d t) os).
  { apply Forall_forall. intros [bs im|tg] Ho; [|exact Logic.I]. destruct (HO bs im Ho) as (W & J1 & E1 & E2 & E3 & K). cbn. do 4 (split; [assumption|]). intros ix V. rewrite J1 in V. destruct (valid1 _ _ V) as [k [-> Hk]]. destruct (K k _ (nth_error_nth' bs (NFObj 0 0 []) Hk)) as (_ & _ & (i & j & Hi & Hj & NZ) & _). exists i, j, 0. rewrite E1, E2. auto. }
  destruct (st_new_run rint crit size rand d d t Hsz os s F HR) as (h & _ & (_ & _ & _ & SO)).
  assert (NE : forall tag bk, dget stag_eqb (st_buckets s) tag = Some bk -> sb_braids bk <> []).
  { intros tag bk G. specialize (SO tag). rewrite G in SO. destruct SO as (NE & B & _). destruct B as [b4 b13]. intros Q. rewrite Q in b4. symmetry in b4. apply map_eq_nil in b4. pose proof (held_len rint size rand tag h Hsz) as HL. rewrite b4 in HL. cbn [length] in HL. apply firsts_nil in NE. destruct (firsts _); [contradiction|cbn [length] in HL; lia]. }
  destruct (outer_product2 n r p R d tb EJ ED Hp1 n2 Ht t (sb_braids bk1) _ (sb_braids bk2) _ (fst tag2) (NE _ _ G1) (NE _ _ G2) I1 I2) as (C & prods & EC & EM & IC).
  - intros y Hy. destruct (B2 y Hy) as (_ & L & _). lia.
  - intros P0. specialize (BN P0). unfold t. destruct (Z.ltb_spec 0 p); [|lia]. change (dbits I32 - 1)%Z with 31%Z. replace (Z.of_nat ((fst tag2 + 1) * (n * (n - 1)) + 1)) with ((Z.of_nat (fst tag2) + 1) * Z.of_nat (n * (n - 1)) + 1)%Z by lia. split; [|exact BN].
    assert (Hd : 0 < d) by (destruct (jones_all n r p R EJ) as (d' & gens & invs & E & _ & _ & _ & Hd & ED' & _); rewrite ED in ED'; injection ED' as ED'; apply Nat2Z.inj in ED'; now subst d').
    split; [change (dbits I32 - 1)%Z with 31%Z; lia|]. change (dbits I32 - 1)%Z with 31%Z. assert (Q2 : (2 <= Z.of_nat (n * (n - 1)))%Z) by nia. set (len := Z.of_nat (fst tag2)) in *. assert (Q : (1 * (3 * ((p - 1) * (p - 1))) <= Z.of_nat d * (((len + 1) * Z.of_nat (n * (n - 1)) + 1) * ((p - 1) * (p - 1))))%Z) by (apply Z.mul_le_mono_nonneg; [lia|lia|nia|]; apply Z.mul_le_mono_nonneg_r; nia). nia.
  - intros P0 b y c X Hb Hy Ec EX i j e. pose proof (HZ P0 b y c X Hb Hy Ec EX) as Q. unfold t. rewrite P0. apply Q.
  - exists prods, (flatten C). split; [exact EM|]. split; [exact IC|]. split.
    + intros Q. rewrite Q in EM. apply mapM_Ok_Forall2, PropsTLMor2.Forall2_len in EM. rewrite prod_length in EM. pose proof (NE _ _ G1) as N1. pose proof (NE _ _ G2) as N2. destruct (sb_braids bk1); [contradiction|]. destruct (sb_braids bk2); [contradiction|]. cbn in EM. lia.
    + unfold st_bucket_product, st_braids_images. rewrite G1, G2. cbn [bind]. rewrite EM. cbn [bind]. unfold js_mul.
      assert (EP' : js_p S = p). { unfold jones_summand in ES. destruct (assert_ (1 <=? n)); [|discriminate]. cbn [bind] in ES. destruct (assert_ (2 * r <=? n)); [|discriminate]. cbn [bind] in ES. destruct (assert_ (0 <=? p)%Z); [|discriminate]. cbn [bind] in ES. injection ES as <-. reflexivity. } now rewrite EP', EC.
Qed.
(** It raises no error if the filter gives one answer for each pair, and the buckets
    again hold braids next to their images. *)
Theorem C103_total n r p S R d tb rint crit size rand os s tag1 tag2 bk1 bk2 :
  jones_summand n r p = Ok S -> jones_rep n r p = Ok R -> 1 <= r -> rep_dimension R = Ok (Z.of_nat d) -> p <> 1%Z -> 2 <= n -> gnf_table n tb -> 1 <= size ->
  (p <> 0%Z -> (Z.of_nat d * (((Z.of_nat (fst tag2) + 1) * Z.of_nat (n * (n - 1)) + 1) * ((p - 1) * (p - 1))) < 2 ^ 31)%Z) ->
  (forall bs im, In (SAdd bs im) os -> images_of n p R tb d (if (0 <? p)%Z then I32 else I64) bs im) -> st_run rint crit (strk_init size rand) os = Ok s ->
  dget stag_eqb (st_buckets s) tag1 = Some bk1 -> dget stag_eqb (st_buckets s) tag2 = Some bk2 ->
  (p = 0%Z -> forall a b c X, In a (sb_braids bk1) -> In b (sb_braids bk2) -> nf_mul tb a b = Ok c -> rep_evaluate_nf tb R c = Ok X -> int64_matrix X) ->
  (forall bs im, exists keep, crit bs im = Ok keep /\ length keep <= length bs) ->
  exists s', st_bucket_product rint crit tb S s tag1 tag2 = Ok s' /\
    forall tag bk, dget stag_eqb (st_buckets s') tag = Some bk ->
      images_of n p R tb d (if (0 <? p)%Z then I32 else I64) (sb_braids bk) (take_items (sb_images bk) (length (sb_braids bk))) /\
      forall c, In c (sb_braids bk) -> length (o_factors c) = fst tag /\ forall X, rep_evaluate_nf tb R c = Ok X -> rep_span p d X (snd tag).
Proof.
  intros ES EJ Hr ED Hp1 n2 Ht Hsz BN HO HR G1 G2 HZ HC. destruct (C103_product n r p S R d tb rint crit size rand os s tag1 tag2 bk1 bk2 ES EJ Hr ED Hp1 n2 Ht Hsz BN HO HR G1 G2 HZ) as (prods & im & EM & IM & NE & EQ).
  destruct (jones_all n r p R EJ) as (_ & _ & _ & _ & _ & _ & Hp & _). set (t := if (0 <? p)%Z then I32 else I64) in *.
  assert (OPS : forall bs im, images_of n p R tb d t bs im -> sop_ok d d t (SAdd bs im)).
  { intros bs im' (W & I1 & E1 & E2 & E3 & K). cbn. do 4 (split; [assumption|]). intros ix V. rewrite I1 in V. destruct (valid1 _ _ V) as [k [-> Hk]]. destruct (K k _ (nth_error_nth' bs (NFObj 0 0 []) Hk)) as (_ & _ & (i & j & Hi & Hj & NZ) & _). exists i, j, 0. rewrite E1, E2. auto. }
  destruct (st_new_run rint crit size rand d d t Hsz os s) as (h & _ & SO); [|exact HR|]. { apply Forall_forall. intros [bs im'|tg] Ho; [|exact Logic.I]. apply OPS. now apply HO. }
  destruct (st_add_total rint crit size rand d d t Hsz s h prods im (OPS prods im IM)) as (s1 & es & E1 & _ & SO1); [|exact SO|].
  - pose proof IM as (W & J1 & E1 & E2 & E3 & K). split; [exact J1|]. split; [|split; [|apply HC]].
    + destruct prods as [|b bs']; [contradiction|]. destruct (K 0 b eq_refl) as (_ & _ & (i & j & Hi & Hj & NZ) & _). intros Z0. unfold acoef in NZ. rewrite Z0 in NZ. cbn in NZ. contradiction.
    + intros i Hi. destruct (K i _ (nth_error_nth' prods (NFObj 0 0 []) Hi)) as (_ & _ & NZ & _). rewrite E1, E2. split; [exact NZ|intros; lia].
  - exists s1. split; [congruence|]. intros tag bk G.
    assert (HO' : forall bs im', In (SAdd bs im') (os ++ [SAdd prods im]) -> images_of n p R tb d t bs im' /\ Forall (fun _ => True) bs). { intros bs im' H. split; [|apply Forall_forall; auto]. apply in_app_iff in H. destruct H as [H|[H|[]]]; [now apply HO|]. injection H as <- <-. exact IM. }
    assert (HR' : st_run rint crit (strk_init size rand) (os ++ [SAdd prods im]) = Ok s1) by (rewrite PropsSearch.st_run_app, HR; cbn [bind]; unfold st_run; cbn [foldM st_apply]; rewrite E1; reflexivity).
    destruct (C76_stored_braidsearch n p R tb d t rint crit size rand _ s1 (fun _ => True) Hsz Hp HO' HR' tag bk G) as (_ & K1 & K2). split; [exact K1|]. intros c Hc. destruct (K2 c Hc) as (_ & K3). exact K3.
Qed.
(** A bucket that is not there. *)
Theorem C103_missing tb rint crit S s tag1 tag2 : dget stag_eqb (st_buckets s) tag1 = None \/ dget stag_eqb (st_buckets s) tag2 = None -> st_bucket_product rint crit tb S s tag1 tag2 = Err AssertionError.
Proof. intros [H|H]; unfold st_bucket_product, st_braids_images; rewrite H; [reflexivity|]. destruct (dget stag_eqb (st_buckets s) tag1); reflexivity. Qed.

(** A case: the tracker filled with the braids of length 1 and 2 of B3. *)
Notation ex_prod := (s <- PropsSearch.ex_tracker ;; s' <- st_bucket_product (fun _ => 0) every (gtb hdpick) PropsSearch.ex_js s (1, 3%Z) (1, 3%Z) ;; Ok (PropsSearch.contents s, PropsSearch.contents s')).
Example C103_case : ex_prod = Ok ([((1, 3%Z), [[4]; [2]]%Z); ((2, 5%Z), [[4; 3]; [1; 4]]%Z)], [((1, 3%Z), [[2]; [2]]%Z); ((2, 5%Z), [[2; 2]; [1; 4]]%Z); ((0, 1%Z), [[]])]).
Proof. vm_compute. reflexivity. Qed.
Example C103_case_hyps : exists R s os bk, jones_summand 3 1 2 = Ok PropsSearch.ex_js /\ jones_rep 3 1 2 = Ok R /\ rep_dimension R = Ok (Z.of_nat 2) /\ gnf_table 3 (gtb hdpick) /\
  (Z.of_nat 2 * (((Z.of_nat 1 + 1) * Z.of_nat (3 * (3 - 1)) + 1) * ((2 - 1) * (2 - 1))) < 2 ^ 31)%Z /\ PropsSearch.ex_tracker = Ok s /\
  st_run (fun _ => 0) every (strk_init 2 true) os = Ok s /\ (forall bs im, In (SAdd bs im) os -> images_of 3 2 R (gtb hdpick) 2 I32 bs im) /\ dget stag_eqb (st_buckets s) (1, 3%Z) = Some bk /\ length (sb_braids bk) = 2.
Proof.
  assert (L7 : 3 < 7) by lia. pose proof (gtb_is_table hdpick 3 hdpick_ok L7) as GT. assert (exists R, jones_rep 3 1 2 = Ok R /\ rep_dimension R = Ok (Z.of_nat 2)) as (R & EJ & ED) by (eexists; split; vm_compute; reflexivity).
  pose proof C103_case as CC. match type of CC with (bind ?e _ = _) => destruct e as [s0|] eqn:E0 end; [|discriminate CC]. cbn [bind] in CC.
  assert (ST : search_steps (fun _ => 0) every (gtb hdpick) PropsSearch.ex_js (fun _ l => l) s0 0 0 0 0 0 = Ok ([], s0)) by (unfold search_steps; cbn [seq foldM]; reflexivity).
  destruct (search_reach 3 1 2 PropsSearch.ex_js R 2 (gtb hdpick) (fun _ => 0) every (fun _ l => l) 2 true 2 0 0 0 0 0 s0 [] s0) as (os & EO & HO); auto; try lia; try reflexivity.
  assert (exists bk, dget stag_eqb (st_buckets s0) (1, 3%Z) = Some bk /\ length (sb_braids bk) = 2) as (bk & EB & LB).
  { destruct (st_bucket_product _ _ _ _ _ _ _) as [s1|]; [|discriminate CC]. cbn [bind] in CC. injection CC as CC _. clear - CC. unfold PropsSearch.contents in CC. destruct (st_buckets s0) as [|[tg bk] [|[tg2 bk2] [|? ?]]]; try discriminate CC. cbn [map] in CC. injection CC as -> CC _ _. exists bk. split; [reflexivity|]. apply (f_equal (@length _)) in CC. rewrite map_length in CC. exact CC. }
  exists R, s0, os, bk. split; [reflexivity|]. split; [exact EJ|]. split; [exact ED|]. split; [exact GT|]. split; [cbn; lia|]. split; [reflexivity|]. split; [exact EO|]. split; [intros bs im Hin; exact (proj1 (HO bs im Hin))|]. split; [exact EB|exact LB].
Qed.
