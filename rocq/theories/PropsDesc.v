(** PropsDesc.v – C76: nf_descendants of the two trackers offers every product with
    its own image. *)
From Verif Require Import Base ModelPoly SpecPoly PolyTheory PropsPoly ModelMatrix SpecMatrix MatrixTheory NumTheory ModelPolymat SpecPolymat PolymatTheory PropsPolymat PropsPolymat2 PropsPolymat3.
From Coq Require Import Permutation QArith_base FinFun.
From Verif Require Import ModelPerm Germ GermNF GermAct GermBraid PermTheory WeakOrder PermWords SpecBraid BraidTheory FullTwistBraid FullTwist ModelBraid ModelTL ModelTLMor ModelRep SpecRep RepTheory RepCanon PropsRep PropsTwist ModelPolyRep TableTheory NFApi PermGerm PermTable PropsGNF PropsGNF2 PolyRepTheory PolyRepSpan PropsPolyRep PropsPolyRep2 JSTheory PropsJS DescTheory ModelTracker DescTheory2 DescTheory3.
From Verif Require Import SpecTracker TrackerTheory TrackerRun PropsTracker.
From Verif Require PropsSearch.
Local Open Scope nat_scope.

(** ** Lists *)
Lemma groupby_ok {X} (key : X -> Z) (l : list X) : concat (groupby key l) = l /\ Forall (fun g => g <> [] /\ forall x y, In x g -> In y g -> key x = key y) (groupby key l).
Proof.
  induction l as [|x l [IH1 IH2]]; [split; [reflexivity|constructor]|]. cbn [groupby]. destruct (groupby key l) as [|[|y g] gs] eqn:E.
  - cbn in IH1. subst l. split; [reflexivity|]. constructor; [|constructor]. split; [discriminate|]. intros a b [<-|[]] [<-|[]]. reflexivity.
  - inversion IH2 as [|? ? [H _] _]; subst. contradiction.
  - inversion IH2 as [|? ? [H1 H2] H3]; subst. destruct (Z.eqb_spec (key x) (key y)) as [K|K].
    + split; [reflexivity|]. constructor; [|exact H3]. split; [discriminate|]. assert (Q : forall a, In a (x :: y :: g) -> key a = key y) by (intros a [<-|Ha]; [exact K|apply H2; [exact Ha|now left]]). intros a b Ha Hb. now rewrite (Q a Ha), (Q b Hb).
    + split; [reflexivity|]. constructor; [|exact IH2]. split; [discriminate|]. intros a b [<-|[]] [<-|[]]. reflexivity.
Qed.
Lemma flat_map_cons {X Y} (f : X -> Y) (g : X -> list Y) l : Permutation (flat_map (fun x => f x :: g x) l) (map f l ++ flat_map g l).
Proof.
  induction l as [|x l IH]; [constructor|]. cbn [flat_map map List.app]. constructor. rewrite IH. rewrite !app_assoc. apply Permutation_app_tail. apply Permutation_app_comm.
Qed.
Lemma flat_map_swap {X Y Z} (f : X -> Y -> Z) xs ys : Permutation (flat_map (fun x => map (f x) ys) xs) (flat_map (fun y => map (fun x => f x y) xs) ys).
Proof.
  revert ys. induction xs as [|x xs IH]; intros ys; cbn [flat_map map].
  - induction ys as [|y ys IY]; [constructor|exact IY].
  - rewrite IH. symmetry. apply (flat_map_cons (f x) (fun y => map (fun x => f x y) xs)).
Qed.
Lemma map_list_prod {X Y Z} (f : X * Y -> Z) xs ys : map f (list_prod xs ys) = flat_map (fun x => map (fun y => f (x, y)) ys) xs.
Proof. induction xs as [|x xs IH]; [reflexivity|]. cbn [list_prod flat_map]. now rewrite map_app, map_map, IH. Qed.
Lemma flat_map_ext_in' {X Y} (f g : X -> list Y) l : (forall x, In x l -> f x = g x) -> flat_map f l = flat_map g l.
Proof. intros H. induction l as [|x l IH]; [reflexivity|]. cbn [flat_map]. rewrite H, IH; auto using in_eq, in_cons. Qed.
Lemma map_nth_seq' {X} (l : list X) d : map (fun i => nth i l d) (seq 0 (length l)) = l.
Proof. apply (nth_ext_len _ _ (length l) d); [now rewrite map_length, seq_length|reflexivity|]. intros i Hi. now rewrite nth_map_seq. Qed.
Lemma mapM_map' {X Y Z} (f : Y -> res Z) (g : X -> Y) l : mapM f (map g l) = mapM (fun x => f (g x)) l.
Proof. induction l as [|x l IH]; [reflexivity|]. cbn [map mapM]. now rewrite IH. Qed.
Lemma get_In {X} (l : list X) i x : get l i = Ok x -> nth_error l i = Some x.
Proof. unfold get. destruct (nth_error l i); [now intros [= ->]|discriminate]. Qed.
Lemma mapM_get {X} (l : list X) idxs ys : mapM (get l) idxs = Ok ys -> Forall2 (fun i y => nth_error l i = Some y) idxs ys.
Proof.
  intros E. apply mapM_Ok_Forall2 in E. eapply PropsTLMor2.Forall2_imp; [|exact E]. intros i y. apply get_In.
Qed.
Lemma mapM_get_ok {X} (l : list X) idxs : (forall i, In i idxs -> i < length l) -> exists ys, mapM (get l) idxs = Ok ys.
Proof.
  induction idxs as [|i idxs IH]; intros H; [now exists []|]. destruct IH as [ys IY]; [intros; apply H; now right|]. cbn [mapM]. destruct (nth_error l i) as [y|] eqn:E; [|apply nth_error_None in E; specialize (H i (or_introl eq_refl)); lia].
  unfold get at 1. rewrite E. cbn [bind]. rewrite IY. cbn [bind]. eauto.
Qed.

(** ** fancy indexing of a batch *)
Lemma take_images n p R tb d t bs im idxs bs' : images_of n p R tb d t bs im -> mapM (get bs) idxs = Ok bs' -> exists im', take_list im idxs = Ok im' /\ images_of n p R tb d t bs' im'.
Proof.
  intros (W & I1 & I2 & I3 & I4 & K) E. apply mapM_get in E. pose proof (PropsTLMor2.Forall2_len _ _ _ E) as LE. pose proof W as (W1 & W2 & W3). rewrite I1 in W1. unfold nitems in W1. cbn [fold_right] in W1. rewrite Nat.mul_1_r in W1.
  assert (B : forall i, In i idxs -> i < length bs). { intros i Hi. apply In_nth_error in Hi. destruct Hi as [k Hk]. destruct (PropsTLMor2.Forall2_nth_error _ _ _ E k i Hk) as (y & _ & Hy). apply nth_error_Some. congruence. }
  destruct (mapM_get_ok (ablocks im) idxs) as [bl EB]; [intros i Hi; rewrite W1; now apply B|]. unfold take_list. rewrite EB. cbn [bind]. eexists. split; [reflexivity|]. apply mapM_get in EB. pose proof (PropsTLMor2.Forall2_len _ _ _ EB) as LB.
  set (im' := mkA _ _ _ _ _ _). assert (WF : wfa im').
  { split; [cbn [im' ablocks apre]; unfold nitems; cbn [fold_right]; lia|]. assert (Q : forall q, In q bl -> In q (ablocks im)) by (intros q Hq; apply In_nth_error in Hq; destruct Hq as [k Hk]; destruct (nth_error idxs k) as [i|] eqn:Ek; [destruct (PropsTLMor2.Forall2_nth_error _ _ _ EB k i Ek) as (y & Ey & Hy); rewrite Hk in Ey; injection Ey as <-; now apply nth_error_In in Hy|apply nth_error_None in Ek; assert (k < length bl) by (apply nth_error_Some; congruence); lia]).
    cbn [im' ablocks aI aJ aD adt]. rewrite !Forall_forall in *. split; intros q Hq; [apply W2|apply W3]; now apply Q. }
  assert (AC : forall k i a b e, nth_error idxs k = Some i -> a < d -> b < d -> acoef im' [k] a b e = acoef im [i] a b e).
  { intros k i a b e Hk Ha Hb. assert (Lk : k < length idxs) by (apply nth_error_Some; congruence). rewrite !coef_block; auto; try (cbn [im' aI aJ]; lia).
    - cbn [im' aD aJ]. destruct (e <? aD im); [|reflexivity]. f_equal. unfold block. cbn [im' apre ablocks]. rewrite I1. destruct (PropsTLMor2.Forall2_nth_error _ _ _ EB k i Hk) as (y & Ey & Hy). replace (ravel [length idxs] [k]) with k by (unfold ravel; cbn; lia). replace (ravel [length bs] [i]) with i by (unfold ravel; cbn; lia). now rewrite (nth_error_nth _ _ _ Ey), (nth_error_nth _ _ _ Hy).
    - rewrite I1. constructor; [|constructor]. apply B. now apply nth_error_In in Hk.
    - constructor; [exact Lk|constructor]. }
  split; [exact WF|]. split; [cbn [im' apre]; now rewrite LE|]. do 3 (split; [assumption|]). intros k b Hk. assert (Lk : k < length bs') by (apply nth_error_Some; congruence). destruct (nth_error idxs k) as [i|] eqn:Ei; [|apply nth_error_None in Ei; lia].
  destruct (PropsTLMor2.Forall2_nth_error _ _ _ E k i Ei) as (b' & Eb & Hb). rewrite Hk in Eb. injection Eb as <-. destruct (K i b Hb) as (K1 & (X & EX & s & HX) & (a & a' & Ha & Ha' & HN) & KR). split; [exact K1|]. split; [|split].
  - exists X. split; [exact EX|]. exists s. intros a1 a2 e H1 H2. rewrite (AC k i); auto.
  - exists a, a'. rewrite (AC k i); auto.
  - intros P0 a1 a2 e H1 H2. rewrite (AC k i); auto.
Qed.

(** ** bucketing.py *)
(** the descendants of one braid: its products with its suffixes of the given length *)
Definition braid_descendants (tb : nat -> res (nftable (list nat))) (len : Z) (b : nfobj) : res (list nfobj) :=
  xs <- nf_suffixes tb b len ;; mapM (fun x => nf_mul tb b x) xs.
(** an entry of suffix_cache: its suffixes are those of a braid b0 with an allowed
    power whose last canonical factor is the key, next to their own images *)
Definition cache_ok n p R tb d (Pow : Z -> Prop) (c : @cache (list nat)) : Prop :=
  forall len f sfx rights, In ((len, f), (sfx, rights)) c -> exists b0, nf_value tb n b0 /\ o_factors b0 <> [] /\ Pow (o_pow b0) /\ canonical_factor tb b0 (-1) = Ok f /\ nf_suffixes tb b0 len = Ok sfx /\ images_of n p R tb d I64 sfx rights.

Lemma pyget_last {X} (l : list X) x : pyget (l ++ [x]) (-1) = Ok x.
Proof.
  rewrite pyget_neg by (rewrite app_length; cbn [length]; lia). rewrite app_length. cbn [length]. replace (Z.to_nat (-1 + Z.of_nat (length l + 1))) with (length l) by lia. unfold get. rewrite nth_error_app2, Nat.sub_diag by lia. reflexivity.
Qed.
Section B.
Variables (n r : nat) (p : Z) (R : rep) (d : nat) (tb : nat -> res (nftable (list nat))).
Hypothesis (EJ : jones_rep n r p = Ok R) (ED : rep_dimension R = Ok (Z.of_nat d)) (Hp1 : p <> 1%Z) (n2 : 2 <= n) (Ht : gnf_table n tb).
Variables (deqb : list nat -> list nat -> bool) (Hdeq : forall a b, deqb a b = true <-> a = b).
Local Notation IM := (images_of n p R tb d I64).
Local Notation ok := (ok (PG n) (peqd n)).
Local Notation enc := (TableTheory.enc (PG n) n (idx n)).
Lemma last_enc b : nf_value tb n b -> o_factors b <> [] -> exists e q s, b = enc (e, q ++ [s]) /\ ok (e, q ++ [s]) /\ o_pow b = e /\ last_of b = Ok (idx n s) /\ canonical_factor tb b (-1) = Ok (val n s).
Proof using n2 Ht.
  clear EJ ED. intros V NE. destruct (val_enc n tb n2 Ht b V) as [[e l] [Ho ->]]. cbn [TableTheory.enc o_factors snd] in NE. destruct l as [|y l]; [contradiction|]. destruct (exists_last (l := y :: l) ltac:(discriminate)) as [q [s E]]. rewrite E in *. exists e, q, s. split; [reflexivity|]. split; [exact Ho|]. split; [reflexivity|].
  unfold last_of, canonical_factor. cbn [TableTheory.enc o_factors o_n snd]. rewrite map_app. cbn [map]. rewrite pyget_last. split; [reflexivity|]. rewrite (gnf_table_ptab n tb Ht). cbn [bind]. apply (tk_div _ _ _ _ _ _ _ _ _ (ptab_ok n n2)).
Qed.
Lemma suffix_facts b len : nf_value tb n b -> o_factors b <> [] -> (0 <= len)%Z -> exists sfx, nf_suffixes tb b len = Ok sfx /\ sfx <> [] /\ forall x, In x sfx -> nf_value tb n x /\ length (o_factors x) = Z.to_nat len /\ o_pow x = o_pow b.
Proof using n2 Ht.
  clear EJ ED. intros V NE Hl. destruct (last_enc b V NE) as (e & q & s & -> & Ho & _). destruct (suffixes_enc n tb n2 Ht e (q ++ [s]) len Hl Ho) as (ls & E & ND & H). exists (map (fun m => enc (e, m)) ls). split; [exact E|]. split.
  - destruct (suffixes_nonempty n n2 e (q ++ [s]) (Z.to_nat len)) as (m & Hm); [intros Q; now apply app_eq_nil in Q as [_ Q]|exact Ho|]. apply H in Hm. destruct ls; [contradiction|discriminate].
  - intros x Hx. apply in_map_iff in Hx. destruct Hx as [m [<- Hm]]. apply H in Hm. destruct Hm as (L & Om & _). split; [now apply enc_val|]. cbn [TableTheory.enc o_factors o_pow fst snd]. now rewrite map_length.
Qed.
(** the suffixes depend only on the power and the last factor *)
Lemma suffix_same b b' len f : nf_value tb n b -> nf_value tb n b' -> o_factors b <> [] -> o_factors b' <> [] -> canonical_factor tb b (-1) = Ok f -> canonical_factor tb b' (-1) = Ok f -> o_pow b = o_pow b' -> nf_suffixes tb b len = nf_suffixes tb b' len.
Proof using n2 Ht.
  clear EJ ED. intros V V' NE NE' F F' PP. destruct (last_enc b V NE) as (e & q & s & E1 & Ho & Pe & _ & F1). destruct (last_enc b' V' NE') as (e' & q' & s' & E2 & Ho' & Pe' & _ & F2).
  rewrite F1 in F. rewrite F2 in F'. injection F as F. injection F' as F'. assert (s = s') by (apply (val_inj n); congruence). subst s'. assert (Q : e = e') by congruence. clear Pe Pe' PP. subst e' b b'.
  unfold nf_suffixes, TableTheory.enc. cbn [o_n o_pow fst snd]. destruct (last_factor_ok n e (q ++ [s])) as [[_ Q]|(q1 & s1 & Q1 & L1)]; [now apply app_eq_nil in Q as [_ Q]|]. destruct (last_factor_ok n e (q' ++ [s])) as [[_ Q]|(q2 & s2 & Q2 & L2)]; [now apply app_eq_nil in Q as [_ Q]|].
  apply app_inj_tail in Q1, Q2. destruct Q1 as [_ <-], Q2 as [_ <-]. unfold TableTheory.enc in L1, L2. cbn [fst snd] in L1, L2. now rewrite L1, L2.
Qed.
Variables (Pow : Z -> Prop) (len : Z).
Hypothesis (Hlen : (0 <= len)%Z).
Hypothesis (BN : p <> 0%Z -> (Z.of_nat d * (((len + 1) * Z.of_nat (n * (n - 1)) + 1) * ((p - 1) * (p - 1))) < 2 ^ 63)%Z).
Hypothesis (BX : p = 0%Z -> forall x X, nf_value tb n x -> length (o_factors x) <= Nat.max 1 (Z.to_nat len) -> rep_evaluate_nf tb R x = Ok X -> int64_matrix X).
Local Notation COK := (cache_ok n p R tb d Pow).
Lemma bound61 : p <> 0%Z -> (Z.of_nat d * (Z.of_nat (n * (n - 1) + 1) * ((p - 1) * (p - 1))) < 2 ^ 63)%Z.
Proof using Hlen BN Hp1 n2.
  intros P0. specialize (BN P0). eapply Z.le_lt_trans; [|exact BN]. apply Z.mul_le_mono_nonneg_l; [lia|]. apply Z.mul_le_mono_nonneg_r; [nia|]. nia.
Qed.
Lemma suffix_images b sfx : nf_value tb n b -> o_factors b <> [] -> nf_suffixes tb b len = Ok sfx -> exists rights, polymat_evaluate_braids_of_same_length tb R sfx = Ok rights /\ IM sfx rights.
Proof using EJ ED Hp1 n2 Ht Hlen BN BX.
  intros V NE E. destruct (suffix_facts b len V NE Hlen) as (sfx' & E' & NS & HS). rewrite E in E'. injection E' as <-.
  destruct (C61_gnf n r p R tb sfx d EJ n2 Ht Hp1 ED NS) as (P & EP & W & I1 & I2 & I3 & I4 & K).
  - intros x Hx. now apply HS.
  - intros x y Hx Hy. destruct (HS x Hx) as (_ & -> & _). destruct (HS y Hy) as (_ & -> & _). reflexivity.
  - exact bound61.
  - intros P0 x X Hx. destruct (HS x Hx) as (Vx & Lx & Px). destruct (val_enc n tb n2 Ht x Vx) as [[e l] [Ho Ex]].
    assert (Lm : length l = Z.to_nat len) by (rewrite Ex in Lx; cbn [TableTheory.enc o_factors snd] in Lx; now rewrite map_length in Lx). pose proof (ptab_ok n n2) as TK. split.
    + intros i Hi EX. apply (BX P0 _ X) in EX; [exact EX| |].
      * rewrite Ex. cbn [TableTheory.enc o_pow o_factors fst snd]. rewrite firstn_map. apply (enc_val n tb n2 Ht (e, firstn i l)). pose proof (PropsSearch.ok_prefix n n2 [] l i) as Q. cbn [List.app] in Q. rewrite !(ok_proper _ _ _ _ _ _ _ _ _ TK) in *. auto.
      * cbn [o_factors]. rewrite firstn_length, Lx. lia.
    + intros f Hf EX. apply (BX P0 _ X) in EX; [exact EX| |cbn [o_factors length]; lia]. rewrite Ex in Hf. cbn [TableTheory.enc o_factors snd] in Hf. apply in_map_iff in Hf. destruct Hf as (y & <- & Hy). apply (enc_val n tb n2 Ht (0%Z, [y])). rewrite (ok_proper _ _ _ _ _ _ _ _ _ TK) in *. destruct Ho as [O1 O2]. rewrite Forall_forall in O2. split; [cbn; auto|]. constructor; [now apply O2|constructor].
  - exists P. split; [exact EP|]. split; [exact W|]. do 4 (split; [assumption|]). intros k x Hk. destruct (K k x Hk) as (K1 & K2 & K3). split; [apply HS; now apply nth_error_In in Hk|]. auto.
Qed.
Lemma keyP a b : key_eqb deqb a b = true <-> a = b.
Proof using Hdeq.
  clear EJ ED. destruct a as [l f], b as [l' f']. unfold key_eqb. cbn [fst snd]. rewrite andb_true_iff, Z.eqb_eq, Hdeq. split; [now intros [-> ->]|now intros [= -> ->]].
Qed.
Lemma cache_get (c : @cache (list nat)) k v : dget (key_eqb deqb) c k = Some v -> In (k, v) c.
Proof using Hdeq.
  clear EJ ED. induction c as [|[k' v'] c IH]; cbn [dget]; [discriminate|]. destruct (key_eqb deqb k k') eqn:E; [intros [= ->]; apply keyP in E; subst; now left|intros H; right; auto].
Qed.
Lemma cache_set (c : @cache (list nat)) k v e : In e (dset (key_eqb deqb) c k v) -> e = (k, v) \/ In e c.
Proof using Hdeq.
  clear EJ ED. induction c as [|[k' v'] c IH]; cbn [dset]; [intros [H|[]]; auto|]. destruct (key_eqb deqb k k') eqn:E.
  - apply keyP in E. subst k'. intros [H|H]; [left; congruence|right; now right].
  - intros [H|H]; [right; now left|]. destruct (IH H); [now left|right; now right].
Qed.
Lemma dp : 0 < d /\ (0 <= p)%Z /\ rep_p R = p.
Proof using EJ ED.
  destruct (jones_all n r p R EJ) as (d' & gens & invs & E & _ & _ & _ & _ & ED' & EG & EI & _). rewrite ED in ED'. injection ED' as ED'. apply Nat2Z.inj in ED'. subst d'. destruct (Mfacts n r p R d gens invs E EJ ED EG EI) as (_ & H1 & H2 & H3 & _). auto.
Qed.
Lemma group_ok c bs left z : COK c -> bs <> [] -> IM bs left -> (forall b, In b bs -> Pow (o_pow b) /\ o_factors b <> [] /\ last_of b = Ok z) ->
  (p = 0%Z -> forall b x y X, In b bs -> nf_value tb n x -> length (o_factors x) <= Z.to_nat len -> nf_mul tb b x = Ok y -> rep_evaluate_nf tb R y = Ok X -> int64_matrix X) ->
  exists c' sfx prods im, group_offer tb deqb R c len bs left = Ok (c', (prods, im)) /\ COK c' /\ IM prods im /\ mapM (fun '(x, b) => nf_mul tb b x) (list_prod sfx bs) = Ok prods /\
    ((forall q, Pow q -> q = 0%Z) -> forall b, In b bs -> nf_suffixes tb b len = Ok sfx).
Proof using EJ ED Hp1 n2 Ht Hlen BN BX Hdeq.
  intros HC NB HI HB HZ. destruct bs as [|b0 bs]; [contradiction|]. set (l := b0 :: bs) in *. pose proof HI as (_ & _ & _ & _ & _ & HK). assert (HV : forall b, In b l -> nf_value tb n b) by (intros b Hb; apply In_nth_error in Hb; destruct Hb as [k Hk]; exact (proj1 (HK k b Hk))).
  assert (H0 : In b0 l) by now left. destruct (HB b0 H0) as (Pb & Nb & Lb). destruct (last_enc b0 (HV b0 H0) Nb) as (e & q & s & E0 & O0 & P0 & L0 & F0).
  assert (HF : forall b, In b l -> canonical_factor tb b (-1) = Ok (val n s)). { intros b Hb. destruct (HB b Hb) as (_ & Nb' & Lb'). destruct (last_enc b (HV b Hb) Nb') as (e' & q' & s' & _ & _ & _ & L' & F'). rewrite F'. do 2 f_equal. apply (tk_inj _ _ _ _ _ _ _ _ _ (ptab_ok n n2)). congruence. }
  assert (FIN : forall sfx rights b1, nf_value tb n b1 -> o_factors b1 <> [] -> Pow (o_pow b1) -> canonical_factor tb b1 (-1) = Ok (val n s) -> nf_suffixes tb b1 len = Ok sfx -> IM sfx rights ->
    exists C prods, polymat_mul p (outer_left left) (outer_right rights) = Ok C /\ mapM (fun '(x, b) => nf_mul tb b x) (list_prod sfx l) = Ok prods /\ IM prods (flatten C) /\ ((forall q, Pow q -> q = 0%Z) -> forall b, In b l -> nf_suffixes tb b len = Ok sfx)).
  { intros sfx rights b1 V1 N1 Q1 F1 E1 R1. destruct (suffix_facts b1 len V1 N1 Hlen) as (sfx' & E' & NS & HS). rewrite E1 in E'. injection E' as <-.
    destruct (outer_product n r p R d tb EJ ED Hp1 n2 Ht I64 l left sfx rights (Z.to_nat len)) as (C & prods & EC & EM & IC); auto.
    - intros x Hx. destruct (HS x Hx) as (_ & -> & _). lia.
    - intros Pn. specialize (BN Pn). cbn [dbits]. destruct dp as (Hd & Hp & _). assert (p - 1 < 2 ^ 62)%Z.
      { assert (A2 : (2 <= (len + 1) * Z.of_nat (n * (n - 1)) + 1)%Z) by nia. destruct (Z.le_gt_cases (p - 1) 1); [lia|]. set (A := ((len + 1) * Z.of_nat (n * (n - 1)) + 1)%Z) in *. set (Q := ((p - 1) * (p - 1))%Z) in *. assert (Q2 : (2 * (p - 1) <= Q)%Z) by (unfold Q; apply Z.mul_le_mono_nonneg_r; lia).
        assert (A3 : (2 * Q <= A * Q)%Z) by (apply Z.mul_le_mono_nonneg_r; lia). assert (A4 : (1 * (A * Q) <= Z.of_nat d * (A * Q))%Z) by (apply Z.mul_le_mono_nonneg_r; lia). lia. }
      split; [unfold in_dtype; cbn [dbits]; lia|]. eapply Z.le_lt_trans; [|exact BN]. apply Z.eq_le_incl. f_equal. f_equal. rewrite Nat2Z.inj_add, Nat2Z.inj_mul, Nat2Z.inj_add, Z2Nat.id by exact Hlen. reflexivity.
    - intros Pz b x y X Hb Hx Ey EX i j f. unfold in_dtype. cbn [dbits]. destruct (HS x Hx) as (Vx & Lx & _). apply (HZ Pz b x y X); auto. lia.
    - exists C, prods. split; [exact EC|]. split; [exact EM|]. split; [exact IC|]. intros HP b Hb. rewrite <- E1. destruct (HB b Hb) as (P2 & N2 & _). apply (suffix_same b b1 len (val n s)); auto. rewrite (HP _ P2), (HP _ Q1). reflexivity. }
  unfold group_offer. change (get l 0) with (Ok b0). cbn [bind]. rewrite (HF b0 H0). cbn [bind].
  destruct dp as (_ & _ & RP). rewrite RP. destruct (dget (key_eqb deqb) c (len, val n s)) as [[sfx rights]|] eqn:G; cbn [bind].
  - apply cache_get in G. destruct (HC _ _ _ _ G) as (b1 & V1 & N1 & Q1 & F1 & E1 & R1). destruct (FIN sfx rights b1) as (C & prods & EC & EM & IC & HS); auto. rewrite EC. cbn [bind]. rewrite EM. cbn [bind]. exists c, sfx, prods, (flatten C). auto.
  - destruct (suffix_facts b0 len (HV b0 H0) Nb Hlen) as (sfx & E1 & _). rewrite E1. cbn [bind]. destruct (suffix_images b0 sfx (HV b0 H0) Nb E1) as (rights & ER & R1). rewrite ER. cbn [bind]. destruct (FIN sfx rights b0) as (C & prods & EC & EM & IC & HS); auto. rewrite EC. cbn [bind]. rewrite EM. cbn [bind].
    eexists _, sfx, prods, (flatten C). split; [reflexivity|]. split; [|auto]. intros len' f' sfx' rights' Hin. apply cache_set in Hin. destruct Hin as [Q|Hin]; [|now apply (HC _ _ _ _ Hin)]. injection Q as -> -> -> ->. exists b0. auto 8.
Qed.
Variables (cls : Z) (rnd : nat -> QArith_base.Q) (rint : nat -> nat) (argsort : list Z -> list nat).
Local Notation badds := (map (fun '(bs, im) => Add bs im)).
Definition desc (b : nfobj) : list nfobj := match braid_descendants tb len b with Ok l => l | Err _ => [] end.
Lemma group_perm sfx bs prods : mapM (fun '(x, b) => nf_mul tb b x) (list_prod sfx bs) = Ok prods -> (forall b, In b bs -> nf_suffixes tb b len = Ok sfx) -> Permutation prods (flat_map desc bs) /\ forall b, In b bs -> exists l, braid_descendants tb len b = Ok l.
Proof using.
  intros E HS. set (F := fun b x => match nf_mul tb b x with Ok c => c | Err _ => NFObj 0 0 [] end).
  assert (ALL : forall x b, In x sfx -> In b bs -> nf_mul tb b x = Ok (F b x)). { intros x b Hx Hb. apply mapM_Ok_Forall2 in E. assert (Hin : In (x, b) (list_prod sfx bs)) by now apply in_prod. apply In_nth_error in Hin. destruct Hin as [k Hk]. destruct (PropsTLMor2.Forall2_nth_error _ _ _ E k _ Hk) as (c & _ & Hc). cbn in Hc. unfold F. now rewrite Hc. }
  assert (D : forall b, In b bs -> braid_descendants tb len b = Ok (map (F b) sfx)). { intros b Hb. unfold braid_descendants. rewrite (HS b Hb). cbn [bind]. apply mapM_ok. intros x Hx. now apply ALL. }
  split; [|intros b Hb; eauto]. rewrite (mapM_ok _ (fun '(x, b) => F b x)) in E. 2:{ intros [x b] H. apply in_prod_iff in H. now apply ALL. }
  injection E as <-. rewrite map_list_prod. rewrite (flat_map_swap (fun x b => F b x) sfx bs). rewrite (flat_map_ext_in' desc (fun b => map (F b) sfx) bs); [reflexivity|]. intros b Hb. unfold desc. now rewrite (D b Hb).
Qed.
(** the groups of the sorted bucket *)
Lemma groups_ok sb si : IM sb si -> (forall b, In b sb -> Pow (o_pow b) /\ o_factors b <> []) ->
  (p = 0%Z -> forall b x y X, In b sb -> nf_value tb n x -> length (o_factors x) <= Z.to_nat len -> nf_mul tb b x = Ok y -> rep_evaluate_nf tb R y = Ok X -> int64_matrix X) ->
  forall gs, Forall (fun g => g <> [] /\ exists bs z, mapM (get sb) g = Ok bs /\ forall b, In b bs -> last_of b = Ok z) gs -> forall c, COK c ->
  exists c' ads, (forall tr, foldM (fun '(c, tr) idxs => bs <- mapM (get sb) idxs ;; left <- take_list si idxs ;; '(c, (prods, im)) <- group_offer tb deqb R c len bs left ;; tr <- add_braids_images cls rnd rint tr prods im ;; Ok (c, tr)) gs (c, tr) =
      (tr' <- run_ops cls rnd rint tr (badds ads) ;; Ok (c', tr'))) /\ COK c' /\ Forall (fun o => IM (fst o) (snd o)) ads /\
    ((forall q, Pow q -> q = 0%Z) -> Permutation (concat (map fst ads)) (flat_map (fun i => desc (nth i sb (NFObj 0 0 []))) (concat gs))).
Proof using EJ ED Hp1 n2 Ht Hlen BN BX Hdeq.
  intros HI HB HZ gs. induction gs as [|g gs IH]; intros HG c HC.
  - exists c, []. split; [reflexivity|]. split; [exact HC|]. split; [constructor|]. intros _. constructor.
  - inversion HG as [|? ? (NG & bs & z & Eg & Hz) HG']; subst. destruct (take_images n p R tb d I64 sb si g bs HI Eg) as (left & EL & IL). pose proof (mapM_get _ _ _ Eg) as FG. pose proof (PropsTLMor2.Forall2_len _ _ _ FG) as LG.
    assert (SUB : forall b, In b bs -> In b sb). { intros b Hb. apply In_nth_error in Hb. destruct Hb as [k Hk]. assert (k < length bs) by (apply nth_error_Some; congruence). destruct (nth_error g k) as [i|] eqn:Ei; [|apply nth_error_None in Ei; lia]. destruct (PropsTLMor2.Forall2_nth_error _ _ _ FG k i Ei) as (y & Ey & Hy). rewrite Hk in Ey. injection Ey as <-. now apply nth_error_In in Hy. }
    destruct (group_ok c bs left z HC) as (c1 & sfx & prods & im & EG & C1 & I1 & EM & HS).
    + destruct bs; [destruct g; [contradiction|discriminate]|discriminate].
    + exact IL.
    + intros b Hb. destruct (HB b (SUB b Hb)) as [B1 B2]. auto.
    + intros P0 b x y X Hb. apply (HZ P0 b x y X). auto.
    + destruct (IH HG' c1 C1) as (c' & ads & EA & C2 & I2 & PA). exists c', ((prods, im) :: ads). split; [|split; [exact C2|split]].
      * intros tr. cbn [foldM map]. rewrite Eg. cbn [bind]. rewrite EL. cbn [bind]. rewrite EG. cbn [bind]. unfold run_ops. cbn [foldM apply_op]. destruct (add_braids_images cls rnd rint tr prods im) as [tr1|]; [|reflexivity]. cbn [bind]. apply EA.
      * constructor; [exact I1|exact I2].
      * intros HP. cbn [map concat fst]. rewrite flat_map_app. apply Permutation_app; [|now apply PA]. destruct (group_perm sfx bs prods EM (HS HP)) as [Q _]. rewrite Q. replace bs with (map (fun i => nth i sb (NFObj 0 0 [])) g).
        -- rewrite flat_map_concat_map, map_map, <- flat_map_concat_map. reflexivity.
        -- clear - FG. induction FG as [|i b g bs H FG IH]; [reflexivity|]. cbn [map]. rewrite IH. f_equal. now apply nth_error_nth.
Qed.
Lemma descendants_ok (b : nfobj) : nf_value tb n b -> o_factors b <> [] -> exists l, braid_descendants tb len b = Ok l.
Proof using n2 Ht Hlen.
  clear EJ ED. intros V NE. destruct (suffix_facts b len V NE Hlen) as (sfx & E & _ & HS). unfold braid_descendants. rewrite E. cbn [bind]. destruct (PropsTLMor2.mapM_Forall2 (fun x => nf_mul tb b x) (fun _ _ => True) sfx) as [l [El _]]; [|eauto].
  intros x Hx. destruct (bwd_mul n tb n2 Ht b x V (proj1 (HS x Hx))) as (c & Ec & _). eauto.
Qed.
End B.

(** C76 (bucketing.py).  nf_descendants of a bucket whose braids are stored with their
    own images only offers products with their own images: it behaves like a run of
    additions, in each of which the k-th matrix is the image of the k-th braid; and if
    the stored braids have power 0 the offered braids are, up to order and counted
    with multiplicity, the products of every stored braid with each of its suffixes.
    [argsort] may return any permutation of the positions. *)
Theorem C76_bucketing_partial n r p R d tb cls rnd rint deqb argsort c tr tag bk len (Pow : Z -> Prop) :
  jones_rep n r p = Ok R -> rep_dimension R = Ok (Z.of_nat d) -> p <> 1%Z -> 2 <= n -> gnf_table n tb ->
  (forall a b, deqb a b = true <-> a = b) -> (forall ks, Permutation (argsort ks) (seq 0 (length ks))) -> (0 <= len)%Z ->
  (p <> 0%Z -> (Z.of_nat d * (((len + 1) * Z.of_nat (n * (n - 1)) + 1) * ((p - 1) * (p - 1))) < 2 ^ 63)%Z) ->
  dget tag_eqb (tr_buckets tr) tag = Some bk -> images_of n p R tb d I64 (fst (braids_images bk)) (snd (braids_images bk)) ->
  (forall b, In b (fst (braids_images bk)) -> Pow (o_pow b) /\ o_factors b <> []) -> cache_ok n p R tb d Pow c ->
  (p = 0%Z -> (forall x X, nf_value tb n x -> length (o_factors x) <= Nat.max 1 (Z.to_nat len) -> rep_evaluate_nf tb R x = Ok X -> int64_matrix X) /\
     (forall b x y X, In b (fst (braids_images bk)) -> nf_value tb n x -> length (o_factors x) <= Z.to_nat len -> nf_mul tb b x = Ok y -> rep_evaluate_nf tb R y = Ok X -> int64_matrix X)) ->
  exists c' ads, tracker_nf_descendants cls rnd rint tb deqb R argsort c tr tag len = (tr' <- run_ops cls rnd rint tr (map (fun '(bs, im) => Add bs im) ads) ;; Ok (c', tr')) /\
    cache_ok n p R tb d Pow c' /\ Forall (fun o => images_of n p R tb d I64 (fst o) (snd o)) ads /\
    ((forall q, Pow q -> q = 0%Z) -> exists dss, mapM (braid_descendants tb len) (fst (braids_images bk)) = Ok dss /\ Permutation (concat (map fst ads)) (concat dss)).
Proof.
  intros EJ ED Hp1 n2 Ht Hdeq HA Hlen BN G HI HB HC HZ. unfold tracker_nf_descendants, dgetE. rewrite G. cbn [bind]. destruct (braids_images bk) as [braids images]. cbn [fst snd] in *.
  pose proof HI as (_ & _ & _ & _ & _ & HK). assert (HV : forall b, In b braids -> nf_value tb n b) by (intros b Hb; apply In_nth_error in Hb; destruct Hb as [k Hk]; exact (proj1 (HK k b Hk))).
  assert (HL : forall b, In b braids -> exists z, last_of b = Ok z). { intros b Hb. destruct (last_enc n tb n2 Ht b (HV b Hb) (proj2 (HB b Hb))) as (e & q & s & _ & _ & _ & L & _). eauto. }
  destruct (PropsTLMor2.mapM_Forall2 last_of (fun b z => last_of b = Ok z) braids) as [lasts [EL FL]]. { intros b Hb. destruct (HL b Hb) as [z Hz]. eauto. }
  rewrite EL. cbn [bind]. pose proof (PropsTLMor2.Forall2_len _ _ _ FL) as LL. set (order := argsort lasts). assert (PO : Permutation order (seq 0 (length braids))) by (unfold order; rewrite <- LL; apply HA).
  destruct (mapM_get_ok braids order) as [sb ES]. { intros i Hi. apply (Permutation_in _ PO) in Hi. apply in_seq in Hi. lia. }
  rewrite ES. cbn [bind]. destruct (take_images n p R tb d I64 braids images order sb HI ES) as (si & ET & IS). rewrite ET. cbn [bind]. apply mapM_get in ES.
  assert (EB : sb = map (fun i => nth i braids (NFObj 0 0 [])) order) by (clear - ES; induction ES as [|i b g bs H FG IH]; [reflexivity|]; cbn [map]; rewrite <- IH; f_equal; symmetry; now apply nth_error_nth).
  assert (PB : Permutation sb braids). { rewrite EB. rewrite (Permutation_map _ PO). rewrite map_nth_seq'. reflexivity. }
  destruct (PropsTLMor2.mapM_Forall2 last_of (fun b z => last_of b = Ok z) sb) as [keys [EK FK]]. { intros b Hb. apply (Permutation_in _ PB) in Hb. destruct (HL b Hb) as [z Hz]. eauto. }
  rewrite EK. cbn [bind]. destruct (groupby_ok (fun i => nth i keys 0%Z) (seq 0 (length sb))) as [GC GF].
  destruct (groups_ok n r p R d tb EJ ED Hp1 n2 Ht deqb Hdeq Pow len Hlen BN (fun P0 => proj1 (HZ P0)) cls rnd rint sb si IS) with (gs := groupby (fun i => nth i keys 0%Z) (seq 0 (length sb))) (c := c) as (c' & ads & EA & C2 & I2 & PA).
  - intros b Hb. apply HB. now apply (Permutation_in _ PB).
  - intros P0 b x y X Hb. apply (proj2 (HZ P0)). now apply (Permutation_in _ PB).
  - rewrite Forall_forall in *. intros g Hg. destruct (GF g Hg) as [NG SK]. split; [exact NG|]. assert (RG : forall i, In i g -> i < length sb). { intros i Hi. assert (H : In i (concat (groupby (fun i => nth i keys 0%Z) (seq 0 (length sb))))) by (apply in_concat; eauto). rewrite GC in H. apply in_seq in H. lia. }
    destruct (mapM_get_ok sb g RG) as [bs Ebs]. destruct g as [|i0 g]; [contradiction|]. exists bs, (nth i0 keys 0%Z). split; [exact Ebs|]. apply mapM_get in Ebs. intros b Hb. apply In_nth_error in Hb. destruct Hb as [k Hk]. pose proof (PropsTLMor2.Forall2_len _ _ _ Ebs) as LB. assert (k < length bs) by (apply nth_error_Some; congruence).
    destruct (nth_error (i0 :: g) k) as [i|] eqn:Ei; [|apply nth_error_None in Ei; lia]. destruct (PropsTLMor2.Forall2_nth_error _ _ _ Ebs k i Ei) as (y & Ey & Hy). rewrite Hk in Ey. injection Ey as <-. destruct (PropsTLMor2.Forall2_nth_error _ _ _ FK i b Hy) as (z & Ez & Hz). rewrite Hz. f_equal. rewrite (SK i0 i (or_introl eq_refl)) by (now apply nth_error_In in Ei). symmetry. now apply nth_error_nth.
  - exact HC.
  - exists c', ads. split; [apply EA|]. split; [exact C2|]. split; [exact I2|]. intros HP. specialize (PA HP). rewrite GC in PA. exists (map (desc tb len) braids). split.
    + apply mapM_ok. intros b Hb. unfold desc. destruct (descendants_ok n tb n2 Ht len Hlen b (HV b Hb) (proj2 (HB b Hb))) as [l El]. now rewrite El.
    + rewrite PA. rewrite <- flat_map_concat_map. rewrite flat_map_concat_map. rewrite <- (map_map (fun i => nth i sb (NFObj 0 0 [])) (desc tb len)). rewrite map_nth_seq'. rewrite <- flat_map_concat_map. now apply Permutation_flat_map.
Qed.

(** C76 (bucketing.py).  A tracker that was only given braids with their own images
    stores every braid with its own image. *)
Theorem C76_stored_bucketing n p R tb d cls rnd rint cap stats m w os tr (Q : nfobj -> Prop) :
  (forall bs im, In (Add bs im) os -> images_of n p R tb d I64 bs im /\ Forall Q bs) -> new_run cls rnd rint cap stats m w os = Ok tr ->
  forall tag b, dget tag_eqb (tr_buckets tr) tag = Some b -> images_of n p R tb d I64 (fst (braids_images b)) (snd (braids_images b)) /\ Forall Q (fst (braids_images b)).
Proof.
  intros HO H tag b G. assert (F : Forall (op_ok d d I64) os). { apply Forall_forall. intros [bs im|t] Ho; [|exact Logic.I]. destruct (HO bs im Ho) as [(W & _ & E1 & E2 & E3 & _) _]. cbn. auto. }
  destruct (new_run_ok _ _ _ _ _ _ _ _ _ _ _ _ F H) as (_ & _ & h & HH & TO). destruct TO as (_ & _ & _ & _ & TO). specialize (TO tag). rewrite G in TO.
  destruct TO as [_ (items & B & _ & Ho & _)]. destruct (holds_perm _ _ _ _ Ho) as [rest P].
  assert (SRC : forall x, In x items -> exists bs im i, In (Add bs im) os /\ nth_error bs i = Some (ibraid x) /\ projective_of im i (iimage x)).
  { intros x Hx. assert (Hs : In x (since tagdec tag h)) by (apply (Permutation_in _ (Permutation_sym P)), in_app_iff; now left).
    destruct (history_in _ _ _ _ _ _ _ HH (since_in _ _ _ Hs)) as (bs & im & i & Ha & Hb & _ & Hp & _). eauto 6. }
  destruct B as [b1 b2 b3 b4 b5 b6 b7 b8 b9 b10 b11 b12 b13 b14]. rewrite Forall_forall in b14.
  assert (SZ : b_size b = length items) by (unfold b_size; now rewrite b4, map_length). unfold braids_images. cbn [fst snd]. rewrite SZ, b4. split.
  2:{ apply Forall_forall. intros c Hc. apply in_map_iff in Hc. destruct Hc as (x & <- & Hx). destruct (SRC x Hx) as (bs & im & i & Ha & Hb & _). destruct (HO bs im Ha) as [_ HQ]. rewrite Forall_forall in HQ. apply HQ. now apply nth_error_In in Hb. }
  assert (W : wfa (take_items (b_images b) (length items))).
  { assert (EQ : forall c, In c (firstn (length items) (ablocks (b_images b))) -> exists x, In x items /\ c = block (iimage x) []).
    { intros c Hc. apply In_nth_error in Hc. destruct Hc as [k Hk]. assert (Lk : k < length items) by (assert (K : k < length (firstn (length items) (ablocks (b_images b)))) by (apply nth_error_Some; congruence); rewrite firstn_length in K; lia). rewrite nth_error_firstn in Hk by exact Lk.
      destruct (nth_error items k) as [x|] eqn:Ex; [|apply nth_error_None in Ex; lia]. exists x. split; [now apply nth_error_In in Ex|]. rewrite (b11 k x Ex) in Hk. congruence. }
    split; [cbn [take_items ablocks apre]; rewrite firstn_length; unfold nitems; cbn [fold_right]; lia|]. cbn [take_items ablocks aI aJ aD adt]. rewrite !Forall_forall.
    assert (WB : forall c, In c (firstn (length items) (ablocks (b_images b))) -> length c = nitems [d; d; aD (b_images b)] /\ Forall (in_dtype I64) c).
    { intros c Hc. destruct (EQ c Hc) as (x & Hx & ->). destruct (b14 x Hx) as (Wx & Px & X1 & X2 & X3 & X4). destruct (wfa_block (iimage x) [] Wx) as [L1 L2]; [rewrite Px; constructor|]. rewrite X1, X2, X3, X4 in *. split; [rewrite L1, b7; unfold nitems; cbn; lia|exact L2]. }
    rewrite b5, b6, b8. split; intros c Hc; apply (WB c Hc). }
  split; [exact W|]. split; [cbn [take_items apre]; rewrite map_length, b10; f_equal; lia|]. do 3 (split; [assumption|]). intros k c Hk. rewrite nth_error_map in Hk. destruct (nth_error items k) as [x|] eqn:Ex; [|discriminate]. injection Hk as <-.
  assert (Lk : k < length items) by (apply nth_error_Some; congruence). pose proof (nth_error_In _ _ Ex) as Hx. destruct (b14 x Hx) as (Wx & Px & X1 & X2 & X3 & X4).
  assert (AC : forall i j e, i < d -> j < d -> acoef (take_items (b_images b) (length items)) [k] i j e = acoef (iimage x) [] i j e).
  { intros i j e Hi Hj. rewrite !coef_block; auto; try (cbn [take_items aI aJ]; lia).
    - cbn [take_items aD aJ]. rewrite b6, b7, X2, X3. destruct (e <? _); [|reflexivity]. f_equal. unfold block at 1. cbn [take_items apre ablocks]. replace (ravel _ [k]) with k by (unfold ravel; cbn; lia). apply nth_error_nth. rewrite nth_error_firstn by exact Lk. now apply b11.
    - rewrite Px. constructor.
    - cbn [take_items apre]. rewrite b10. constructor; [lia|constructor]. }
  destruct (SRC x Hx) as (bs & im & i & Ha & Hb & (Pj & _ & _ & _ & s & Sh)). destruct (HO bs im Ha) as [(_ & _ & E1 & E2 & _ & HK) _]. rewrite E1, E2 in Sh. destruct (HK i _ Hb) as (K1 & (X & EX & a & HX) & KN & KR). split; [exact K1|]. split; [|split].
  - exists X. split; [exact EX|]. exists (a + Z.of_nat s)%Z. intros i' j' e Hi Hj. specialize (HX i' j' e Hi Hj). destruct (Z.ltb_spec e a); destruct (Z.ltb_spec e (a + Z.of_nat s)); try lia; try exact HX.
    + rewrite Sh in HX by assumption. unfold SpecPolymat.shift in HX. destruct (Nat.ltb_spec (Z.to_nat (e - a)) s); [exact HX|lia].
    + rewrite Sh in HX by assumption. unfold SpecPolymat.shift in HX. destruct (Nat.ltb_spec (Z.to_nat (e - a)) s); [lia|]. rewrite AC by assumption. replace (Z.to_nat (e - (a + Z.of_nat s))) with (Z.to_nat (e - a) - s) by lia. exact HX.
  - destruct Pj as (_ & _ & ((i' & j' & Hi & Hj & N) & _) & _). rewrite X1 in Hi. rewrite X2 in Hj. exists i', j'. rewrite AC by assumption. auto.
  - intros P0 i' j' e Hi Hj. rewrite AC by assumption. specialize (KR P0 i' j' (e + s) Hi Hj). rewrite Sh in KR by assumption. unfold SpecPolymat.shift in KR. destruct (Nat.ltb_spec (e + s) s); [lia|]. now replace (e + s - s) with e in KR by lia.
Qed.

(** C76.  The products of a braid of power 0 with its suffixes are the normal forms of
    power 0 that extend its factors by [len] factors, each once. *)
Theorem C76_descendants n tb b len l : 2 <= n -> gnf_table n tb -> nf_value tb n b -> o_pow b = 0%Z -> (0 <= len)%Z -> braid_descendants tb len b = Ok l ->
  NoDup l /\ forall c, In c l <-> nf_value tb n c /\ o_pow c = 0%Z /\ exists s, length s = Z.to_nat len /\ o_factors c = o_factors b ++ s.
Proof.
  intros n2 Ht V P Hl E. pose proof (ptab_ok n n2) as TK. destruct (val_enc n tb n2 Ht b V) as [[e fs] [Ho ->]]. cbn [TableTheory.enc o_pow fst] in P. subst e. destruct (suffixes_enc n tb n2 Ht 0%Z fs len Hl Ho) as (ls & Es & ND & H).
  unfold braid_descendants in E. rewrite Es in E. cbn [bind] in E. rewrite mapM_map' in E. rewrite (mapM_ok _ (fun m => TableTheory.enc (PG n) n (idx n) (0%Z, fs ++ m))) in E.
  2:{ intros m Hm. apply H in Hm. destruct Hm as (_ & O1 & O2). apply (mul_even n tb n2 Ht (0%Z, fs) (0%Z, m)); auto. now exists 0%Z. }
  injection E as <-. split.
  - apply Injective_map_NoDup; [|exact ND]. intros a c K. apply (enc_inj _ _ _ _ _ _ _ _ _ TK) in K. injection K as K. now apply app_inv_head in K.
  - intros c. rewrite in_map_iff. split.
    + intros (m & <- & Hm). apply H in Hm. destruct Hm as (L & O1 & O2). split; [now apply enc_val|]. split; [reflexivity|]. exists (map (idx n) m). split; [now rewrite map_length|]. cbn [TableTheory.enc o_factors snd]. now rewrite map_app.
    + intros (Vc & Pc & s & Ls & Es'). destruct (val_enc n tb n2 Ht c Vc) as [[e gs] [Hg ->]]. cbn [TableTheory.enc o_pow fst] in Pc. subst e. cbn [TableTheory.enc o_factors snd] in Es'.
      assert (EG : gs = fs ++ skipn (length fs) gs).
      { rewrite <- (firstn_skipn (length fs) gs) at 1. f_equal. assert (INJ : forall a c, map (idx n) a = map (idx n) c -> a = c) by (induction a as [|x a IH]; intros [|y c] Q; try discriminate; [reflexivity|]; cbn in Q; injection Q as Q1 Q2; f_equal; [now apply (tk_inj _ _ _ _ _ _ _ _ _ TK)|auto]). apply INJ. rewrite <- firstn_map, Es', firstn_app. rewrite map_length, Nat.sub_diag. cbn [firstn]. rewrite app_nil_r. etransitivity; [|apply firstn_all]. f_equal. symmetry. apply map_length. }
      revert EG. generalize (skipn (length fs) gs). intros m EG. subst gs. exists m. split; [reflexivity|]. apply H. split; [|split; [|exact Hg]].
      * rewrite map_app in Es'. apply app_inv_head in Es'. rewrite <- Ls, <- Es'. symmetry. apply map_length.
      * rewrite (ok_proper _ _ _ _ _ _ _ _ _ TK) in *. destruct Hg as [G1 G2]. apply Forall_app in G2. split; [|apply G2]. revert G1. clear. induction fs as [|x fs IH]; [auto|]. cbn [List.app]. intros G. apply IH. destruct (fs ++ m) as [|y q]; [exact Logic.I|]. now destruct G.
Qed.

(** C76 (bucketing.py).  Any number of nf_descendants calls on a tracker that was only
    given braids of power 0 with their own images, whatever buckets and lengths are
    chosen, leaves a tracker that was only given such pairs. *)
Theorem C76_calls_bucketing n r p R d tb cls rnd rint cap stats m w deqb argsort os tr0 L calls c' tr' :
  jones_rep n r p = Ok R -> rep_dimension R = Ok (Z.of_nat d) -> (2 <= p)%Z -> 2 <= n -> gnf_table n tb ->
  (forall a b, deqb a b = true <-> a = b) -> (forall ks, Permutation (argsort ks) (seq 0 (length ks))) ->
  (Z.of_nat d * (((L + 1) * Z.of_nat (n * (n - 1)) + 1) * ((p - 1) * (p - 1))) < 2 ^ 63)%Z ->
  let good bs im := images_of n p R tb d I64 bs im /\ Forall (fun b => o_pow b = 0%Z /\ o_factors b <> []) bs in
  (forall bs im, In (Add bs im) os -> good bs im) -> new_run cls rnd rint cap stats m w os = Ok tr0 ->
  Forall (fun tl => 0 <= snd tl <= L)%Z calls ->
  foldM (fun '(c, tr) '(tag, len) => tracker_nf_descendants cls rnd rint tb deqb R argsort c tr tag len) calls ([], tr0) = Ok (c', tr') ->
  exists os', new_run cls rnd rint cap stats m w (os ++ os') = Ok tr' /\ (forall bs im, In (Add bs im) os' -> good bs im) /\
    forall tag b, dget tag_eqb (tr_buckets tr') tag = Some b -> good (fst (braids_images b)) (snd (braids_images b)).
Proof.
  intros EJ ED Hp n2 Ht Hdeq HA BL good HO HR HL H.
  enough (GEN : forall calls os c tr, Forall (fun tl => 0 <= snd tl <= L)%Z calls -> (forall bs im, In (Add bs im) os -> good bs im) -> new_run cls rnd rint cap stats m w os = Ok tr -> cache_ok n p R tb d (fun q => q = 0%Z) c ->
    foldM (fun '(c, tr) '(tag, len) => tracker_nf_descendants cls rnd rint tb deqb R argsort c tr tag len) calls (c, tr) = Ok (c', tr') ->
    exists os', new_run cls rnd rint cap stats m w (os ++ os') = Ok tr' /\ (forall bs im, In (Add bs im) os' -> good bs im)).
  { destruct (GEN calls os [] tr0 HL HO HR) as (os' & E1 & E2); [intros ? ? ? ? []|exact H|]. exists os'. split; [exact E1|]. split; [exact E2|]. intros tag b G. apply (C76_stored_bucketing n p R tb d cls rnd rint cap stats m w (os ++ os') tr' (fun b => o_pow b = 0%Z /\ o_factors b <> [])) with (tag := tag); auto. intros bs im Hin. apply in_app_iff in Hin. destruct Hin; [apply HO|apply E2]; assumption. }
  clear calls H HL os tr0 HO HR. induction calls as [|[tag len] calls IH]; intros os c tr HL HO HR HC H; cbn [foldM] in H.
  - injection H as _ <-. exists []. rewrite app_nil_r. split; [exact HR|]. intros bs im [].
  - inversion HL as [|? ? L1 L2]; subst. cbn [snd] in L1. destruct (dget tag_eqb (tr_buckets tr) tag) as [bk|] eqn:G.
    2:{ unfold tracker_nf_descendants, dgetE in H. rewrite G in H. discriminate. }
    destruct (C76_stored_bucketing n p R tb d cls rnd rint cap stats m w os tr (fun b => o_pow b = 0%Z /\ o_factors b <> []) HO HR tag bk G) as [SI SQ]. rewrite Forall_forall in SQ.
    destruct (C76_bucketing_partial n r p R d tb cls rnd rint deqb argsort c tr tag bk len (fun q => q = 0%Z)) as (c1 & ads & EA & C1 & I1 & PA); auto; try lia.
    { intros _. eapply Z.le_lt_trans; [|exact BL]. apply Z.mul_le_mono_nonneg_l; [lia|]. apply Z.mul_le_mono_nonneg_r; [nia|]. nia. }
    rewrite EA in H. destruct (run_ops cls rnd rint tr (map (fun '(bs, im) => Add bs im) ads)) as [tr1|] eqn:E1; [|discriminate]. cbn [bind] in H. destruct (PA ltac:(auto)) as (dss & ED' & PD).
    assert (HV : forall b, In b (fst (braids_images bk)) -> nf_value tb n b) by (intros b Hb; apply In_nth_error in Hb; destruct Hb as [k Hk]; destruct SI as (_ & _ & _ & _ & _ & HK); exact (proj1 (HK k b Hk))).
    assert (HN : forall bs im, In (Add bs im) (map (fun '(bs, im) => Add bs im) ads) -> good bs im).
    { intros bs im Hin. apply in_map_iff in Hin. destruct Hin as ([bs1 im1] & Q & Hin). injection Q as -> ->. rewrite Forall_forall in I1. split; [apply (I1 _ Hin)|]. apply Forall_forall. intros b Hb. assert (Hc : In b (concat dss)) by (apply (Permutation_in _ PD), in_concat; exists bs; split; [apply in_map_iff; exists (bs, im); auto|exact Hb]).
      apply in_concat in Hc. destruct Hc as (ds & Hds & Hbd). apply mapM_Ok_Forall2 in ED'. apply In_nth_error in Hds. destruct Hds as [k Hk]. pose proof (PropsTLMor2.Forall2_len _ _ _ ED') as LD. assert (Lk : k < length dss) by (apply nth_error_Some; congruence).
      destruct (nth_error (fst (braids_images bk)) k) as [b0|] eqn:Eb; [|apply nth_error_None in Eb; lia]. destruct (PropsTLMor2.Forall2_nth_error _ _ _ ED' k b0 Eb) as (y & Ey & Hy). rewrite Hk in Ey. injection Ey as <-. pose proof (nth_error_In _ _ Eb) as Hb0. destruct (SQ b0 Hb0) as [S1 S2].
      destruct (C76_descendants n tb b0 len ds n2 Ht (HV b0 Hb0) S1 (proj1 L1) Hy) as [_ HD]. apply HD in Hbd. destruct Hbd as (_ & D1 & s & _ & D2). split; [exact D1|]. rewrite D2. intros Q. apply app_eq_nil in Q. now destruct Q. }
    destruct (IH (os ++ map (fun '(bs, im) => Add bs im) ads) c1 tr1 L2) as (os' & E2 & H2); auto.
    + intros bs im Hin. apply in_app_iff in Hin. destruct Hin; auto.
    + unfold new_run in *. destruct (tracker_init cap stats m w) as [t0|]; [|discriminate]. cbn [bind] in *. unfold run_ops in *. rewrite foldM_app, HR. cbn [bind]. exact E1.
    + exists (map (fun '(bs, im) => Add bs im) ads ++ os'). rewrite app_assoc. split; [exact E2|]. intros bs im Hin. apply in_app_iff in Hin. destruct Hin; auto.
Qed.

(** ** Cases *)
Definition ex_sort (ks : list Z) : list nat := rev (seq 0 (length ks)).
Definition ex_eqb (a b : list nat) : bool := if list_eq_dec Nat.eq_dec a b then true else false.
Definition bcontents (tr : tracker) : list (list Z * list (Z * list Z)) := map (fun kb => (fst kb, map (fun b => (o_pow b, o_factors b)) (fst (braids_images (snd kb))))) (tr_buckets tr).
Notation ex_new R bs := (im <- polymat_evaluate_braids_of_same_length (gtb hdpick) R bs ;; new_run 0 (fun _ => inject_Z 0) (fun _ => 0) 20 [CanonicalLength; ProjectiveLength] GreedyFirst None [Add bs im]).
Notation ex_calls R bs calls := (tr <- ex_new R bs ;; '(c, tr) <- foldM (fun '(c, tr) '(tag, len) => tracker_nf_descendants 0 (fun _ => inject_Z 0) (fun _ => 0) (gtb hdpick) ex_eqb R ex_sort c tr tag len) calls ([], tr) ;; Ok (bcontents tr)).
Notation ex_bs := [NFObj 3 0 [2%Z]; NFObj 3 0 [4%Z]].
Example C76_case : (R <- jones_rep 3 1 2 ;; ex_calls R ex_bs [([1; 3]%Z, 1%Z); ([2; 5]%Z, 1%Z)]) =
  Ok [([1; 3]%Z, [(0, [2]); (0, [4])]%Z); ([2; 5]%Z, [(0, [4; 2]); (0, [4; 3]); (0, [2; 2]); (0, [2; 3])]%Z);
      ([3; 7]%Z, [(0, [2; 3; 1]); (0, [2; 3; 4]); (0, [2; 2; 2]); (0, [2; 2; 3]); (0, [4; 3; 1]); (0, [4; 3; 4]); (0, [4; 2; 2]); (0, [4; 2; 3])]%Z)].
Proof. vm_compute. reflexivity. Qed.
Ltac exists_value e f := eexists _, e, f.
Lemma ex_value e f : (e = 0 \/ e = 2)%Z -> (f = 2 \/ f = 4)%Z -> nf_value (gtb hdpick) 3 (NFObj 3 e [f]).
Proof. intros [->| ->] [->| ->]; (match goal with |- nf_value _ _ (NFObj _ ?e ?f) => exists_value e f end; split; [vm_compute; reflexivity|split; [repeat constructor; cbn; lia|vm_compute; reflexivity]]). Qed.
Lemma ex_images R d bs : jones_rep 3 1 2 = Ok R -> rep_dimension R = Ok (Z.of_nat d) -> d = 2 -> bs <> [] -> (forall b, In b bs -> exists e f, b = NFObj 3 e [f] /\ (e = 0 \/ e = 2)%Z /\ (f = 2 \/ f = 4)%Z) ->
  exists im, polymat_evaluate_braids_of_same_length (gtb hdpick) R bs = Ok im /\ images_of 3 2 R (gtb hdpick) d I64 bs im.
Proof.
  intros EJ ED -> NE HB. assert (V : forall b, In b bs -> nf_value (gtb hdpick) 3 b) by (intros b Hb; destruct (HB b Hb) as (e & f & -> & He & Hf); now apply ex_value).
  assert (N3 : 2 <= 3) by lia. assert (L7 : 3 < 7) by lia. pose proof (gtb_is_table hdpick 3 hdpick_ok L7) as GT. assert (P1 : 2%Z <> 1%Z) by lia.
  destruct (C61_gnf 3 1 2 R (gtb hdpick) bs 2 EJ N3 GT P1 ED NE V) as (P & EP & W & I1 & I2 & I3 & I4 & K).
  - intros b b' Hb Hb'. destruct (HB b Hb) as (? & ? & -> & _). destruct (HB b' Hb') as (? & ? & -> & _). reflexivity.
  - intros _. cbn. lia.
  - intros Q. discriminate.
  - exists P. split; [exact EP|]. split; [exact W|]. do 4 (split; [assumption|]). intros k b Hk. destruct (K k b Hk) as (K1 & K2 & K3). split; [apply V; now apply nth_error_In in Hk|]. auto.
Qed.
(** the hypotheses of [C76_calls_bucketing] hold in this case *)
Example C76_case_hyps : exists R im tr c' tr', jones_rep 3 1 2 = Ok R /\ rep_dimension R = Ok (Z.of_nat 2) /\ gnf_table 3 (gtb hdpick) /\ (forall a b, ex_eqb a b = true <-> a = b) /\ (forall ks, Permutation (ex_sort ks) (seq 0 (length ks))) /\
  (Z.of_nat 2 * (((1 + 1) * Z.of_nat (3 * (3 - 1)) + 1) * ((2 - 1) * (2 - 1))) < 2 ^ 63)%Z /\ images_of 3 2 R (gtb hdpick) 2 I64 ex_bs im /\
  new_run 0 (fun _ => inject_Z 0) (fun _ => 0) 20 [CanonicalLength; ProjectiveLength] GreedyFirst None [Add ex_bs im] = Ok tr /\
  foldM (fun '(c, tr) '(tag, len) => tracker_nf_descendants 0 (fun _ => inject_Z 0) (fun _ => 0) (gtb hdpick) ex_eqb R ex_sort c tr tag len) [([1; 3]%Z, 1%Z); ([2; 5]%Z, 1%Z)] ([], tr) = Ok (c', tr').
Proof.
  assert (L7 : 3 < 7) by lia. pose proof (gtb_is_table hdpick 3 hdpick_ok L7) as GT. pose proof C76_case as CC. destruct (jones_rep 3 1 2) as [R|] eqn:EJ; [|discriminate CC]. cbn [bind] in CC. assert (ED : rep_dimension R = Ok (Z.of_nat 2)) by (revert EJ; vm_compute; intros [= <-]; reflexivity).
  destruct (ex_images R 2 ex_bs EJ ED eq_refl) as (im & EI & HI); [discriminate|intros b [<-|[<-|[]]]; eauto 8|]. rewrite EI in CC. cbn [bind] in CC. destruct (new_run _ _ _ _ _ _ _ [Add ex_bs im]) as [tr|] eqn:EN; [|discriminate CC]. cbn [bind] in CC.
  match type of CC with (bind ?e _ = _) => destruct e as [[c' tr']|] eqn:EF end; [|discriminate CC]. exists R, im, tr, c', tr'. split; [exact EJ || reflexivity|]. split; [exact ED|]. split; [exact GT|]. split; [intros a b; unfold ex_eqb; destruct (list_eq_dec Nat.eq_dec a b); split; congruence|]. split; [intros ks; symmetry; apply Permutation_rev|]. split; [cbn; lia|]. auto.
Qed.
(** C76 fails for braids of non-zero power: the suffix cache does not see the power, so
    a product of a stored braid with one of its suffixes need not be offered. *)
Theorem C76_power_refuted : exists R im tr c' tr' b x y, jones_rep 3 1 2 = Ok R /\ images_of 3 2 R (gtb hdpick) 2 I64 [NFObj 3 0 [2%Z]; NFObj 3 2 [2%Z]] im /\
  new_run 0 (fun _ => inject_Z 0) (fun _ => 0) 20 [CanonicalLength; ProjectiveLength] GreedyFirst None [Add [NFObj 3 0 [2%Z]; NFObj 3 2 [2%Z]] im] = Ok tr /\
  tracker_nf_descendants 0 (fun _ => inject_Z 0) (fun _ => 0) (gtb hdpick) ex_eqb R (fun ks => seq 0 (length ks)) [] tr [1; 3]%Z 1 = Ok (c', tr') /\
  (exists bk, dget tag_eqb (tr_buckets tr) [1; 3]%Z = Some bk /\ In b (fst (braids_images bk))) /\ (exists xs, nf_suffixes (gtb hdpick) b 1 = Ok xs /\ In x xs) /\ nf_mul (gtb hdpick) b x = Ok y /\
  forall tag bk, In (tag, bk) (tr_buckets tr') -> length (fst (braids_images bk)) < 20 /\ ~ In y (fst (braids_images bk)).
Proof.
  assert (CC : (R <- jones_rep 3 1 2 ;; im <- polymat_evaluate_braids_of_same_length (gtb hdpick) R [NFObj 3 0 [2%Z]; NFObj 3 2 [2%Z]] ;;
    tr <- new_run 0 (fun _ => inject_Z 0) (fun _ => 0) 20 [CanonicalLength; ProjectiveLength] GreedyFirst None [Add [NFObj 3 0 [2%Z]; NFObj 3 2 [2%Z]] im] ;;
    '(c, tr') <- tracker_nf_descendants 0 (fun _ => inject_Z 0) (fun _ => 0) (gtb hdpick) ex_eqb R (fun ks => seq 0 (length ks)) [] tr [1; 3]%Z 1 ;;
    Ok (match dget tag_eqb (tr_buckets tr) [1; 3]%Z with Some bk => fst (braids_images bk) | None => [] end, map (fun kb => fst (braids_images (snd kb))) (tr_buckets tr'))) =
    Ok ([NFObj 3 0 [2%Z]; NFObj 3 2 [2%Z]], [[NFObj 3 0 [2%Z]; NFObj 3 2 [2%Z]]; [NFObj 3 0 [2; 2]%Z; NFObj 3 2 [2; 2]%Z; NFObj 3 0 [2; 3]%Z; NFObj 3 2 [2; 3]%Z]])) by (vm_compute; reflexivity).
  destruct (jones_rep 3 1 2) as [R|] eqn:EJ; [|discriminate CC]. cbn [bind] in CC. assert (ED : rep_dimension R = Ok (Z.of_nat 2)) by (revert EJ; vm_compute; intros [= <-]; reflexivity).
  destruct (ex_images R 2 [NFObj 3 0 [2%Z]; NFObj 3 2 [2%Z]] EJ ED eq_refl) as (im & EI & HI); [discriminate|intros b [<-|[<-|[]]]; eauto 8|]. rewrite EI in CC. cbn [bind] in CC.
  destruct (new_run _ _ _ _ _ _ _ [Add [NFObj 3 0 [2%Z]; NFObj 3 2 [2%Z]] im]) as [tr|] eqn:EN; [|discriminate CC]. cbn [bind] in CC. destruct (tracker_nf_descendants _ _ _ _ _ _ _ _ _ _ _) as [[c' tr']|] eqn:EF; [|discriminate CC]. cbn [bind] in CC. injection CC as C1 C2.
  exists R, im, tr, c', tr', (NFObj 3 2 [2%Z]), (NFObj 3 2 [2%Z]), (NFObj 3 4 [2; 2]%Z). split; [exact EJ || reflexivity|]. split; [exact HI|]. split; [exact EN|]. split; [exact EF|]. split; [|split; [|split]].
  - destruct (dget tag_eqb (tr_buckets tr) [1; 3]%Z) as [bk|]; [|discriminate C1]. exists bk. split; [reflexivity|]. cbn [braids_images fst]. rewrite C1. cbn. auto.
  - eexists. split; [vm_compute; reflexivity|]. cbn. auto.
  - vm_compute. reflexivity.
  - intros tag bk Hin. assert (Q : In (fst (braids_images bk)) (map (fun kb => fst (braids_images (snd kb))) (tr_buckets tr'))) by (apply in_map_iff; exists (tag, bk); auto). cbn [braids_images fst] in Q. rewrite C2 in Q. unfold braids_images; cbn [fst]; destruct Q as [<-|[<-|[]]]; cbn [length In]; (split; [lia|]); intuition discriminate.
Qed.
