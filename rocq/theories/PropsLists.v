(** PropsLists.v – C109, C110: all_of_length_below_1 and the sampled batches of
    braidsearch.py. *)
From Coq Require Import Permutation QArith.
From Verif Require Import Base ModelPoly SpecPoly PolyTheory PropsPoly ModelMatrix SpecMatrix MatrixTheory NumTheory ModelPolymat SpecPolymat PolymatTheory PropsPolymat PropsPolymat2 PropsPolymat3.
From Verif Require Import ModelPerm Germ GermNF GermBraid PermTheory WeakOrder PermWords SpecBraid BraidTheory ModelBraid ModelTL ModelTLMor ModelRep SpecRep RepTheory RepCanon PropsRep ModelPolyRep TableTheory NFApi NFGeneric PermGerm PermTable PropsGNF PropsGNF2 PolyRepTheory PolyRepSpan PropsPolyRep PropsPolyRep2 JSTheory PropsJS ModelTracker PropsTracker ModelTools.
From Verif Require PropsTLMor2.
Local Open Scope nat_scope.

(** the k-th matrix of im is the image of the k-th braid, projectivised and reduced *)
Definition image_list (p : Z) (R : rep) (tb : nat -> res (nftable (list nat))) (d : nat) (bs : list nfobj) (im : parr) : Prop :=
  wfa im /\ apre im = [length bs] /\ aI im = d /\ aJ im = d /\
  forall k b, nth_error bs k = Some b -> (exists X, rep_evaluate_nf tb R b = Ok X /\ is_image p d X im k) /\
    (exists i j, i < d /\ j < d /\ acoef im [k] i j 0 <> 0%Z) /\ (p <> 0%Z -> forall i j e, i < d -> j < d -> (0 <= acoef im [k] i j e < p)%Z).
(** the empty batch that concatenate([]) returns *)
Definition no_images : parr := mkA [0] 1 1 1 I64 [].
(** rhogap/length < 1 for the matrix X: its non-zero coefficients modulo p are at
    fewer than 2 len + 1 degrees: greatest minus least < 2 len *)
Definition below (p : Z) (d : nat) (len : Z) (X : mat num) : Prop :=
  exists lo, forall i j e, i < d -> j < d -> ~ (p | numcoef (mentry X i j) e)%Z -> (lo <= e < lo + 2 * len)%Z.
(** the entries of l whose flag is set *)
Fixpoint flagged {A} (l : list A) (keep : list bool) : list A :=
  match l, keep with x :: l, b :: keep => (if b then [x] else []) ++ flagged l keep | _, _ => [] end.
Lemma flagged_app {A} (l1 : list A) : forall k1 l2 k2, length l1 = length k1 -> flagged (l1 ++ l2) (k1 ++ k2) = flagged l1 k1 ++ flagged l2 k2.
Proof. induction l1 as [|a l1 IH]; intros [|b k1] l2 k2 E; try discriminate; [reflexivity|]. cbn [app flagged]. rewrite IH by (cbn in E; lia). now rewrite app_assoc. Qed.
Lemma nth_concat {A} (L : list (list A)) : forall q b, nth_error (concat L) q = Some b -> exists k m, k < length L /\ nth_error (nth k L []) m = Some b /\ q = total (map (@length A) (firstn k L)) + m.
Proof.
  induction L as [|l L IH]; intros q b H; [destruct q; discriminate|]. cbn [concat] in H. destruct (Nat.lt_ge_cases q (length l)) as [Lq|Lq].
  - rewrite nth_error_app1 in H by exact Lq. exists 0, q. cbn. auto with arith.
  - rewrite nth_error_app2 in H by exact Lq. destruct (IH _ _ H) as (k & m & Hk & Hm & E). exists (S k), m. cbn [nth length firstn map]. unfold total in *. cbn [fold_right]. repeat split; [lia|exact Hm|lia].
Qed.
Lemma concat_images p R tb d (pairs : list (list nfobj * parr)) : pairs <> [] -> Forall (fun q => image_list p R tb d (fst q) (snd q)) pairs ->
  exists P, concatenate (map snd pairs) = Ok P /\ image_list p R tb d (concat (map fst pairs)) P.
Proof.
  intros NE F. destruct pairs as [|q0 ps]; [contradiction|]. set (pairs := q0 :: ps) in *. rewrite Forall_forall in F. cbn [map].
  assert (FA : Forall (fun A => wfa A /\ length (apre A) = 1 /\ aI A = aI (snd q0) /\ aJ A = aJ (snd q0)) (snd q0 :: map snd ps)).
  { apply Forall_forall. intros A HA. change (In A (map snd pairs)) in HA. apply in_map_iff in HA. destruct HA as (q & <- & Hq). destruct (F q Hq) as (W & P & I1 & I2 & _). destruct (F q0 (or_introl eq_refl)) as (_ & _ & J1 & J2 & _). rewrite P. repeat split; try apply W; congruence. }
  destruct (C67_concatenate (snd q0) (map snd ps) FA) as (P & EP & WP & PP & P1 & P2 & KP). change (snd q0 :: map snd ps) with (map snd pairs) in *. exists P. split; [exact EP|]. destruct (F q0 (or_introl eq_refl)) as (_ & _ & J1 & J2 & _).
  assert (NM : map nmats (map snd pairs) = map (@length nfobj) (map fst pairs)).
  { rewrite !map_map. apply map_ext_in. intros q Hq. destruct (F q Hq) as (_ & Pq & _). unfold nmats. rewrite Pq. cbn. lia. }
  assert (TL : forall l : list (list nfobj), total (map (@length nfobj) l) = length (concat l)) by (induction l as [|a l IH]; [reflexivity|]; cbn [map concat]; rewrite app_length, <- IH; reflexivity).
  split; [exact WP|]. split; [rewrite PP, NM, TL; reflexivity|]. split; [congruence|]. split; [congruence|].
  intros k b Hk. destruct (nth_concat _ _ _ Hk) as (i & m & Hi & Hm & Eq). rewrite map_length in Hi. destruct (nth_error pairs i) as [q|] eqn:Eqi; [|apply nth_error_None in Eqi; lia].
  assert (E1 : nth i (map fst pairs) [] = fst q) by (apply nth_error_nth; rewrite nth_error_map, Eqi; reflexivity). assert (E2 : nth i (map snd pairs) A_default = snd q) by (apply nth_error_nth; rewrite nth_error_map, Eqi; reflexivity). rewrite E1 in Hm.
  destruct (F q (nth_error_In _ _ Eqi)) as (Wq & Pq & Iq & Jq & Kq). destruct (Kq m b Hm) as ((X & EX & s & HS) & (i0 & j0 & Hi0 & Hj0 & N0) & RG).
  assert (LM : m < nmats (nth i (map snd pairs) A_default)) by (rewrite E2; unfold nmats; rewrite Pq; cbn; rewrite Nat.mul_1_r; apply nth_error_Some; congruence).
  assert (SP : forall a c e, a < d -> c < d -> acoef P [k] a c e = acoef (snd q) [m] a c e).
  { intros a c e Ha Hc. specialize (KP i m ltac:(rewrite map_length; exact Hi) LM a c e ltac:(congruence) ltac:(congruence)). rewrite E2 in KP. rewrite <- KP. do 2 f_equal. rewrite Eq. do 2 f_equal. rewrite !firstn_map, !map_map. apply map_ext_in. intros y Hy. assert (Hy' : In y pairs) by (rewrite <- (firstn_skipn i pairs); apply in_app_iff; now left). destruct (F y Hy') as (_ & Py & _). unfold nmats. rewrite Py. cbn. lia. }
  split; [|split].
  - exists X. split; [exact EX|]. exists s. intros a c e Ha Hc. specialize (HS a c e Ha Hc). destruct (e <? s)%Z; [exact HS|]. now rewrite SP.
  - exists i0, j0. rewrite SP by assumption. auto.
  - intros P0 a c e Ha Hc. rewrite SP by assumption. now apply RG.
Qed.
(** the gap of one matrix of a batch *)
Lemma gap_below p R tb d bs im len k b X : (0 <= len)%Z -> image_list p R tb d bs im -> nth_error bs k = Some b -> rep_evaluate_nf tb R b = Ok X ->
  exists gaps x, rhogap im = Ok gaps /\ length gaps = length bs /\ nth_error gaps k = Some x /\ (ratio_below_1 x len = true <-> below p d len X).
Proof.
  intros HL (W & P & I1 & I2 & K) Hk EX. destruct (K k b Hk) as ((X' & EX' & s & HS) & (i0 & j0 & Hi0 & Hj0 & N0) & RG). rewrite EX in EX'. injection EX' as <-.
  assert (D0 : aD im <> 0) by (intros Q; rewrite acoef_over in N0 by lia; lia). unfold rhogap. rewrite (degmax_eq im D0), (valmin_eq im D0). cbn [bind].
  assert (Lk : k < length bs) by (apply nth_error_Some; congruence). assert (V : valid_index (apre im) [k]) by (rewrite P; apply valid_one; eauto).
  assert (NZ : nonzero_poly (acoef im [k]) (aI im) (aJ im)) by (exists i0, j0, 0; rewrite I1, I2; auto). destruct (lo_least im [k] W V NZ) as ([(a1 & c1 & Ha1 & Hc1 & M1) Z1] & [(a2 & c2 & Ha2 & Hc2 & M2) Z2] & LH & _).
  assert (LO : lo im (block im [k]) = 0). { destruct (lo im (block im [k])) as [|q] eqn:Eq; [reflexivity|]. exfalso. apply N0. apply Z1; lia. }
  assert (BK : nth_error (ablocks im) k = Some (block im [k])). { unfold block. rewrite P. replace (ravel [length bs] [k]) with k by (cbn; lia). apply nth_error_nth'. destruct W as (W & _). rewrite W, P. cbn. lia. }
  eexists _, (inject_Z (Z.of_nat (hi im (block im [k])) - 1 - Z.of_nat (lo im (block im [k]))) / 2)%Q. split; [reflexivity|]. split; [|split].
  - rewrite map_length, combine_length, !map_length, Nat.min_id. destruct W as (W & _). rewrite W, P. cbn. lia.
  - rewrite nth_error_map. assert (CB : forall (f g : list Z -> Z) l q y, nth_error l q = Some y -> nth_error (combine (map f l) (map g l)) q = Some (f y, g y)) by (induction l as [|z l IH]; intros [|q] y Q; try discriminate; cbn in *; [injection Q as ->; reflexivity|auto]). rewrite (CB _ _ _ _ _ BK). reflexivity.
  - rewrite LO. set (h := hi im (block im [k])) in *. unfold ratio_below_1.
    assert (QC : negb (Qle_bool (inject_Z len) (inject_Z (Z.of_nat h - 1 - Z.of_nat 0) / 2)) = true <-> (Z.of_nat h - 1 < 2 * len)%Z).
    { rewrite negb_true_iff, <- not_true_iff_false, Qle_bool_iff. unfold Qle, Qdiv, Qinv, inject_Z, Qmult. cbn [Qnum Qden]. lia. }
    assert (PN : forall i j e, i < d -> j < d -> acoef im [k] i j e <> 0%Z -> ~ (p | acoef im [k] i j e)%Z).
    { intros i j e Hi Hj N Q. destruct (Z.eq_dec p 0) as [->|P0]; [apply Z.divide_0_l in Q; contradiction|]. specialize (RG P0 i j e Hi Hj). destruct Q as [q Q]. assert (q = 0)%Z by nia. lia. }
    assert (CN : forall i j e, i < d -> j < d -> acoef im [k] i j e <> 0%Z -> ~ (p | numcoef (mentry X i j) (s + Z.of_nat e))%Z).
    { intros i j e Hi Hj N Q. apply (PN i j e Hi Hj N). specialize (HS i j (s + Z.of_nat e)%Z Hi Hj). destruct (Z.ltb_spec (s + Z.of_nat e) s); [lia|]. replace (Z.to_nat (s + Z.of_nat e - s)) with e in HS by lia.
      replace (acoef im [k] i j e) with (numcoef (mentry X i j) (s + Z.of_nat e) - (numcoef (mentry X i j) (s + Z.of_nat e) - acoef im [k] i j e))%Z by ring. now apply Z.divide_sub_r. }
    rewrite andb_true_iff, QC, Z.ltb_lt. split.
    + intros [L1 L2]. exists s. intros i j e Hi Hj N. destruct (Z.ltb_spec e s) as [Lt|Ge].
      * exfalso. apply N. specialize (HS i j e Hi Hj). rewrite (proj2 (Z.ltb_lt _ _) Lt), Z.sub_0_r in HS. exact HS.
      * split; [lia|]. destruct (Z.lt_ge_cases e (s + 2 * len)) as [|Ge2]; [assumption|exfalso]. apply N. specialize (HS i j e Hi Hj). rewrite (proj2 (Z.ltb_ge _ _) Ge) in HS. rewrite Z2 in HS by lia. now rewrite Z.sub_0_r in HS.
    + intros [l0 HL0]. pose proof (HL0 i0 j0 (s + Z.of_nat 0)%Z Hi0 Hj0 (CN _ _ _ Hi0 Hj0 N0)) as B1. rewrite I1 in Ha2. rewrite I2 in Hc2. pose proof (HL0 a2 c2 _ Ha2 Hc2 (CN _ _ _ Ha2 Hc2 M2)) as B2. split; lia.
Qed.
Lemma flagged_get {A} (l : list A) : forall pre keep l', length l' = length keep -> l = pre ++ l' ->
  mapM (get l) (filter (fun i => nth (i - length pre) keep false) (seq (length pre) (length l'))) = Ok (flagged l' keep).
Proof.
  intros pre keep l'. revert pre keep. induction l' as [|x l' IH]; intros pre [|b keep] L E; try discriminate; [reflexivity|]. 
  assert (EX : get l (length pre) = Ok x) by (unfold get; rewrite E, nth_error_app2 by lia; rewrite Nat.sub_diag; reflexivity).
  specialize (IH (pre ++ [x]) keep ltac:(cbn in L; lia) ltac:(rewrite E, <- app_assoc; reflexivity)). rewrite app_length in IH. cbn [length] in IH. replace (length pre + 1) with (S (length pre)) in IH by lia.
  assert (FE : filter (fun i => nth (i - S (length pre)) keep false) (seq (S (length pre)) (length l')) = filter (fun i => nth (i - length pre) (b :: keep) false) (seq (S (length pre)) (length l'))).
  { apply filter_ext_in. intros i Hi. apply in_seq in Hi. replace (i - length pre) with (S (i - S (length pre))) by lia. reflexivity. }
  rewrite FE in IH. set (F := filter (fun i => nth (i - length pre) (b :: keep) false) (seq (S (length pre)) (length l'))) in *. assert (FF : filter (fun i => nth (i - length pre) (b :: keep) false) (seq (length pre) (length (x :: l'))) = if b then length pre :: F else F) by (cbn [length seq filter]; rewrite Nat.sub_diag; destruct b; reflexivity).
  rewrite FF. clear FF. clearbody F. cbn [flagged]. destruct b; cbn [app]; [|exact IH]. cbn [mapM]. rewrite EX. cbn [bind]. rewrite IH. reflexivity.
Qed.
Lemma flagged_len {A B} (l : list A) : forall (l2 : list B) keep, length l = length keep -> length l2 = length keep -> length (flagged l keep) = length (flagged l2 keep).
Proof. induction l as [|x l IH]; intros [|y l2] [|b keep] L1 L2; try discriminate; [reflexivity|]. cbn [flagged]. rewrite !app_length, (IH l2 keep) by (cbn in *; lia). destruct b; reflexivity. Qed.
Lemma flagged_pos {A B} (l : list A) : forall (l2 : list B) keep k x, length l = length keep -> length l2 = length keep -> nth_error (flagged l keep) k = Some x ->
  exists q, nth_error l q = Some x /\ nth_error (flagged l2 keep) k = nth_error l2 q.
Proof.
  induction l as [|y l IH]; intros [|z l2] [|b keep] k x L1 L2 H; try discriminate; [destruct k; discriminate|]. cbn [flagged] in *. destruct b; cbn [app] in *.
  - destruct k as [|k]; [exists 0; auto|]. destruct (IH l2 keep k x) as (q & Q1 & Q2); cbn in *; auto; try lia. exists (S q). auto.
  - destruct (IH l2 keep k x) as (q & Q1 & Q2); cbn in *; auto; try lia. exists (S q). auto.
Qed.
Lemma take_images p R tb d bs im keep : image_list p R tb d bs im -> length keep = length bs ->
  image_list p R tb d (flagged bs keep) (mkA [length (flagged bs keep)] (aI im) (aJ im) (aD im) (adt im) (flagged (ablocks im) keep)).
Proof.
  intros (W & P & I1 & I2 & K) L. assert (LB : length (ablocks im) = length keep) by (destruct W as (W & _); rewrite W, P, L; cbn; lia). set (C := mkA _ _ _ _ _ _).
  assert (IN : forall c, In c (flagged (ablocks im) keep) -> In c (ablocks im)). { intros c Hc. apply In_nth_error in Hc. destruct Hc as [k Hk]. destruct (flagged_pos _ (ablocks im) keep k c LB LB Hk) as (q & Q & _). eapply nth_error_In; exact Q. }
  assert (WC : wfa C).
  { destruct W as (W1 & W2 & W3). rewrite Forall_forall in W2, W3. split; [cbn [C ablocks apre]; rewrite (flagged_len _ bs keep) by congruence; unfold nitems; cbn; lia|]. split; apply Forall_forall; intros c Hc; [apply (W2 c (IN c Hc))|apply (W3 c (IN c Hc))]. }
  split; [exact WC|]. split; [reflexivity|]. split; [exact I1|]. split; [exact I2|]. intros k b Hk. destruct (flagged_pos bs (ablocks im) keep k b ltac:(congruence) LB Hk) as (q & Q1 & Q2). destruct (K q b Q1) as ((X & EX & s & HS) & (i0 & j0 & Hi0 & Hj0 & N0) & RG).
  assert (Lk : k < length (flagged bs keep)) by (apply nth_error_Some; congruence). assert (Lq : q < length bs) by (apply nth_error_Some; congruence).
  assert (VC : valid_index (apre C) [k]) by (apply valid_one; eauto). assert (Vq : valid_index (apre im) [q]) by (rewrite P; apply valid_one; eauto).
  assert (BE : block C [k] = block im [q]). { unfold block. rewrite P. cbn [C apre ablocks]. replace (ravel [length (flagged bs keep)] [k]) with k by (cbn; lia). replace (ravel [length bs] [q]) with q by (cbn; lia). assert (Lq2 : q < length (ablocks im)) by (rewrite LB, L; exact Lq). rewrite (nth_error_nth' (ablocks im) [] Lq2) in Q2. now apply nth_error_nth. }
  assert (AE : forall i j e, i < d -> j < d -> acoef C [k] i j e = acoef im [q] i j e).
  { intros i j e Hi Hj. rewrite (coef_block C [k] i j e WC VC) by (cbn [C aI aJ]; lia). rewrite (coef_block im [q] i j e W Vq) by lia. rewrite BE. reflexivity. }
  split; [|split].
  - exists X. split; [exact EX|]. exists s. intros a c e Ha Hc. specialize (HS a c e Ha Hc). destruct (e <? s)%Z; [exact HS|]. now rewrite AE.
  - exists i0, j0. rewrite AE by assumption. auto.
  - intros P0 a c e Ha Hc. rewrite AE by assumption. now apply RG.
Qed.

Lemma PropsLists_ext {A B} (f g : A -> res B) l : (forall x, In x l -> f x = g x) -> mapM f l = mapM g l.
Proof. induction l as [|x l IH]; intros H; [reflexivity|]. cbn [mapM]. rewrite (H x (or_introl eq_refl)), IH; [reflexivity|]. intros; apply H; now right. Qed.
Section L.
Variables (n r : nat) (p : Z) (S : jsum) (R : rep) (tb : nat -> res (nftable (list nat))) (d : nat).
Hypothesis (ES : jones_summand n r p = Ok S) (EJ : jones_rep n r p = Ok R) (Hr : 1 <= r) (Ht : gnf_table n tb) (Hp1 : p <> 1%Z) (ED : rep_dimension R = Ok (Z.of_nat d)).
Hypothesis BN : p <> 0%Z -> (Z.of_nat d * (Z.of_nat (n * (n - 1) + 1) * ((p - 1) * (p - 1))) < 2 ^ 31)%Z.
(** for p = 0: the coefficients of the evaluations of b and its prefixes fit in int64 *)
Definition small (b : nfobj) : Prop := p = 0%Z -> n <= 9 /\ forall q X, q <= length (o_factors b) -> rep_evaluate_nf tb R (NFObj n (o_pow b) (firstn q (o_factors b))) = Ok X -> int64_matrix X.
Lemma eval_list c len : c <> [] -> (forall b, In b c -> nf_value tb n b /\ length (o_factors b) = len /\ small b) -> exists im, js_evaluate_same_length tb S c = Ok im /\ image_list p R tb d c im.
Proof using All.
  intros NE HV. destruct (C61_summand n r p S R tb c d len ES EJ Hr Ht Hp1 ED NE) as (P & EP & W & I1 & I2 & I3 & _ & KP); auto.
  - intros b Hb. destruct (HV b Hb) as (V & L & _). auto.
  - intros P0. split; [destruct c as [|b0 c']; [contradiction|]; exact (proj1 (proj2 (proj2 (HV b0 (or_introl eq_refl))) P0))|]. intros b q X Hb Hq. destruct (HV b Hb) as (_ & L & SM). apply (SM P0). lia.
  - exists P. split; [exact EP|]. split; [exact W|]. auto.
Qed.
(** C109 *)
Theorem C109_below len : (0 <= len)%Z -> (forall b, nf_value tb n b -> o_pow b = 0%Z -> length (o_factors b) = Z.to_nat len -> small b) ->
  exists all keep bs im, NoDup all /\ (forall b, In b all <-> nf_value tb n b /\ o_pow b = 0%Z /\ length (o_factors b) = Z.to_nat len) /\
    all_of_garside_length tb n len 0 = Ok all /\ all_of_length_below_1 tb S len = Ok (bs, im) /\
    Forall2 (fun b k => exists X, rep_evaluate_nf tb R b = Ok X /\ (k = true <-> below p d len X)) all keep /\ bs = flagged all keep /\
    (bs <> [] -> image_list p R tb d bs im) /\ (bs = [] -> im = no_images).
Proof using All.
  intros HL HS. destruct (jones_rep_ok n r p R EJ) as (Hn & Hrn & _). assert (n2 : 2 <= n) by lia.
  destruct (C51_all_of_length_partial n tb len 0 n2 Ht HL) as (all & EA & ND & HA & EG & _). exists all. unfold all_of_length_below_1.
  assert (ESn : js_n S = n) by (unfold jones_summand in ES; destruct (assert_ (1 <=? n)); [|discriminate]; cbn [bind] in ES; destruct (assert_ (2 * r <=? n)); [|discriminate]; cbn [bind] in ES; destruct (assert_ (0 <=? p)%Z); [|discriminate]; cbn [bind] in ES; injection ES as <-; reflexivity).
  rewrite ESn, EG, EA. cbn [bind]. destruct (proj2 (C75_batched all 1000) ltac:(lia)) as (cs & EC & CC & CN & _). rewrite EC. cbn [bind]. set (f := fun '(bs, ims) braids => _).
  assert (RUN : forall cs ac, (forall c, In c cs -> c <> []) -> (forall b, In b (concat cs) -> In b all) -> Forall (fun q => image_list p R tb d (fst q) (snd q) /\ fst q <> []) ac ->
    exists keep ac', Forall2 (fun b k => exists X, rep_evaluate_nf tb R b = Ok X /\ (k = true <-> below p d len X)) (concat cs) keep /\
      foldM f cs (concat (map fst ac), map snd ac) = Ok (concat (map fst (ac ++ ac')), map snd (ac ++ ac')) /\ concat (map fst ac') = flagged (concat cs) keep /\ Forall (fun q => image_list p R tb d (fst q) (snd q) /\ fst q <> []) ac').
  { clear EC CC CN cs. induction cs as [|c cs IH]; intros ac HN HI FA; [exists [], []; rewrite app_nil_r; repeat split; constructor|]. cbn [concat] in HI. cbn [foldM].
    assert (HV : forall b, In b c -> nf_value tb n b /\ length (o_factors b) = Z.to_nat len /\ small b). { intros b Hb. destruct (proj1 (HA b)) as (V & P0 & L); [apply HI, in_app_iff; now left|]. auto. }
    destruct (eval_list c (Z.to_nat len) (HN c (or_introl eq_refl)) HV) as (im & EI & IM).
    assert (GP : exists gaps, rhogap im = Ok gaps /\ length gaps = length c /\ Forall2 (fun b k => exists X, rep_evaluate_nf tb R b = Ok X /\ (k = true <-> below p d len X)) c (map (fun x => ratio_below_1 x len) gaps)).
    { pose proof (HN c (or_introl eq_refl)) as NC. destruct c as [|b0 c'] eqn:Ec; [contradiction|]. rewrite <- Ec in *. assert (Q0 : nth_error c 0 = Some b0) by (rewrite Ec; reflexivity). pose proof IM as (_ & _ & _ & _ & K). destruct (K 0 b0 Q0) as ((X0 & EX0 & _) & _).
      destruct (gap_below p R tb d c im len 0 b0 X0 HL IM Q0 EX0) as (gaps & x0 & EGp & LG & _). exists gaps. split; [exact EGp|]. split; [exact LG|].
      assert (FF : forall (P : nfobj -> bool -> Prop) (l : list nfobj) ks, length l = length ks -> (forall q b k, nth_error l q = Some b -> nth_error ks q = Some k -> P b k) -> Forall2 P l ks).
      { intros P l. induction l as [|y l IHl]; intros [|z ks] Q HP; try discriminate; constructor; [exact (HP 0 y z eq_refl eq_refl)|]. apply IHl; [cbn in Q; lia|]. intros q; exact (HP (Datatypes.S q)). }
      apply FF; [now rewrite map_length|]. intros q b k Hb Hk. destruct (K q b Hb) as ((X & EX & _) & _). destruct (gap_below p R tb d c im len q b X HL IM Hb EX) as (gaps' & x & EG' & _ & Nx & HX). rewrite EGp in EG'. injection EG' as <-.
      rewrite nth_error_map, Nx in Hk. injection Hk as <-. exists X. auto. }
    destruct GP as (gaps & EGp & LG & FG). set (keep := map (fun x => ratio_below_1 x len) gaps) in *. assert (LK : length keep = length c) by (unfold keep; now rewrite map_length).
    set (is := filter (fun i => match nth_error gaps i with Some x => ratio_below_1 x len | None => false end) (seq 0 (length gaps))).
    assert (EIS : is = filter (fun i => nth (i - 0) keep false) (seq 0 (length c))).
    { unfold is. rewrite LG. apply filter_ext_in. intros i Hi. apply in_seq in Hi. rewrite Nat.sub_0_r. unfold keep. destruct (nth_error gaps i) as [x|] eqn:Ex; [|apply nth_error_None in Ex; lia]. symmetry. apply nth_error_nth. rewrite nth_error_map, Ex. reflexivity. }
    assert (LI : length (ablocks im) = length c) by (destruct IM as ((W & _) & P & _); rewrite W, P; cbn; lia).
    assert (G1 : mapM (get c) is = Ok (flagged c keep)) by (rewrite EIS; apply (flagged_get c [] keep c); auto).
    assert (G2 : mapM (get (ablocks im)) is = Ok (flagged (ablocks im) keep)) by (rewrite EIS, <- LI; apply (flagged_get (ablocks im) [] keep (ablocks im)); auto; congruence).
    assert (LIS : length is = length (flagged c keep)) by (apply mapM_Ok_Forall2 in G1; clear - G1; induction G1; cbn; congruence).
    assert (ST : f (concat (map fst ac), map snd ac) c = Ok (if 0 <? length is then (concat (map fst ac) ++ flagged c keep, map snd ac ++ [mkA [length (flagged c keep)] (aI im) (aJ im) (aD im) (adt im) (flagged (ablocks im) keep)]) else (concat (map fst ac), map snd ac))).
    { unfold f. rewrite EI. cbn [bind]. rewrite EGp. cbn [bind]. fold is. destruct (0 <? length is); [|reflexivity]. rewrite G1. cbn [bind]. unfold arr_take. rewrite G2. cbn [bind]. now rewrite LIS. }
    rewrite ST. cbn [bind]. pose proof (take_images p R tb d c im keep IM LK) as TI. set (C := mkA [length (flagged c keep)] (aI im) (aJ im) (aD im) (adt im) (flagged (ablocks im) keep)) in *.
    destruct (Nat.ltb_spec 0 (length is)) as [Pos|Zero].
    - assert (NF : flagged c keep <> []) by (intros Q; rewrite Q in LIS; cbn in LIS; lia).
      destruct (IH (ac ++ [(flagged c keep, C)])) as (ks & ac' & F1 & F2 & F3 & F4); [intros; apply HN; now right|intros; apply HI, in_app_iff; now right|apply Forall_app; split; [exact FA|constructor; [auto|constructor]]|].
      exists (keep ++ ks), ((flagged c keep, C) :: ac'). split; [apply Forall2_app; assumption|]. split; [|split].
      + rewrite !map_app, concat_app in F2. cbn [map concat fst snd] in F2. rewrite app_nil_r in F2. rewrite F2, !map_app, <- !app_assoc. reflexivity.
      + cbn [map concat fst]. rewrite F3. symmetry. apply flagged_app. congruence.
      + constructor; auto.
    - assert (NF : flagged c keep = []) by (destruct (flagged c keep); [reflexivity|cbn in LIS; lia]).
      destruct (IH ac) as (ks & ac' & F1 & F2 & F3 & F4); [intros; apply HN; now right|intros; apply HI, in_app_iff; now right|exact FA|]. exists (keep ++ ks), ac'. split; [apply Forall2_app; assumption|]. split; [exact F2|]. split; [|exact F4]. cbn [concat]. rewrite flagged_app by congruence. rewrite NF. exact F3. }
  destruct (RUN cs []) as (keep & ac & F1 & F2 & F3 & F4); [intros c Hc; apply (CN c Hc)|intros b Hb; now rewrite CC in Hb|constructor|]. rewrite CC in F1, F3. cbn [map concat app] in F2. rewrite F2. cbn [bind].
  exists keep, (flagged all keep). rewrite <- F3. destruct ac as [|q ac].
  - exists no_images. cbn [map concat]. repeat (split; [first [assumption|reflexivity|exact EA]|]). split; [intros []; reflexivity|reflexivity].
  - destruct (concat_images p R tb d (q :: ac)) as (P & EP & IP); [discriminate|eapply Forall_impl; [|exact F4]; intros a [Q _]; exact Q|]. exists P. rewrite EP. cbn [bind].
    split; [exact ND|]. split; [exact HA|]. split; [reflexivity|]. split; [reflexivity|]. split; [exact F1|]. split; [reflexivity|]. split; [intros _; exact IP|]. intros Q. exfalso. inversion F4 as [|? ? [_ Q1] _]; subst. cbn [map concat] in Q. apply app_eq_nil in Q. destruct Q. contradiction.
Qed.
(** C110: the braids are drawn among all those of the length, in any combination *)
Lemma sampled draw len : 3 <= n -> exists b, nf_sample tb draw n len = Ok b /\ nf_value tb n b /\ o_pow b = 0%Z /\ length (o_factors b) = len.
Proof using All.
  intros n3. assert (n2 : 2 <= n) by lia. pose proof (gnf_table_ptab n tb Ht) as Etb. pose proof (proj2 (proj2 (C49_sample n tb _ len n2 Ht Etb)) n3 draw) as [f Ef].
  destruct (g_sample _ _ _ _ _ _ _ _ _ (ptab_ok n n2) tb Etb len) as [GS _]. unfold nf_sample. rewrite Etb. cbn [bind]. rewrite Ef. cbn [bind].
  destruct (C49_sample n tb _ len n2 Ht Etb) as [C1 _]. destruct (C1 draw f Ef) as (xs & E1 & L & N). destruct (mk tb n 0 f) as [b|] eqn:Em.
  - exists b. split; [reflexivity|]. apply (GS draw). unfold nf_sample. rewrite Etb. cbn [bind]. rewrite Ef. exact Em.
  - exfalso. pose proof (perm_proper n xs (proj1 N)) as Pp. rewrite (index_perms n n2 xs Pp) in E1. injection E1 as <-. rewrite <- (val_surj n xs Pp) in N. rewrite (mkE n tb n2 Ht 0 (map (PermGerm.mkT n) xs)) in Em; [discriminate|]. now apply (ok_normal n n2 0).
Qed.
Theorem C110_sample draw len count : 3 <= n -> 1 <= count -> (forall b, nf_value tb n b -> o_pow b = 0%Z -> length (o_factors b) = len -> small b) ->
  exists bs im, sample_braids_images tb draw S len count = Ok (bs, im) /\ length bs = count /\ image_list p R tb d bs im /\
    (forall b, In b bs -> nf_value tb n b /\ o_pow b = 0%Z /\ length (o_factors b) = len).
Proof using All.
  intros n3 Hc HS. assert (ESn : js_n S = n) by (unfold jones_summand in ES; destruct (assert_ (1 <=? n)); [|discriminate]; cbn [bind] in ES; destruct (assert_ (2 * r <=? n)); [|discriminate]; cbn [bind] in ES; destruct (assert_ (0 <=? p)%Z); [|discriminate]; cbn [bind] in ES; injection ES as <-; reflexivity).
  unfold sample_braids_images. rewrite ESn.
  assert (M : forall ks, exists bs, mapM (fun k => nf_sample tb (draw k) n len) ks = Ok bs /\ length bs = length ks /\ forall b, In b bs -> nf_value tb n b /\ o_pow b = 0%Z /\ length (o_factors b) = len).
  { induction ks as [|k ks (bs & E & L & H)]; [exists []; split; [reflexivity|]; split; [reflexivity|]; intros b []|]. destruct (sampled (draw k) len n3) as (b & Eb & Hb). exists (b :: bs). cbn [mapM]. rewrite Eb. cbn [bind]. rewrite E. split; [reflexivity|]. split; [cbn; congruence|]. intros c [<-|Hin]; auto. }
  destruct (M (seq 0 count)) as (bs & E & L & H). rewrite E. cbn [bind]. rewrite seq_length in L. destruct (eval_list bs len) as (im & EI & IM).
  - intros Q. rewrite Q in L. cbn in L. lia.
  - intros b Hb. destruct (H b Hb) as (V & P0 & Lb). auto.
  - exists bs, im. rewrite EI. auto.
Qed.
Theorem C110_every len bs : bs <> [] -> (forall b, In b bs -> nf_value tb n b /\ o_pow b = 0%Z /\ length (o_factors b) = len /\ small b) ->
  exists draw im, sample_braids_images tb draw S len (length bs) = Ok (bs, im) /\ image_list p R tb d bs im.
Proof using All.
  intros NE H. destruct (jones_rep_ok n r p R EJ) as (Hn & Hrn & _). assert (n2 : 2 <= n) by lia. assert (ESn : js_n S = n) by (unfold jones_summand in ES; destruct (assert_ (1 <=? n)); [|discriminate]; cbn [bind] in ES; destruct (assert_ (2 * r <=? n)); [|discriminate]; cbn [bind] in ES; destruct (assert_ (0 <=? p)%Z); [|discriminate]; cbn [bind] in ES; injection ES as <-; reflexivity).
  destruct (g_sample _ _ _ _ _ _ _ _ _ (ptab_ok n n2) tb (gnf_table_ptab n tb Ht) len) as [_ GC].
  assert (M : forall bs k0, (forall b, In b bs -> nf_value tb n b /\ o_pow b = 0%Z /\ length (o_factors b) = len) -> exists draw, mapM (fun k => nf_sample tb (draw k) n len) (seq k0 (length bs)) = Ok bs).
  { clear NE H bs. induction bs as [|b bs IH]; intros k0 H; [exists (fun _ _ => 0); reflexivity|]. destruct (IH (1 + k0)) as [dr Edr]; [intros; apply H; now right|]. destruct (H b (or_introl eq_refl)) as (V & P0 & L). destruct (GC b V P0 L) as [db Edb].
    exists (fun k => if k =? k0 then db else dr k). cbn [length seq mapM]. rewrite Nat.eqb_refl, Edb. cbn [bind]. rewrite (PropsLists_ext (fun k => nf_sample tb (if k =? k0 then db else dr k) n len) (fun k => nf_sample tb (dr k) n len)); [change (Datatypes.S k0) with (1 + k0); rewrite Edr; reflexivity|]. intros k Hk. apply in_seq in Hk. replace (k =? k0) with false; [reflexivity|]. symmetry. apply Nat.eqb_neq. lia. }
  destruct (M bs 0) as [draw Ed]; [intros b Hb; destruct (H b Hb) as (? & ? & ? & _); auto|]. destruct (eval_list bs len NE) as (im & EI & IM); [intros b Hb; destruct (H b Hb) as (? & ? & ? & ?); auto|].
  exists draw, im. unfold sample_braids_images. rewrite ESn, Ed. cbn [bind]. rewrite EI. auto.
Qed.
Theorem C110_upto draw from upto count : 3 <= n -> 1 <= count -> (forall b, nf_value tb n b -> o_pow b = 0%Z -> from <= length (o_factors b) <= upto -> small b) ->
  exists bs im, sample_braids_images_upto_length tb draw S from upto count = Ok (bs, im) /\ length bs = count * (upto + 1 - from) /\
    (from <= upto -> image_list p R tb d bs im) /\ (upto < from -> im = no_images) /\
    (forall j i, j < upto + 1 - from -> i < count -> exists b, nth_error bs (j * count + i) = Some b /\ nf_value tb n b /\ o_pow b = 0%Z /\ length (o_factors b) = from + j).
Proof using All.
  intros n3 Hc HS. unfold sample_braids_images_upto_length. set (q := upto + 1 - from).
  assert (M : forall q from, (forall b, nf_value tb n b -> o_pow b = 0%Z -> from <= length (o_factors b) < from + q -> small b) ->
    exists pairs, mapM (fun len => sample_braids_images tb (draw len) S len count) (seq from q) = Ok pairs /\ length pairs = q /\ Forall (fun q => image_list p R tb d (fst q) (snd q)) pairs /\ length (concat (map fst pairs)) = count * q /\
      (forall j i, j < q -> i < count -> exists b, nth_error (concat (map fst pairs)) (j * count + i) = Some b /\ nf_value tb n b /\ o_pow b = 0%Z /\ length (o_factors b) = from + j)).
  { clear q HS from upto. induction q as [|q IH]; intros from HS; [exists []; repeat split; [constructor|cbn; lia|intros; lia]|]. destruct (IH (1 + from)) as (ps & E & L & F & LC & K); [intros b V P0 HL; apply HS; auto; lia|].
    destruct (C110_sample (draw from) from count n3 Hc) as (bs & im & Eb & Lb & IM & H); [intros b V P0 HL; apply HS; auto; lia|]. exists ((bs, im) :: ps). cbn [seq mapM]. rewrite Eb. cbn [bind]. change (Datatypes.S from) with (1 + from). rewrite E. split; [reflexivity|]. split; [cbn; congruence|]. split; [constructor; auto|]. cbn [map concat fst]. split; [rewrite app_length, Lb, LC; lia|].
    intros [|j] i Hj Hi.
    - cbn [Nat.mul Nat.add]. destruct (nth_error bs i) as [b|] eqn:Ei; [|apply nth_error_None in Ei; lia]. exists b. rewrite nth_error_app1 by (rewrite Lb; exact Hi). rewrite Nat.add_0_r. split; [exact Ei|]. apply H. eapply nth_error_In; exact Ei.
    - destruct (K j i ltac:(lia) Hi) as (b & Hb & V & P0 & L0). exists b. rewrite nth_error_app2 by (rewrite Lb; lia). rewrite Lb. replace (Datatypes.S j * count + i - count) with (j * count + i) by lia. repeat split; auto; try apply V. lia. }
  destruct (M q from) as (ps & E & L & F & LC & K); [intros b V P0 HL; apply HS; auto; unfold q in HL; lia|]. rewrite E. cbn [bind]. destruct (Nat.lt_ge_cases upto from) as [Lt|Ge].
  - assert (q = 0) as Q by (unfold q; lia). destruct ps as [|]; [|cbn in L; lia]. exists [], no_images. cbn [map concat]. split; [reflexivity|]. split; [cbn in LC |- *; lia|]. split; [lia|]. split; [reflexivity|]. intros j i Hj. lia.
  - destruct (concat_images p R tb d ps) as (P & EP & IP); [intros Q; rewrite Q in L; cbn in L; unfold q in L; lia|exact F|]. exists (concat (map fst ps)), P. rewrite EP. cbn [bind]. split; [reflexivity|]. split; [exact LC|]. split; [auto|]. split; [lia|]. exact K.
Qed.
End L.
(** no braids: the evaluation looks at the first one *)
Theorem C110_none tb draw S len : sample_braids_images tb draw S len 0 = Err IndexError.
Proof. reflexivity. Qed.
(** the hypotheses are met: n = 4, r = 2, p = 2, where four of the 22 braids of length 1
    (s1 s2 s3 and its variants) are below 1 *)
Example C109_case : exists R im, jones_summand 4 2 2 = Ok (mkJS 4 2 2) /\ jones_rep 4 2 2 = Ok R /\ gnf_table 4 (gtb hdpick) /\ rep_dimension R = Ok (Z.of_nat 2) /\ (Z.of_nat 2 * (Z.of_nat (4 * (4 - 1) + 1) * ((2 - 1) * (2 - 1))) < 2 ^ 31)%Z /\
  (forall b, small 4 2 R (gtb hdpick) b) /\ all_of_length_below_1 (gtb hdpick) (mkJS 4 2 2) 1 = Ok (map (fun x => NFObj 4 0 [x]) [5; 9; 14; 18]%Z, im) /\ apre im = [4].
Proof.
  destruct (jones_rep 4 2 2) as [R|] eqn:EJ; [|discriminate]. assert (ED : rep_dimension R = Ok 2%Z) by (destruct (jones_rep_ok _ _ _ _ EJ) as (_ & _ & _ & ->); reflexivity).
  exists R. eexists. split; [reflexivity|]. split; [reflexivity|]. split; [exact gnf_table_ex|]. split; [exact ED|]. split; [reflexivity|]. split; [intros b Q; discriminate|]. split; [vm_compute; reflexivity|reflexivity].
Qed.
(** n = 3, p = 2: two braids of length 1 and two of length 2 *)
Example C110_case : exists R bs im, jones_summand 3 1 2 = Ok (mkJS 3 1 2) /\ jones_rep 3 1 2 = Ok R /\ gnf_table 3 (gtb hdpick) /\ rep_dimension R = Ok (Z.of_nat 2) /\ (Z.of_nat 2 * (Z.of_nat (3 * (3 - 1) + 1) * ((2 - 1) * (2 - 1))) < 2 ^ 31)%Z /\
  (forall b, small 3 2 R (gtb hdpick) b) /\ sample_braids_images_upto_length (gtb hdpick) (fun l k j => l + k + j) (mkJS 3 1 2) 1 2 2 = Ok (bs, im) /\ map o_factors bs = [[2]; [3]; [3; 4]; [4; 2]]%Z /\ image_list 2 R (gtb hdpick) 2 bs im.
Proof.
  destruct (jones_rep 3 1 2) as [R|] eqn:EJ; [|discriminate]. assert (ED : rep_dimension R = Ok 2%Z) by (destruct (jones_rep_ok _ _ _ _ EJ) as (_ & _ & _ & ->); reflexivity).
  assert (L7 : 3 < 7) by lia. pose proof (gtb_is_table hdpick 3 hdpick_ok L7) as GT.
  assert (SM : forall b, small 3 2 R (gtb hdpick) b) by (intros b Q; discriminate).
  destruct (C110_upto 3 1 2 (mkJS 3 1 2) R (gtb hdpick) 2 eq_refl EJ ltac:(lia) GT ltac:(lia) ED ltac:(intros _; reflexivity) (fun l k j => l + k + j) 1 2 2 ltac:(lia) ltac:(lia) (fun b _ _ _ => SM b)) as (bs & im & E & _ & IM & _).
  exists R, bs, im. split; [reflexivity|]. split; [reflexivity|]. split; [exact GT|]. split; [exact ED|]. split; [reflexivity|]. split; [exact SM|]. split; [exact E|]. split; [|apply IM; lia].
  assert (Q : exists im', sample_braids_images_upto_length (gtb hdpick) (fun l k j => l + k + j) (mkJS 3 1 2) 1 2 2 = Ok (map (NFObj 3 0) [[2]; [3]; [3; 4]; [4; 2]]%Z, im')) by (eexists; vm_compute; reflexivity). destruct Q as [im' Q]. rewrite E in Q. injection Q as -> _. reflexivity.
Qed.
