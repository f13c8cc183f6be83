(** PropsDGNF2.v – C97 (delta^n is the full twist), C98 (enumeration of dual normal
    forms), C99 (inf and sup of dual normal forms), and the DGNF parts of C50, C59
    and C85. *)
From Verif Require Import Base ModelPerm ModelBraid ModelTL ModelTLMor ModelRep SpecRep PermTheory SpecPerm SpecBraid BraidTheory
  Germ GermNF GermAct GermBraid TableTheory NFApi NFGeneric PermWords PermGerm PermTable FullTwistBraid FullTwist PropsGNF PropsGNF2 RepTheory PropsRep PropsExtra PropsPolyRep2.
From Verif Require NCGerm NCLift BKL.
From Verif Require Import ModelNPar NParBlocks NParTable PropsNPar PropsDGNF DualTwist.
Local Open Scope nat_scope.
#[local] Existing Instance pmeq_equiv.

(** ** specification *)
(** the band generator a_(s,t) and the dual Garside element delta, as words *)
Definition band (s t : nat) : bword :=
  map (fun i => (i, true)) (rev (seq (s + 1) (t - s - 1))) ++ [(s, true)] ++ map (fun i => (i, false)) (seq (s + 1) (t - s - 1)).
Definition delta_word (n : nat) : bword := map (fun i => (i, true)) (rev (seq 0 (n - 1))).
(** a product of band generators *)
Definition dual_positive (n : nat) (w : bword) : Prop :=
  exists es, Forall (fun e => fst e < snd e /\ snd e < n) es /\ braid_eq n w (flat_map (fun e => band (fst e) (snd e)) es).

Lemma band_aw s t : s < t -> BKL.aw s t = band s t.
Proof.
  intros H. unfold BKL.aw, band. generalize (t - s - 1) as k. clear. induction k as [|k IH]; [reflexivity|].
  cbn [BKL.bk]. rewrite seq_S_end, rev_app_distr, !map_app. cbn [rev map List.app]. replace (s + 1 + k) with (s + S k) by lia. f_equal. rewrite IH. now rewrite <- !app_assoc.
Qed.

Section D.
Variable n : nat.
Variable tab : nptab.
Hypothesis n2 : 2 <= n.
Hypothesis Ht : npar_tables n tab.
Let tb := dtb tab.
Let Etb : tb n = Ok (ntab n) := dtb_ok n tab n2 Ht.
Let TK := ntab_ok n n2.
Notation NG := (NCGerm.NG n).
Notation lift := (TableTheory.lift NG (nwd n)).
Notation dl := (lift (NCGerm.nD n)).

Lemma delta_range : in_range n (delta_word n).
Proof using n2. apply Forall_forall. intros x Hx. apply in_map_iff in Hx. destruct Hx as [i [<- Hi]]. apply in_rev, in_seq in Hi. cbn. lia. Qed.
Lemma delta_lift : braid_eq n (delta_word n) dl.
Proof using n2.
  unfold TableTheory.lift. destruct (nwd_ok n (NCGerm.nD n)) as [l [_ [Fl [-> _]]]]. rewrite NCGerm.nval_D in Fl.
  rewrite (NCLift.fac_coherent n _ _ _ Fl (fac_cox n n2)), lw_down, <- pword_rev. reflexivity.
Qed.
Lemma delta_denotes k : denotes tb n (NFObj n k []) (wpow (delta_word n) k).
Proof using n2 Ht.
  apply (denotes_iff _ _ _ _ _ _ _ _ _ TK tb Etb). exists (k, []). split; [apply GermAct.ok_nil|]. split; [reflexivity|]. unfold word_of. cbn [fst snd liftl flat_map]. rewrite app_nil_r. apply wpow_mor, be_sym, delta_lift.
Qed.
Lemma delta_full_twist : braid_eq n (wpow (delta_word n) (Z.of_nat n)) (FTw n).
Proof using n2.
  rewrite npw_wpow. pose proof (cox_pow n n2 _ (fac_cox n n2)) as K. rewrite npw_wpow, lw_down, <- pword_rev in K. exact K.
Qed.
(** *** C99 *)
Theorem C99_inf_sup b w : denotes tb n b w ->
  (forall k, dual_positive n (wpow (delta_word n) (- k) ++ w) <-> (k <= inf b)%Z) /\
  (forall k, dual_positive n (winv w ++ wpow (delta_word n) k) <-> (sup b <= k)%Z) /\
  (sup b - inf b = Z.of_nat (canonical_length b))%Z.
Proof using n2 Ht.
  intros HD. apply (denotes_iff _ _ _ _ _ _ _ _ _ TK tb Etb) in HD. destruct HD as [[p l] [Ho [-> B]]].
  assert (DP : forall w, dual_positive n w <-> simple_product NG n (nwd n) w).
  { intros v. split.
    - intros [es [F E]]. eapply (simple_mor NG n (nwd n)); [symmetry; exact E|]. clear E. induction F as [|[s t] es [L1 L2] F IH]; [exists []; reflexivity|].
      cbn [flat_map fst snd] in *. apply simple_app; [|exact IH]. eapply (simple_mor NG n (nwd n)); [|apply (simple_lift NG n (nwd n) (NCGerm.nat2 n s t))].
      unfold TableTheory.lift. destruct (nwd_ok n (NCGerm.nat2 n s t)) as [m [_ [Fm [-> _]]]]. rewrite NCGerm.nval_nat2 in Fm by assumption.
      rewrite (NCLift.fac_coherent n _ _ _ Fm (NCLift.fac_one n s t L1 L2)). cbn [NCLift.lw flat_map fst snd]. rewrite app_nil_r, band_aw by exact L1. reflexivity.
    - intros [m E]. assert (K : forall x, exists es, Forall (fun e => fst e < snd e /\ snd e < n) es /\ lift x = flat_map (fun e => band (fst e) (snd e)) es).
      { intros x. unfold TableTheory.lift. destruct (nwd_ok n x) as [es [_ [F [-> _]]]]. exists es. clear -F. induction F as [|w a b l Hw (L & R & _) Hf [IH1 IH2]]; [split; [constructor|reflexivity]|].
        split; [constructor; [cbn; auto|exact IH1]|]. cbn [NCLift.lw flat_map fst snd]. fold (NCLift.lw l). rewrite IH2, band_aw by exact L. reflexivity. }
      assert (K2 : exists es, Forall (fun e => fst e < snd e /\ snd e < n) es /\ flat_map lift m = flat_map (fun e => band (fst e) (snd e)) es).
      { clear E. induction m as [|x m [es [F1 F2]]]; [exists []; split; [constructor|reflexivity]|]. destruct (K x) as [fs [G1 G2]]. exists (fs ++ es). split; [now apply Forall_app|]. cbn [flat_map]. now rewrite flat_map_app, G2, F2. }
      destruct K2 as [es [F1 F2]]. exists es. split; [exact F1|]. now rewrite E, F2. }
  assert (M : forall u v, braid_eq n u v -> (simple_product NG n (nwd n) u <-> simple_product NG n (nwd n) v)).
  { intros u v E. split; apply simple_mor; [exact E|now symmetry]. }
  split; [|split].
  - intros k. rewrite DP. rewrite <- (g_inf _ _ _ _ _ _ _ _ _ TK (p, l) k Ho). apply M.
    apply be_app; [apply wpow_mor, delta_lift|]. now apply be_sym.
  - intros k. rewrite DP. assert (S : sup (TableTheory.enc NG n (nidx n) (p, l)) = sup_of NG (p, l)) by (unfold sup, sup_of; cbn; now rewrite map_length).
    rewrite S, <- (g_sup _ _ _ _ _ _ _ _ _ TK (p, l) k Ho). apply M.
    apply be_app; [apply winv_mor; now apply be_sym|apply wpow_mor, delta_lift].
  - unfold sup, inf, canonical_length. cbn. lia.
Qed.
(** *** C98 *)
Theorem C98_all_of_length len power : (0 <= len)%Z ->
  exists bs, all_of_length tb n len power = Ok bs /\ NoDup bs /\
    (forall b, In b bs <-> nf_value tb n b /\ o_pow b = power /\ length (o_factors b) = Z.to_nat len) /\
    count_all_of_length tb n len = Ok (Z.of_nat (length bs)).
Proof using n2 Ht. apply (g_all_of_length _ _ _ _ _ _ _ _ _ TK tb Etb). Qed.
Theorem C98_sample len :
  (forall draw b, nf_sample tb draw n len = Ok b -> nf_value tb n b /\ o_pow b = 0%Z /\ length (o_factors b) = len) /\
  (forall b, nf_value tb n b -> o_pow b = 0%Z -> length (o_factors b) = len -> exists draw, nf_sample tb draw n len = Ok b).
Proof using n2 Ht. apply (g_sample _ _ _ _ _ _ _ _ _ TK tb Etb). Qed.
Lemma tau_mult k z : taupow NG (k * Z.of_nat n) z = z.
Proof using n2. rewrite (NCLift.ntaupow_mod n) by lia. rewrite Z_mod_mult. reflexivity. Qed.
(** the suffixes of a DGNF braid whose power is a multiple of n are exactly the
    braids that multiply it without cancellation *)
Theorem C50_dgnf_suffixes_partial b k : nf_value tb n b -> (0 <= k)%Z ->
  exists xs, nf_suffixes tb b k = Ok xs /\ NoDup xs /\
    (forall x, In x xs -> nf_value tb n x /\ length (o_factors x) = Z.to_nat k /\ o_pow x = o_pow b /\
      ((Z.of_nat n | o_pow b)%Z -> exists c, nf_mul tb b x = Ok c /\ o_factors c = o_factors b ++ o_factors x /\ o_pow c = (o_pow b + o_pow b)%Z)) /\
    ((Z.of_nat n | o_pow b)%Z -> forall x c, nf_value tb n x -> length (o_factors x) = Z.to_nat k -> o_pow x = o_pow b -> nf_mul tb b x = Ok c -> o_factors c = o_factors b ++ o_factors x -> In x xs).
Proof using n2 Ht.
  intros V Hk. destruct (g_nf_suffixes _ _ _ _ _ _ _ _ _ TK tb Etb b k V Hk) as [xs [E [ND [H1 H2]]]]. exists xs. split; [exact E|]. split; [exact ND|]. split.
  - intros x Hx. destruct (H1 x Hx) as (A & B & C & K). do 3 (split; [assumption|]). intros [q Q]. apply K. intros z. rewrite Q. apply tau_mult.
  - intros [q Q] x c Vx L P Ec Fc. apply (H2 x c); auto. intros z. rewrite Q. apply tau_mult.
Qed.
(** *** C97 *)
Theorem C97_central k b : nf_value tb n b ->
  nf_mul tb (NFObj n (k * Z.of_nat n) []) b = Ok (NFObj n (o_pow b + k * Z.of_nat n) (o_factors b)) /\
  nf_mul tb b (NFObj n (k * Z.of_nat n) []) = Ok (NFObj n (o_pow b + k * Z.of_nat n) (o_factors b)).
Proof using n2 Ht.
  intros V. destruct (gval_enc _ _ _ _ _ _ _ _ _ TK tb Etb b V) as [[d l] [Ho ->]].
  change (NFObj n (k * Z.of_nat n) []) with (TableTheory.enc NG n (nidx n) ((k * Z.of_nat n)%Z, [])).
  rewrite (gmul_ok _ _ _ _ _ _ _ _ _ TK tb Etb ((k * Z.of_nat n)%Z, []) (d, l)), (gmul_ok _ _ _ _ _ _ _ _ _ TK tb Etb (d, l) ((k * Z.of_nat n)%Z, [])).
  - cbn [fst snd List.app TableTheory.enc o_pow o_factors]. rewrite app_nil_r. split; [f_equal; unfold TableTheory.enc; cbn [fst snd]; f_equal; lia|reflexivity].
  - cbn [fst snd]. rewrite <- (map_id l) at 2. apply map_ext. intros z. apply tau_mult.
  - exact Ho.
  - apply GermAct.ok_nil.
  - cbn [fst snd List.app]. rewrite app_nil_r. exact Ho.
  - reflexivity.
  - apply GermAct.ok_nil.
  - exact Ho.
  - exact Ho.
Qed.
(** *** C85: slices *)
Theorem C85_dgnf_substring b i j : nf_value tb n b ->
  (i <= j /\ j <= length (o_factors b) ->
     exists c xs, substring tb b i j = Ok c /\ nf_value tb n c /\
       canonical_decomposition tb b = Ok (o_pow b, xs) /\
       canonical_decomposition tb c = Ok (o_pow b, firstn (j - i) (skipn i xs))) /\
  (~ (i <= j /\ j <= length (o_factors b)) -> substring tb b i j = Err AssertionError).
Proof using n2 Ht.
  intros V. destruct (gval_enc _ _ _ _ _ _ _ _ _ TK tb Etb b V) as [[d l] [Ho ->]].
  assert (CD : forall m, canonical_decomposition tb (TableTheory.enc NG n (nidx n) (d, m)) = Ok (d, map (en n) m)).
  { intros m. unfold canonical_decomposition, canonical_factors. cbn [o_n TableTheory.enc]. rewrite Etb. cbn [bind o_factors snd].
    assert (K : mapM (pyget (t_divs (ntab n))) (map (nidx n) m) = Ok (map (en n) m)).
    { induction m as [|x m IH]; [reflexivity|]. cbn [map mapM]. rewrite (tk_div _ _ _ _ _ _ _ _ _ TK). cbn [bind]. rewrite IH. reflexivity. }
    change (bind (bind (Ok (ntab n)) (fun t => mapM (pyget (t_divs t)) (map (nidx n) m))) (fun fs => Ok (d, fs)) = Ok (d, map (en n) m)).
    cbn [bind]. rewrite K. reflexivity. }
  unfold TableTheory.enc at 1 4. cbn [o_factors fst snd]. rewrite map_length. split.
  - intros [A B].
    assert (Ho' : ok NG (NCGerm.neqd n) (d, firstn (j - i) (skipn i l))).
    { apply (ok_proper _ _ _ _ _ _ _ _ _ TK) in Ho. apply (ok_proper _ _ _ _ _ _ _ _ _ TK). destruct Ho as [N F].
      rewrite (slice_split l i j A) in N, F. rewrite !Forall_app in F. split; [|tauto]. apply nf_app_r in N. now apply nf_app_l in N. }
    exists (TableTheory.enc NG n (nidx n) (d, firstn (j - i) (skipn i l))), (map (en n) l). split; [|split; [|split]].
    + unfold substring. unfold TableTheory.enc at 1 2. cbn [o_factors fst snd o_n o_pow]. rewrite map_length.
      rewrite (proj2 (Nat.leb_le i j) A), (proj2 (Nat.leb_le j (length l)) B). cbn [andb assert_ bind].
      cbn [o_pow o_factors TableTheory.enc fst snd]. rewrite skipn_map, firstn_map. apply (gmkE _ _ _ _ _ _ _ _ _ TK tb Etb). exact Ho'.
    + now apply (genc_val _ _ _ _ _ _ _ _ _ TK tb Etb).
    + apply CD.
    + rewrite CD. cbn [o_pow TableTheory.enc fst]. rewrite <- firstn_map, <- skipn_map. reflexivity.
  - intros N. cbn [o_factors TableTheory.enc snd] in N. try rewrite map_length in N. unfold substring. cbn [o_factors TableTheory.enc snd]. rewrite map_length.
    destruct (Nat.leb_spec i j); [destruct (Nat.leb_spec j (length l)); [tauto|reflexivity]|reflexivity].
Qed.
(** *** C59: representations of DGNF braids *)
Theorem C59_dgnf_word r p R b w : jones_rep n r p = Ok R -> word_ok n w -> from_artin_word tb n w = Ok b ->
  exists A B, rep_evaluate_nf tb R b = Ok A /\ rep_evaluate_artin_word R w = Ok B /\ mat_congr p A B.
Proof using n2 Ht.
  intros EJ Hw Eb. destruct (api_from_word _ _ _ _ _ _ _ _ _ TK tb Etb w Hw) as [b' [Eb' [_ [u [Eu [Hu Q]]]]]]. rewrite Eb in Eb'. injection Eb' as <-.
  unfold rep_evaluate_nf. rewrite Eu. cbn [bind]. now apply (C59_braid_invariant n r p R u w).
Qed.
Theorem C59_dgnf_mul r p R a b : jones_rep n r p = Ok R -> nf_value tb n a -> nf_value tb n b ->
  exists c A B C P, nf_mul tb a b = Ok c /\ rep_evaluate_nf tb R a = Ok A /\ rep_evaluate_nf tb R b = Ok B /\ rep_evaluate_nf tb R c = Ok C /\
    nmat_mul A B = Ok P /\ mat_congr p C P.
Proof using n2 Ht.
  intros EJ Va Vb. destruct (C55_dgnf_mul n tab n2 Ht a b Va Vb) as [c [wa [wb [wc [Ec [Vc [Ea [Eb [Ewc Q]]]]]]]]].
  pose proof (api_word _ _ _ _ _ _ _ _ _ TK tb Etb) as AW.
  destruct (AW a Va) as [? [E1 [Ha _]]]. unfold tb in E1. rewrite Ea in E1. injection E1 as <-. destruct (AW b Vb) as [? [E1 [Hb _]]]. unfold tb in E1. rewrite Eb in E1. injection E1 as <-. destruct (AW c Vc) as [? [E1 [Hc _]]]. unfold tb in E1. rewrite Ewc in E1. injection E1 as <-.
  destruct (C59_concatenation n r p R wa wb EJ Ha Hb) as [A [B [C [P [EA [EB [EC [EP K]]]]]]]].
  assert (Hab : word_ok n (wa ++ wb)) by (apply Forall_app; auto).
  destruct (C59_braid_invariant n r p R wc (wa ++ wb) EJ Hc Hab) as [C' [C'' [EC' [EC'' K']]]]; [unfold expand; rewrite flat_map_app; exact Q|]. rewrite EC in EC''. injection EC'' as <-.
  exists c, A, B, C', P. unfold rep_evaluate_nf, tb. rewrite Ea, Eb, Ewc. cbn [bind]. repeat (split; [assumption|]). apply pmeq_congr in K, K'. apply pmeq_congr. now rewrite K'.
Qed.
End D.

(** converting a braid does not change its image *)
Theorem C59_conversion n r p R tab gt b : jones_rep n r p = Ok R -> 2 <= n -> npar_tables n tab -> gnf_table n gt -> nf_value gt n b ->
  exists c A B, to_DGNF tab gt b = Ok c /\ rep_evaluate_nf gt R b = Ok A /\ rep_evaluate_nf (dtb tab) R c = Ok B /\ mat_congr p A B.
Proof.
  intros EJ n2 Ht Hg V. destruct (C56_to_DGNF n tab gt n2 Ht Hg b V) as (c & u & v & Ec & Vc & Eu & Ev & BE & _).
  destruct (api_word _ _ _ _ _ _ _ _ _ (ptab_ok n n2) gt (gnf_table_ptab n gt Hg) b V) as [u' [E1 [Hu _]]]. rewrite Eu in E1. injection E1 as <-.
  destruct (api_word _ _ _ _ _ _ _ _ _ (ntab_ok n n2) (dtb tab) (dtb_ok n tab n2 Ht) c Vc) as [v' [E1 [Hv _]]]. rewrite Ev in E1. injection E1 as <-.
  destruct (C59_braid_invariant n r p R u v EJ Hu Hv BE) as [A [B [EA [EB K]]]]. exists c, A, B. split; [exact Ec|]. unfold rep_evaluate_nf. rewrite Eu, Ev. cbn [bind]. auto.
Qed.
(** delta^(kn) and Delta^(2k) are the same braid *)
Theorem C97_full_twist n tab gt k : 2 <= n -> npar_tables n tab -> gnf_table n gt ->
  to_GNF tab gt (NFObj n (k * Z.of_nat n) []) = Ok (NFObj n (2 * k) []) /\ to_DGNF tab gt (NFObj n (2 * k) []) = Ok (NFObj n (k * Z.of_nat n) []).
Proof.
  intros n2 Ht Hg. pose proof (delta_denotes n tab n2 Ht (k * Z.of_nat n)) as D1.
  assert (RF : in_range n (FTw n)) by (apply FTw_range; lia).
  assert (E1 : braid_eq n (wpow (delta_word n) (k * Z.of_nat n)) (wpow (FTw n) k)).
  { rewrite Z.mul_comm. rewrite <- (PolyRepTheory.wpow_nest n (delta_word n) (Z.of_nat n) k (delta_range n n2)). apply wpow_mor, delta_full_twist, n2. }
  assert (D2 : denotes gt n (NFObj n (2 * k) []) (wpow (FTw n) k)).
  { apply (denotes_iff _ _ _ _ _ _ _ _ _ (ptab_ok n n2) gt (gnf_table_ptab n gt Hg)). exists ((2 * k)%Z, []). split; [apply GermAct.ok_nil|]. split; [reflexivity|].
    unfold word_of. cbn [fst snd liftl flat_map]. rewrite app_nil_r. rewrite <- (PolyRepTheory.wpow_nest n _ 2 k) by apply (tk_range _ _ _ _ _ _ _ _ _ (ptab_ok n n2)). apply wpow_mor, gnf_delta_sq, n2. }
  split.
  - destruct (to_GNF_ok n tab gt n2 Ht Hg _ _ D1) as [c [Ec Dc]]. rewrite Ec. f_equal. apply (api_eq _ _ _ _ _ _ _ _ _ (ptab_ok n n2) gt (gnf_table_ptab n gt Hg) _ _ _ _ Dc D2). exact E1.
  - destruct (to_DGNF_ok n tab gt n2 Ht Hg _ _ D2) as [c [Ec Dc]]. rewrite Ec. f_equal. apply (api_eq _ _ _ _ _ _ _ _ _ (ntab_ok n n2) (dtb tab) (dtb_ok n tab n2 Ht) _ _ _ _ Dc D1). now symmetry.
Qed.

(** ** concrete cases *)
Notation ex_tab := (npar_table (fun _ _ _ l => hd (0, 0) l)).
Notation ex_gt := (gtb (fun _ _ _ l => hd 0 l)).
Lemma ex_tab_ok n : 2 <= n <= 9 -> npar_tables n ex_tab.
Proof. intros H. apply C55_table_domain; [|exact H]. intros x y k [|e l] N; [contradiction|now left]. Qed.
Lemma ex_gt_ok n : n < 7 -> gnf_table n ex_gt.
Proof. intros H. apply gtb_is_table; [|lia]. intros x y k [|e l] N; [contradiction|now left]. Qed.
(** a value with four factors: the hypotheses of C97-C99, C50, C59 and C85 hold of it *)
Example DGNF_case : let b := NFObj 4 (-1) [11; 8; 8; 1]%Z in
  npar_tables 4 ex_tab /\ gnf_table 4 ex_gt /\ nf_value (dtb ex_tab) 4 b /\ from_artin_word (dtb ex_tab) 4 [(0, 2); (1, -1); (2, 1)]%Z = Ok b /\
  (exists w, denotes (dtb ex_tab) 4 b w) /\ inf b = (-1)%Z /\ sup b = 3%Z /\ canonical_length b = 4 /\ exists R, jones_rep 4 2 5 = Ok R.
Proof.
  cbv zeta. pose proof (ex_tab_ok 4 ltac:(lia)) as Ht. pose proof (ex_gt_ok 4 ltac:(lia)) as Hg.
  assert (Eb : from_artin_word (dtb ex_tab) 4 [(0, 2); (1, -1); (2, 1)]%Z = Ok (NFObj 4 (-1) [11; 8; 8; 1]%Z)) by (vm_compute; reflexivity).
  assert (W : word_ok 4 [(0, 2); (1, -1); (2, 1)]%Z) by (repeat constructor; cbn; lia).
  destruct (api_from_word _ _ _ _ _ _ _ _ _ (ntab_ok 4 ltac:(lia)) (dtb ex_tab) (dtb_ok 4 ex_tab ltac:(lia) Ht) _ W) as [b' [Eb' [Vb _]]].
  rewrite Eb in Eb'. injection Eb' as <-.
  do 4 (split; [assumption|]). split; [destruct (value_denotes _ _ _ _ _ _ _ _ _ (ntab_ok 4 ltac:(lia)) (dtb ex_tab) (dtb_ok 4 ex_tab ltac:(lia) Ht) _ Vb) as [w [Hw _]]; now exists w|].
  do 3 (split; [reflexivity|]). exact (proj1 (proj1 (C58_constructor 4 2 5)) ltac:(lia)).
Qed.
(** delta^4 = Delta^2 in B_4; delta^-8 = Delta^-4 *)
Example C97_case : to_GNF ex_tab ex_gt (NFObj 4 (-8) []) = Ok (NFObj 4 (-4) []).
Proof. exact (proj1 (C97_full_twist 4 ex_tab ex_gt (-2) ltac:(lia) (ex_tab_ok 4 ltac:(lia)) (ex_gt_ok 4 ltac:(lia)))). Qed.
Example C98_case : exists bs, all_of_length (dtb ex_tab) 3 2 (-1) = Ok bs /\ length bs = 6.
Proof. eexists. split; vm_compute; reflexivity. Qed.
(** a suffix of a braid of odd power that cancels: delta [1] times delta [1] is delta^3 *)
Theorem C50_dgnf_nf_suffixes_refuted : exists b xs x c, nf_value (dtb ex_tab) 3 b /\ nf_suffixes (dtb ex_tab) b 1 = Ok xs /\ In x xs /\
  nf_mul (dtb ex_tab) b x = Ok c /\ o_factors c = [] /\ o_factors b ++ o_factors x <> [].
Proof.
  assert (M : mk (dtb ex_tab) 3 1 [1%Z] = Ok (NFObj 3 1 [1%Z])) by (vm_compute; reflexivity).
  assert (HT : exists t, dtb ex_tab 3 = Ok t /\ t_order t = 5). { destruct (dtb ex_tab 3) as [t|] eqn:E; [|vm_compute in E; discriminate]. exists t. split; [reflexivity|]. vm_compute in E. injection E as <-. reflexivity. }
  destruct HT as [t [Et Ot]].
  exists (NFObj 3 1 [1%Z]), [NFObj 3 1 [1%Z]; NFObj 3 1 [4%Z]], (NFObj 3 1 [1%Z]), (NFObj 3 3 []).
  split; [exists t, 1%Z, [1%Z]; split; [exact Et|]; split; [rewrite Ot; repeat constructor; lia|exact M]|].
  split; [vm_compute; reflexivity|]. split; [now left|]. split; [vm_compute; reflexivity|]. split; [reflexivity|]. discriminate.
Qed.
