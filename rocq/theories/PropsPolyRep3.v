(** PropsPolyRep3.v – C61 for dual Garside normal forms. *)
From Verif Require Import Base ModelPoly SpecPoly PolyTheory PropsPoly ModelMatrix SpecMatrix MatrixTheory NumTheory ModelPolymat SpecPolymat PolymatTheory PropsPolymat PropsPolymat2 PropsPolymat3.
From Verif Require Import ModelPerm Germ GermNF GermAct GermBraid PermTheory WeakOrder PermWords SpecBraid BraidTheory FullTwistBraid FullTwist ModelBraid ModelTL ModelTLMor ModelRep SpecRep RepTheory RepCanon PropsRep PropsTwist ModelPolyRep TableTheory NFApi PolyRepTheory PolyRepSpan PropsPolyRep2.
From Verif Require NCGerm NCLift.
From Verif Require Import ModelNPar NParTable PropsNPar PropsDGNF DualTwist.
Local Open Scope nat_scope.

(** the longest word of a factor has at most (n-1)(2n-3) letters *)
Definition dual_width (n : nat) : nat := 2 * ((n - 1) * (2 * n - 3)) + 1.

(** C61 for DGNF braids.  As C61_gnf; since evaluate(delta) ** q is not reduced
    modulo p, the int64 bound is stated in terms of a bound K on its coefficients. *)
Theorem C61_dgnf n r p R tab bs d K : jones_rep n r p = Ok R -> 2 <= n -> npar_tables n tab -> p <> 1%Z -> rep_dimension R = Ok (Z.of_nat d) ->
  bs <> [] -> (forall b, In b bs -> nf_value (dtb tab) n b) -> (forall b b', In b bs -> In b' bs -> length (o_factors b) = length (o_factors b')) ->
  (p <> 0%Z -> (Z.of_nat d * (Z.of_nat (dual_width n) * (K * (p - 1))) < 2 ^ 63 /\ p - 1 <= K < 2 ^ 63)%Z /\
     exists X, rep_evaluate_nf (dtb tab) R (NFObj n 1 []) = Ok X /\
     forall q Y i j k, (0 <= q < Z.of_nat n)%Z -> nmat_pow X q = Ok Y -> i < d -> j < d -> (Z.abs (numcoef (mentry Y i j) k) <= K)%Z) ->
  (p = 0%Z -> forall b X, In b bs ->
     (forall i, i <= length (o_factors b) -> rep_evaluate_nf (dtb tab) R (NFObj n (o_pow b) (firstn i (o_factors b))) = Ok X -> int64_matrix X) /\
     (forall f, In f (o_factors b) -> rep_evaluate_nf (dtb tab) R (NFObj n 0 [f]) = Ok X -> int64_matrix X)) ->
  exists P, polymat_evaluate_braids_of_same_length (dtb tab) R bs = Ok P /\ wfa P /\ apre P = [length bs] /\ aI P = d /\ aJ P = d /\ adt P = I64 /\
    forall k b, nth_error bs k = Some b -> (exists X, rep_evaluate_nf (dtb tab) R b = Ok X /\ is_image p d X P k) /\
      (exists i j, i < d /\ j < d /\ acoef P [k] i j 0 <> 0%Z) /\ (o_factors b <> [] -> p <> 0%Z -> forall i j e, i < d -> j < d -> (0 <= acoef P [k] i j e < p)%Z).
Proof.
  intros EJ n2 Ht Hp1 ED NE HV HL BN BZ. pose proof (dtb_ok n tab n2 Ht) as Etb. pose proof (ntab_ok n n2) as TK.
  destruct (nwd_ok n (NCGerm.nD n)) as [l [_ [Fl [El _]]]]. rewrite NCGerm.nval_D in Fl.
  assert (EvD : rep_evaluate_nf (dtb tab) R (NFObj n 0 [t_D (ntab n)]) = rep_evaluate_nf (dtb tab) R (NFObj n 1 [])).
  { unfold rep_evaluate_nf. f_equal. unfold artin_word. cbn [o_n o_pow o_factors]. rewrite Etb. cbn [bind]. rewrite (tk_DD _ _ _ _ _ _ _ _ _ TK), (tk_word _ _ _ _ _ _ _ _ _ TK). cbn [bind mapM]. rewrite (tk_word _ _ _ _ _ _ _ _ _ TK). cbn [bind]. f_equal. change (Z.abs_nat 1) with 1. change (Z.abs_nat 0) with 0. cbn [repeat concat List.app Z.ltb Z.compare]. now rewrite !app_nil_r. }
  destruct (gen_same_length (ntab n) (NCGerm.NG n) (nrn n) (NCGerm.neqd n) n (nwd n) (NCLift.natom n) (nidx n) (en n) TK (dtb tab) Etb r p R d bs K (dual_width n) EJ ED Hp1 NE) as (P & EP & W1 & W2 & W3 & W4 & W5 & KP & RP); auto.
  - cbn [t_tau_order ntab]. lia.
  - unfold lift. change (D (NCGerm.NG n)) with (NCGerm.nD n). rewrite El. cbn [t_tau_order ntab]. now apply cox_pow.
  - change (D (NCGerm.NG n)) with (NCGerm.nD n). intros Q. rewrite Q in El. cbn in El. pose proof (NCLift.fac_coherent n _ _ _ Fl (fac_cox n n2)) as C.
    assert (L0 : length l = length (down (n - 1))) by (rewrite (NCLift.fac_len n _ _ Fl), (NCLift.fac_len n _ _ (fac_cox n n2)); reflexivity). unfold down in L0. rewrite map_length, rev_length, seq_length in L0.
    destruct l as [|[a b] l]; [cbn in L0; lia|]. inversion Fl as [|w0 a0 b0 l0 _ (L1 & _) _]; subst. cbn [NCLift.lw flat_map fst snd] in El. pose proof (aw_length a b L1) as L2. apply (f_equal (@length _)) in El. rewrite app_length in El. cbn [length] in El. lia.
  - intros x. destruct (nwd_ok n x) as [l' [_ [F' [E' _]]]]. unfold lift. rewrite E'. pose proof (fac_length n _ _ F') as L1. pose proof (fac_count n n2 _ _ F') as L2. unfold dual_width. nia.
  - intros P0. destruct (BN P0) as [B1 (X & EX & BX)]. split; [exact B1|]. intros b X' Y i j k Hb EX' EY. rewrite EvD, EX in EX'. injection EX' as <-. apply (BX (o_pow b mod Z.of_nat n)%Z Y i j k); [apply Z.mod_pos_bound; lia|exact EY].
  - exists P. split; [exact EP|]. split; [exact W1|]. do 4 (split; [assumption|]). intros k b Hk. destruct (KP k b Hk) as [AG [(i & j & Hi & Hj & N) _]]. split; [exact AG|]. split; [exists i, j; auto|].
    intros NF P0 i' j' e Hi' Hj'. apply RP; auto; [left; exists b; split; [eapply nth_error_In; exact Hk|exact NF]|]. apply nth_error_Some. congruence.
Qed.

(** the hypotheses are met: n = 4, r = 2, p = 5, two DGNF braids with one factor and
    powers -5 and 6; every coefficient of evaluate(delta) ** q is at most 100 *)
Definition small_num (K : Z) (x : num) : bool := match x with NI c => (Z.abs c <=? K)%Z | NL l => forallb (fun c => (Z.abs c <=? K)%Z) (lcoeffs l) end.
Lemma small_num_ok K x k : (0 <= K)%Z -> small_num K x = true -> (Z.abs (numcoef x k) <= K)%Z.
Proof.
  intros HK H. destruct x as [c|l]; cbn [small_num numcoef] in *.
  - apply Z.leb_le in H. destruct (k =? 0)%Z; lia.
  - unfold coeff_at. destruct (k <? lval l)%Z; [lia|]. rewrite forallb_forall in H. destruct (nth_in_or_default (Z.to_nat (k - lval l)) (lcoeffs l) 0%Z) as [I| ->]; [apply H in I; now apply Z.leb_le in I|lia].
Qed.
Lemma small_mat_ok K X i j k : (0 <= K)%Z -> forallb (small_num K) (mdata X) = true -> (Z.abs (numcoef (mentry X i j) k) <= K)%Z.
Proof.
  intros HK H. apply small_num_ok; [exact HK|]. rewrite forallb_forall in H. unfold mentry. destruct (nth_in_or_default (mcols X * i + j) (mdata X) (NI 0)) as [I| ->]; [now apply H|]. cbn. apply Z.leb_le. lia.
Qed.
Notation ex_tab := (npar_table (fun _ _ _ l => hd (0, 0) l)).
Example C61_dgnf_case : exists R a b X, jones_rep 4 2 5 = Ok R /\ rep_dimension R = Ok 2%Z /\ npar_tables 4 ex_tab /\
  mk (dtb ex_tab) 4 (-5) [1%Z] = Ok a /\ mk (dtb ex_tab) 4 6 [2%Z] = Ok b /\ length (o_factors a) = 1 /\ length (o_factors b) = 1 /\ nf_value (dtb ex_tab) 4 a /\ nf_value (dtb ex_tab) 4 b /\
  rep_evaluate_nf (dtb ex_tab) R (NFObj 4 1 []) = Ok X /\ (forall q Y i j k, (0 <= q < 4)%Z -> nmat_pow X q = Ok Y -> (Z.abs (numcoef (mentry Y i j) k) <= 100)%Z) /\
  exists P, polymat_evaluate_braids_of_same_length (dtb ex_tab) R [a; b] = Ok P.
Proof.
  destruct (proj1 (proj1 (C58_constructor 4 2 5)) ltac:(lia)) as [R EJ].
  assert (ED : rep_dimension R = Ok 2%Z) by (destruct (jones_rep_ok _ _ _ _ EJ) as (_ & _ & _ & ->); reflexivity).
  assert (M1 : mk (dtb ex_tab) 4 (-5) [1%Z] = Ok (NFObj 4 (-5) [1])%Z) by (vm_compute; reflexivity). assert (M2 : mk (dtb ex_tab) 4 6 [2%Z] = Ok (NFObj 4 6 [2])%Z) by (vm_compute; reflexivity).
  assert (Ht : npar_tables 4 ex_tab). { apply C55_table_domain; [|lia]. intros x y k [|e l] N; [contradiction|now left]. }
  assert (HT : exists t, dtb ex_tab 4 = Ok t /\ t_order t = 14). { destruct (dtb ex_tab 4) as [t|] eqn:E; [|vm_compute in E; discriminate]. exists t. split; [reflexivity|]. vm_compute in E. injection E as <-. reflexivity. }
  destruct HT as [t [Et Ot]].
  assert (V1 : nf_value (dtb ex_tab) 4 (NFObj 4 (-5) [1])%Z) by (exists t, (-5)%Z, [1]%Z; split; [exact Et|]; split; [rewrite Ot; repeat constructor; lia|exact M1]).
  assert (V2 : nf_value (dtb ex_tab) 4 (NFObj 4 6 [2])%Z) by (exists t, 6%Z, [2]%Z; split; [exact Et|]; split; [rewrite Ot; repeat constructor; lia|exact M2]).
  pose proof EJ as EJ'. vm_compute in EJ'. injection EJ' as ER.
  destruct (rep_evaluate_nf (dtb ex_tab) R (NFObj 4 1 [])) as [X|] eqn:EX; [|rewrite <- ER in EX; vm_compute in EX; discriminate].
  assert (BX : forall q Y i j k, (0 <= q < 4)%Z -> nmat_pow X q = Ok Y -> (Z.abs (numcoef (mentry Y i j) k) <= 100)%Z).
  { intros q Y i j k Hq EY. apply small_mat_ok; [lia|]. pose proof EX as EX'. rewrite <- ER in EX'. vm_compute in EX'. injection EX' as EX'. rewrite <- EX' in EY.
    assert (Q : q = 0%Z \/ q = 1%Z \/ q = 2%Z \/ q = 3%Z) by lia. destruct Q as [->|[->|[->| ->]]]; vm_compute in EY; injection EY as <-; vm_compute; reflexivity. }
  exists R, (NFObj 4 (-5) [1])%Z, (NFObj 4 6 [2])%Z, X. do 5 (split; [assumption|]). do 2 (split; [reflexivity|]). do 3 (split; [assumption|]). split; [exact BX|].
  assert (HB : 5%Z <> 0%Z -> (Z.of_nat 2 * (Z.of_nat (dual_width 4) * (100 * (5 - 1))) < 2 ^ 63 /\ 5 - 1 <= 100 < 2 ^ 63)%Z /\
     exists X, rep_evaluate_nf (dtb ex_tab) R (NFObj 4 1 []) = Ok X /\
     forall q Y i j k, (0 <= q < Z.of_nat 4)%Z -> nmat_pow X q = Ok Y -> i < 2 -> j < 2 -> (Z.abs (numcoef (mentry Y i j) k) <= 100)%Z).
  { intros _. split; [unfold dual_width; cbn; lia|]. exists X. split; [exact EX|]. intros q Y i j k Hq EY _ _. now apply (BX q Y i j k). }
  assert (HV : forall b, In b [NFObj 4 (-5) [1]; NFObj 4 6 [2]]%Z -> nf_value (dtb ex_tab) 4 b) by (intros b [<-|[<-|[]]]; assumption).
  assert (HL : forall b b', In b [NFObj 4 (-5) [1]; NFObj 4 6 [2]]%Z -> In b' [NFObj 4 (-5) [1]; NFObj 4 6 [2]]%Z -> length (o_factors b) = length (o_factors b')) by (intros b b' [<-|[<-|[]]] [<-|[<-|[]]]; reflexivity).
  assert (P1 : 5%Z <> 1%Z) by lia. assert (H2 : 2 <= 4) by lia.
  assert (NE : [NFObj 4 (-5) [1]; NFObj 4 6 [2]]%Z <> []) by discriminate.
  assert (HZ : 5%Z = 0%Z -> forall b X, In b [NFObj 4 (-5) [1]; NFObj 4 6 [2]]%Z ->
     (forall i, i <= length (o_factors b) -> rep_evaluate_nf (dtb ex_tab) R (NFObj 4 (o_pow b) (firstn i (o_factors b))) = Ok X -> int64_matrix X) /\
     (forall f, In f (o_factors b) -> rep_evaluate_nf (dtb ex_tab) R (NFObj 4 0 [f]) = Ok X -> int64_matrix X)) by (intros Q; exfalso; lia).
  destruct (C61_dgnf 4 2 5 R ex_tab _ 2 100 EJ H2 Ht P1 ED NE HV HL HB HZ) as (P & EP & _). exists P. exact EP.
Qed.
