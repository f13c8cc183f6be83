(** PropsLKB.v – theorems for C62: the Lawrence-Krammer-Bigelow representation. *)
From Verif Require Import Base ModelPoly SpecPoly PolyTheory PolyDiv EvalTheory PropsPoly NumTheory ModelMatrix SpecMatrix MatrixTheory PropsMatrix SpecBraid ModelTL TLCells ModelTLMor PropsTLMor2 JonesTheory ModelRep SpecRep RepTheory RepCanon PropsRep ModelLKB LKBTheory.
From Coq Require Import Ring Setoid Morphisms.
Local Open Scope nat_scope.
Local Notation pr := (MatrixTheory.prod (NI 0) nadd nmul).
Local Notation isid := (MatrixTheory.is_identity (NI 0) (NI 1)).
#[local] Existing Instance pmeq_equiv.

Lemma lkb_rep_ok n p q t R : lkb_rep n p q t = Ok R -> 1 <= n /\ (0 <= p)%Z /\ lis_unit q = true /\ lis_unit t = true /\ R = mkRep n p (Ok (Z.of_nat (comb n 2))) (lkb_gens_invs n q t).
Proof.
  unfold lkb_rep. destruct (Nat.leb_spec 1 n); [|discriminate]. cbn [assert_ bind]. destruct (Z.leb_spec 0 p); [|discriminate]. cbn [assert_ bind].
  destruct (lis_unit q); [|discriminate]. destruct (lis_unit t); [|discriminate]. cbn [assert_ bind]. intros [= <-]. auto.
Qed.
Lemma unit_has_inverse x : is_lpoly x -> lis_unit x = true -> exists y, leq (lmul x y) (lint 1).
Proof.
  intros Hx. unfold lis_unit. destruct x as [v cs]. cbn [lcoeffs]. destruct cs as [|c [|? ?]]; try discriminate. intros Hc.
  assert (Q : (c = 1 \/ c = -1)%Z) by (apply orb_true_iff in Hc; rewrite !Z.eqb_eq in Hc; exact Hc).
  exists (lpoly_make (- v) [c]). rewrite <- (unit_make v c) by lia. rewrite unit_inv by exact Q. reflexivity.
Qed.
(** everything that is needed about the generators *)
Lemma lkb_all n p q t R : is_lpoly q -> is_lpoly t -> lkb_rep n p q t = Ok R -> exists gens invs E,
  let d := comb n 2 in
  rep_n R = n /\ rep_p R = p /\ (0 <= p)%Z /\ rep_dimension R = Ok (Z.of_nat d) /\ rep_artin_gens_invs R = Ok (gens, gens) /\ rep_id R = Ok E /\ isid d E /\
  length gens = n - 1 /\ length invs = n - 1 /\ Forall (sq d) gens /\ Forall lentm gens /\ Forall (sq d) invs /\ Forall lentm invs /\
  (forall i, i + 1 < n -> pmeq 0 (pr (G gens E i) (H invs E i)) E /\ pmeq 0 (pr (H invs E i) (G gens E i)) E) /\
  (forall i j, i + 2 <= j -> j + 1 < n -> pmeq 0 (pr (G gens E i) (G gens E j)) (pr (G gens E j) (G gens E i))) /\
  (forall i, i + 2 < n -> pmeq 0 (pr (pr (G gens E i) (G gens E (i + 1))) (G gens E i)) (pr (pr (G gens E (i + 1)) (G gens E i)) (G gens E (i + 1)))).
Proof.
  intros Lq Lt EJ. destruct (lkb_rep_ok n p q t R EJ) as [Hn [Hp [Uq [Ut ->]]]]. cbn [rep_n rep_p rep_dimension rep_artin_gens_invs].
  destruct (unit_has_inverse q Lq Uq) as [qi Qi], (unit_has_inverse t Lt Ut) as [ti Ti]. apply is_lpoly_canon in Lq, Lt.
  set (d := comb n 2). destruct (nid_ok d) as [E [EE HE]].
  assert (KL : length (lkb_keys n) = d) by apply keys_length.
  set (Q := fun s A => lkb_gen n q t s = Ok A /\ lentm A /\ sq d A /\ rp n A (fun r => op q t s (pdelta r)) /\ exists B, sq d B /\ lentm B /\ pmeq 0 (pr A B) E /\ pmeq 0 (pr B A) E).
  destruct (mapM_Forall2 (lkb_gen n q t) Q (seq 0 (n - 1))) as [gens [EG FG]].
  { intros s Hs. apply in_seq in Hs. destruct (gen_ok n q t Lq Lt s ltac:(lia)) as [A [EA [LA [RA _]]]]. exists A. split; [exact EA|].
    pose proof (proj1 RA) as SA. rewrite KL in SA. split; [exact EA|]. split; [exact LA|]. split; [exact SA|]. split; [exact RA|].
    rewrite <- KL in HE |- *. exact (gen_inverse n q t Lq Lt s E ti qi ltac:(lia) Ti Qi HE A EA). }
  assert (HI : exists invs, Forall2 (fun A B => sq d B /\ lentm B /\ pmeq 0 (pr A B) E /\ pmeq 0 (pr B A) E) gens invs).
  { clear - FG. induction FG as [|s A l l' [_ [_ [_ [_ [B K]]]]] _ [invs IH]]; [exists []; constructor|]. exists (B :: invs). now constructor. }
  destruct HI as [invs FI]. pose proof (Forall2_len _ _ _ FG) as Lg. rewrite seq_length in Lg. pose proof (Forall2_len _ _ _ FI) as Lh.
  assert (NG : forall i, i + 1 < n -> Q i (G gens E i)).
  { intros i Hi. destruct (nth_isc _ _ _ E i FG) as [s [K1 K2]]; [rewrite seq_length; lia|]. rewrite (nth_error_nth' _ 0) in K1 by (rewrite seq_length; lia). rewrite seq_nth in K1 by lia. injection K1 as <-. exact K2. }
  exists gens, invs, E. cbn zeta. fold d. do 4 (split; [first [reflexivity|exact Hp]|]). unfold lkb_gens_invs. rewrite EG. cbn [bind]. split; [reflexivity|].
  split; [exact EE|]. split; [exact HE|]. split; [lia|]. split; [lia|].
  split; [clear - FG; induction FG as [|s A l l' [_ [_ [K _]]] _ IH]; constructor; auto|].
  split; [clear - FG; induction FG as [|s A l l' [_ [K _]] _ IH]; constructor; auto|].
  split; [clear - FI; induction FI as [|s A l l' [K _] _ IH]; constructor; auto|].
  split; [clear - FI; induction FI as [|s A l l' [_ [K _]] _ IH]; constructor; auto|].
  split; [|split].
  - intros i Hi. destruct (nth_isc _ _ _ E i FI) as [A [K1 [_ [_ [K2 K3]]]]]; [lia|]. unfold G, H. rewrite (nth_error_nth _ _ E K1). auto.
  - intros i j Hij Hj. destruct (NG i ltac:(lia)) as [Ei [_ [Si [Ri _]]]], (NG j Hj) as [Ej [_ [Sj [Rj _]]]].
    apply (rp_eq n _ _ _ _ (rp_mul n q t Lq Lt _ _ _ j Ri Hj Ej) (rp_mul n q t Lq Lt _ _ _ i Rj ltac:(lia) Ei)). intros r a b Hab. symmetry. apply op_far; lia.
  - intros i Hi. destruct (NG i ltac:(lia)) as [Ei [_ [Si [Ri _]]]], (NG (i + 1) ltac:(lia)) as [Ej [_ [Sj [Rj _]]]].
    pose proof (rp_mul n q t Lq Lt _ _ _ (i + 1) Ri ltac:(lia) Ej) as R2. pose proof (rp_mul n q t Lq Lt _ _ _ i R2 ltac:(lia) Ei) as R3.
    pose proof (rp_mul n q t Lq Lt _ _ _ i Rj ltac:(lia) Ei) as R4. pose proof (rp_mul n q t Lq Lt _ _ _ (i + 1) R4 ltac:(lia) Ej) as R5.
    apply (rp_eq n _ _ _ _ R3 R5). intros r a b Hab. rewrite Nat.add_1_r. now apply op_braid.
Qed.

(** ** C62 *)
(** which arguments the constructor accepts *)
Theorem C62_constructor n p q t : (exists R, lkb_rep n p q t = Ok R) <-> 1 <= n /\ (0 <= p)%Z /\ (exists c, lcoeffs q = [c] /\ (c = 1 \/ c = -1)%Z) /\ (exists c, lcoeffs t = [c] /\ (c = 1 \/ c = -1)%Z).
Proof.
  assert (U : forall x, lis_unit x = true <-> exists c, lcoeffs x = [c] /\ (c = 1 \/ c = -1)%Z).
  { intros x. unfold lis_unit. destruct (lcoeffs x) as [|c [|? ?]].
    - split; [discriminate|]. intros [c [E _]]. discriminate.
    - rewrite orb_true_iff, !Z.eqb_eq. split; [intros K; exists c; auto|]. intros [c' [[= <-] K]]. exact K.
    - split; [discriminate|]. intros [c' [E _]]. discriminate. }
  rewrite <- !U. split.
  - intros [R E]. apply lkb_rep_ok in E. tauto.
  - intros [Hn [Hp [Uq Ut]]]. unfold lkb_rep. apply Nat.leb_le in Hn. apply Z.leb_le in Hp. rewrite Hn, Hp, Uq, Ut. cbn [assert_ bind]. eauto.
Qed.
(** dimension() is n (n - 1) / 2 and there are n - 1 square generators of that size,
    with canonical LPoly entries *)
Theorem C62_generators n p q t R : is_lpoly q -> is_lpoly t -> lkb_rep n p q t = Ok R -> exists d gens,
  2 * d = n * (n - 1) /\ rep_dimension R = Ok (Z.of_nat d) /\ rep_artin_gens_invs R = Ok (gens, gens) /\ length gens = n - 1 /\ Forall (square d) gens /\ Forall (reduced_matrix 0) gens.
Proof.
  intros Lq Lt EJ. destruct (lkb_all n p q t R Lq Lt EJ) as [gens [invs [E [_ [_ [_ [ED [EG [_ [_ [L1 [_ [S1 [N1 _]]]]]]]]]]]]]]. exists (comb n 2), gens.
  split; [pose proof (comb_step n 1) as E1; pose proof (comb_step n 0) as E0; replace (comb n 0) with 1 in E0 by (destruct n; reflexivity); nia|].
  split; [exact ED|]. split; [exact EG|]. split; [exact L1|]. split.
  - eapply Forall_impl; [|exact S1]. intros A HA. now apply sq_square.
  - eapply Forall_impl; [|exact N1]. intros A HA. eapply Forall_impl; [|exact HA]. apply lent_reduced0.
Qed.
(** the braid relations hold as equalities of Python objects *)
Theorem C62_far_commutation n p q t R gens invs i j g h : is_lpoly q -> is_lpoly t -> lkb_rep n p q t = Ok R -> rep_artin_gens_invs R = Ok (gens, invs) ->
  i + 2 <= j -> nth_error gens i = Some g -> nth_error gens j = Some h ->
  exists x, nmat_mul g h = Ok x /\ nmat_mul h g = Ok x.
Proof.
  intros Lq Lt EJ EG Hij Eg Eh. destruct (lkb_all n p q t R Lq Lt EJ) as [gens' [invs' [E [_ [_ [_ [ED [EG' [_ [_ [L1 [_ [S1 [N1 [_ [_ [_ [HF _]]]]]]]]]]]]]]]]]].
  rewrite EG in EG'. injection EG' as <- _. assert (Hj : j + 1 < n). { assert (j < length gens) by (apply nth_error_Some; congruence). lia. }
  rewrite Forall_forall in S1, N1. pose proof (nth_error_In _ _ Eg) as Ig. pose proof (nth_error_In _ _ Eh) as Ih. pose proof (HF i j Hij Hj) as K.
  unfold G in K. rewrite (nth_error_nth _ _ E Eg), (nth_error_nth _ _ E Eh) in K. exists (pr g h). rewrite (nmul_ok _ g h (S1 _ Ig) (S1 _ Ih)), (nmul_ok _ h g (S1 _ Ih) (S1 _ Ig)).
  split; [reflexivity|]. f_equal. symmetry. apply pmeq_congr in K.
  assert (Hd : 0 < comb n 2). { pose proof (comb_step n 1) as E1. pose proof (comb_step n 0) as E0. replace (comb n 0) with 1 in E0 by (destruct n; reflexivity). nia. }
  assert (RM : forall A, lentm A -> reduced_matrix 0 A) by (intros A HA; eapply Forall_impl; [|exact HA]; apply lent_reduced0).
  apply (reduced_matrix_inj 0); [lia| | |exact K]; apply RM; apply (lentm_pr (comb n 2)); auto.
Qed.
Theorem C62_braid_relation n p q t R gens invs i g h : is_lpoly q -> is_lpoly t -> lkb_rep n p q t = Ok R -> rep_artin_gens_invs R = Ok (gens, invs) ->
  nth_error gens i = Some g -> nth_error gens (i + 1) = Some h ->
  exists gh hg x, nmat_mul g h = Ok gh /\ nmat_mul gh g = Ok x /\ nmat_mul h g = Ok hg /\ nmat_mul hg h = Ok x.
Proof.
  intros Lq Lt EJ EG Eg Eh. destruct (lkb_all n p q t R Lq Lt EJ) as [gens' [invs' [E [_ [_ [_ [ED [EG' [_ [_ [L1 [_ [S1 [N1 [_ [_ [_ [_ HB]]]]]]]]]]]]]]]]]].
  rewrite EG in EG'. injection EG' as <- _. assert (Hj : i + 2 < n). { assert (i + 1 < length gens) by (apply nth_error_Some; congruence). lia. }
  rewrite Forall_forall in S1, N1. pose proof (nth_error_In _ _ Eg) as Ig. pose proof (nth_error_In _ _ Eh) as Ih. pose proof (HB i Hj) as K.
  unfold G in K. rewrite (nth_error_nth _ _ E Eg), (nth_error_nth _ _ E Eh) in K. exists (pr g h), (pr h g), (pr (pr g h) g).
  rewrite (nmul_ok _ g h (S1 _ Ig) (S1 _ Ih)), (nmul_ok _ h g (S1 _ Ih) (S1 _ Ig)), (nmul_ok (comb n 2) (pr g h) g), (nmul_ok (comb n 2) (pr h g) h) by auto using sq_pr.
  do 3 (split; [reflexivity|]). f_equal. symmetry. apply pmeq_congr in K.
  assert (Hd : 0 < comb n 2). { pose proof (comb_step n 1) as E1. pose proof (comb_step n 0) as E0. replace (comb n 0) with 1 in E0 by (destruct n; reflexivity). nia. }
  assert (RM : forall A, lentm A -> reduced_matrix 0 A) by (intros A HA; eapply Forall_impl; [|exact HA]; apply lent_reduced0).
  apply (reduced_matrix_inj 0); [lia| | |exact K]; apply RM; apply (lentm_pr (comb n 2)); auto using sq_pr.
Qed.
(** every generator is invertible over Z[v, 1/v] (though artin_gens_invs does not
    return the inverse, see below) *)
Theorem C62_invertible n p q t R d gens invs g : is_lpoly q -> is_lpoly t -> lkb_rep n p q t = Ok R -> rep_dimension R = Ok (Z.of_nat d) -> rep_artin_gens_invs R = Ok (gens, invs) -> In g gens ->
  exists h gh hg, square d h /\ nmat_mul g h = Ok gh /\ nmat_mul h g = Ok hg /\ is_unit_matrix 0 d gh /\ is_unit_matrix 0 d hg.
Proof.
  intros Lq Lt EJ ED EG Ig. destruct (lkb_all n p q t R Lq Lt EJ) as [gens' [invs' [E [_ [_ [_ [ED' [EG' [_ [HE [L1 [L2 [S1 [N1 [S2 [_ [HI _]]]]]]]]]]]]]]]]].
  rewrite EG in EG'. injection EG' as <- _. rewrite ED in ED'. injection ED' as ED'. apply Nat2Z.inj in ED'. subst d. set (d := comb n 2) in *.
  apply In_nth_error in Ig. destruct Ig as [i Eg]. assert (Hi : i + 1 < n). { assert (i < length gens) by (apply nth_error_Some; congruence). lia. }
  destruct (HI i Hi) as [K1 K2]. unfold G in K1, K2. rewrite (nth_error_nth _ _ E Eg) in K1, K2. set (h := H invs' E i) in *.
  assert (Sh : sq d h) by (apply (H_sq d); auto). assert (Sg : sq d g) by (rewrite Forall_forall in S1; apply S1; eapply nth_error_In; eauto).
  exists h, (pr g h), (pr h g). split; [now apply sq_square|]. rewrite (nmul_ok d g h Sg Sh), (nmul_ok d h g Sh Sg). split; [reflexivity|]. split; [reflexivity|].
  split; apply (unit_of_pmeq 0 d _ E HE); auto using sq_pr.
Qed.
(** positive words that are equal in the braid group evaluate to the same matrix
    modulo p, and a positive word that is not empty to a reduced one *)
Theorem C62_positive_words n p q t R u w : is_lpoly q -> is_lpoly t -> lkb_rep n p q t = Ok R -> word_ok n u -> word_ok n w ->
  Forall (fun l => 0 <= snd l)%Z u -> Forall (fun l => 0 <= snd l)%Z w -> braid_eq n (expand u) (expand w) ->
  exists A B, rep_evaluate_artin_word R u = Ok A /\ rep_evaluate_artin_word R w = Ok B /\ mat_congr p A B.
Proof.
  intros Lq Lt EJ Hu Hw Pu Pw K. destruct (lkb_all n p q t R Lq Lt EJ) as [gens [invs [E [EN [EP [Hp [ED [EG [EI [HE [L1 [L2 [S1 [N1 [S2 [_ [HI [HF HB]]]]]]]]]]]]]]]]]].
  set (d := comb n 2) in *.
  assert (W : forall x, word_ok n x -> exists A, rep_evaluate_artin_word R x = Ok A /\ pmeq p A (M gens gens E (expand x))).
  { intros x Hx. destruct (letters_ok p n d gens gens E HE L1 L1 S1 S1 x Hx) as [ms [Ems [Sms F]]]. destruct (F E [] (isid_sq d E HE) ltac:(reflexivity)) as [A [EA [SA MA]]]. cbn [List.app] in MA.
    exists (if (p =? 0)%Z then A else mat_map (nreduce p) A).
    split; [unfold rep_evaluate_artin_word; rewrite EG; cbn [bind]; rewrite Ems; cbn [bind]; rewrite EI; cbn [bind]; rewrite EA; cbn [bind]; now rewrite EP|].
    destruct (Z.eqb_spec p 0); [exact MA|rewrite map_reduce_pmeq by lia; exact MA]. }
  assert (PM : forall x, Forall (fun l => 0 <= snd l)%Z x -> M gens gens E (expand x) = M gens invs E (expand x)).
  { intros x Px. assert (F : Forall (fun l => snd l = true) (expand x)).
    { unfold expand. induction Px as [|[i e] x He _ IH]; [constructor|]. cbn [flat_map fst snd]. apply Forall_app. split; [|exact IH]. cbn [snd] in He. apply Z.leb_le in He. rewrite He. apply Forall_forall. intros y Hy. apply repeat_spec in Hy. now subst. }
    induction F as [|[i e] l He _ IH]; [reflexivity|]. cbn [snd] in He. subst e. cbn [M fold_right]. unfold M in IH. rewrite IH. reflexivity. }
  destruct (W u Hu) as [A [EA MA]], (W w Hw) as [B [EB MB]]. exists A, B. split; [exact EA|]. split; [exact EB|]. apply pmeq_congr. rewrite MA, MB, (PM u Pu), (PM w Pw).
  assert (LE : forall X Y, pmeq 0 X Y -> pmeq p X Y).
  { intros X Y H0. apply pmeq_congr in H0. apply pmeq_congr. destruct H0 as [H1 [H2 H3]]. split; [exact H1|]. split; [exact H2|]. clear - H3. induction H3 as [|x y l l' Hxy _ IH]; constructor; [|exact IH]. intros k. specialize (Hxy k). destruct Hxy as [z Hz]. exists 0%Z. lia. }
  apply LE. apply (M_braid 0 n d); auto.
Qed.
(** but the second component of artin_gens_invs is not the list of inverses, and a
    word with a negative exponent is not evaluated to its image *)
Theorem C62_inverse_refuted : exists R gens invs g h gh A,
  lkb_rep 4 0 (mkL 7 [1]%Z) (mkL 5 [1]%Z) = Ok R /\ rep_artin_gens_invs R = Ok (gens, invs) /\ nth_error gens 0 = Some g /\ nth_error invs 0 = Some h /\
  nmat_mul g h = Ok gh /\ ~ is_unit_matrix 0 6 gh /\
  braid_eq 4 (expand [(0, 1); (0, -1)]%Z) (expand []) /\ rep_evaluate_artin_word R [(0, 1); (0, -1)]%Z = Ok A /\ ~ is_unit_matrix 0 6 A.
Proof.
  do 7 eexists. split; [reflexivity|]. split; [vm_compute; reflexivity|]. split; [reflexivity|]. split; [reflexivity|]. split; [vm_compute; reflexivity|].
  assert (K : forall D x, mdata D = NL (mkL 38 [1]%Z) :: x -> ~ is_unit_matrix 0 6 D).
  { intros D x ED [_ H0]. specialize (H0 0 0 ltac:(lia) ltac:(lia) 0%Z). cbn [Nat.mul Nat.add Nat.eqb] in H0. rewrite ED in H0. cbn in H0. destruct H0 as [z Hz]. lia. }
  split; [eapply K; reflexivity|]. split; [apply (be_cancel 4 0 true); lia|]. split; [vm_compute; reflexivity|]. eapply K. reflexivity.
Qed.
(** a concrete case *)
Example C62_case : exists R gens, is_lpoly (mkL 7 [1]%Z) /\ is_lpoly (mkL 5 [-1]%Z) /\ lkb_rep 3 0 (mkL 7 [1]%Z) (mkL 5 [-1]%Z) = Ok R /\ rep_artin_gens_invs R = Ok (gens, gens) /\
  nth_error gens 0 = Some (mkM 3 3 (map NL [mkL 19 [-1]; mkL 12 [1;0;0;0;0;0;0;-1]; mkL 0 []; mkL 0 []; mkL 0 []; mkL 0 [1]; mkL 0 []; mkL 7 [1]; mkL 0 [1;0;0;0;0;0;0;-1]]%Z)).
Proof.
  do 2 eexists. split; [exists 7%Z, [1]%Z; reflexivity|]. split; [exists 5%Z, [-1]%Z; reflexivity|]. split; [reflexivity|]. split; vm_compute; reflexivity.
Qed.
