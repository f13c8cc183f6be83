(** PropsStable.v – C122: adding strands.  The Burau representations of B_m and of B_n
    have the same kernel on the braids of B_m, and B_m is a subgroup of B_n. *)
From Verif Require Import Base ModelPoly SpecPoly PolyTheory PropsPoly ModelMatrix SpecMatrix MatrixTheory NumTheory PropsPolymat3.
From Coq Require Import Ring Setoid Morphisms.
From Verif Require Import ModelPerm Germ GermNF GermAct GermBraid PermTheory WeakOrder PermWords SpecBraid BraidTheory ModelBraid ModelTL ModelTLMor ModelRep SpecRep RepTheory RepCanon PropsRep TableTheory NFApi SpecPerm PermGerm PermTable PropsGNF PropsGNF2 PolyRepTheory BurauThree PropsBurau BurauWords BurauKernel PropsBurau2 KernelData PropsKernel BurauStable EmbedTheory.
Local Open Scope nat_scope.
#[local] Existing Instance neqp_equiv.
#[local] Existing Instance pmeq_equiv.

Lemma numcoef_bounded x : exists B, forall e, (B < e)%Z -> numcoef x e = 0%Z.
Proof.
  destruct x as [c|[v l]].
  - exists 0%Z. intros e He. cbn. destruct (Z.eqb_spec e 0); [lia|reflexivity].
  - exists (v + Z.of_nat (length l))%Z. intros e He. cbn [numcoef lval lcoeffs]. unfold coeff_at. destruct (Z.ltb_spec e v); [reflexivity|]. apply nth_overflow. lia.
Qed.
Lemma pmeq_coef p d A B : sq d A -> sq d B -> (pmeq p A B <-> forall i j e, i < d -> j < d -> (p | numcoef (mentry A i j) e - numcoef (mentry B i j) e)%Z).
Proof.
  intros (W1 & R1 & C1) (W2 & R2 & C2). split; intros H.
  - apply (meq_ent (NI 0) (neqp p)) in H; auto. destruct H as (_ & _ & H). intros i j e Hi Hj. specialize (H i j ltac:(lia) ltac:(lia)). apply neqp_congr in H. exact (H e).
  - apply (meq_ent (NI 0) (neqp p)); auto. split; [congruence|]. split; [congruence|]. intros i j Hi Hj. apply neqp_congr. intros e. apply H; lia.
Qed.
Section Two.
Variables (m n : nat) (p : Z) (Rm Rn : rep) (gm im : list (mat num)) (Em : mat num) (gn inn : list (mat num)) (En : mat num).
Hypothesis (EJm : jones_rep m 1 p = Ok Rm) (EGm : rep_artin_gens_invs Rm = Ok (gm, im)) (EIm : rep_id Rm = Ok Em).
Hypothesis (EJn : jones_rep n 1 p = Ok Rn) (EGn : rep_artin_gens_invs Rn = Ok (gn, inn)) (EIn : rep_id Rn = Ok En).
Hypothesis Hmn : m <= n.
Lemma stable_words u w : in_range m u -> in_range m w -> (pmeq p (M gm im Em u) (M gm im Em w) <-> pmeq p (M gn inn En u) (M gn inn En w)).
Proof using All.
  intros Hu Hw. pose proof (strands2 m p Rm EJm) as M2.
  destruct (Mfacts m 1 p Rm (m - 1) gm im Em EJm (burau_dim m p Rm EJm) EGm EIm) as (_ & _ & _ & _ & _ & SMm & _). destruct (Mfacts n 1 p Rn (n - 1) gn inn En EJn (burau_dim n p Rn EJn) EGn EIn) as (_ & _ & _ & _ & _ & SMn & _).
  pose proof (cw_nil m p Rm gm im Em EJm EGm EIm) as Nm. pose proof (cw_step m p Rm gm im Em EJm EGm EIm) as Sm. pose proof (cw_nil n p Rn gn inn En EJn EGn EIn) as Nn. pose proof (cw_step n p Rn gn inn En EJn EGn EIn) as Sn.
  set (cm := cw gm im Em) in *. set (cn := cw gn inn En) in *.
  assert (BL : forall v, in_range m v -> forall i j e, i < m - 1 -> j < m - 1 -> (p | cn v i j e - cm v i j e)%Z) by (intros v Hv; exact (block_word p n m cn cm Nn Sn Nm Sm Hmn v Hv)).
  rewrite (pmeq_coef p (m - 1)) by apply SMm. rewrite (pmeq_coef p (n - 1)) by apply SMn. split; intros H.
  - assert (H1 : forall i j e, i < m - 1 -> j < m - 1 -> (p | cn u i j e - cn w i j e)%Z).
    { intros i j e Hi Hj. destruct (BL u Hu i j e Hi Hj) as [x X]. destruct (BL w Hw i j e Hi Hj) as [y Y]. destruct (H i j e Hi Hj) as [z Zz]. fold (cw gm im Em u i j e) in Zz. fold (cw gm im Em w i j e) in Zz. fold cm in Zz. exists (x - y + z)%Z. lia. }
    intros i j e Hi Hj. fold (cw gn inn En u i j e). fold (cw gn inn En w i j e). fold cn. destruct (Nat.eq_dec m n) as [Q|Q]; [apply H1; lia|]. assert (L : m < n) by lia.
    destruct (Nat.lt_ge_cases i (m - 1)) as [Li|Gi].
    + destruct (Nat.lt_ge_cases j (m - 1)) as [Lj|Gj]; [now apply H1|]. destruct (Nat.eq_dec j (m - 1)) as [->|Nj].
      * apply (last_column p n cn Nn Sn m L u w i); auto; [lia|].
        destruct (numcoef_bounded (mentry (M gn inn En u) i (m - 1))) as [B1 K1]. destruct (numcoef_bounded (mentry (M gn inn En w) i (m - 1))) as [B2 K2]. exists (Z.max B1 B2). intros x Hx. split; [apply K1; lia|apply K2; lia].
      * destruct (right_columns p n cn Nn Sn m L u Hu i j e Hi ltac:(lia) Hj) as [x X]. destruct (right_columns p n cn Nn Sn m L w Hw i j e Hi ltac:(lia) Hj) as [y Y]. exists (x - y)%Z. lia.
    + destruct (low_rows p n cn Nn Sn m L u Hu i j e Gi Hi Hj) as [x X]. destruct (low_rows p n cn Nn Sn m L w Hw i j e Gi Hi Hj) as [y Y]. exists (x - y)%Z. lia.
  - intros i j e Hi Hj. destruct (BL u Hu i j e Hi Hj) as [x X]. destruct (BL w Hw i j e Hi Hj) as [y Y]. destruct (H i j e ltac:(lia) ltac:(lia)) as [z Zz]. fold (cw gn inn En u i j e) in Zz. fold (cw gn inn En w i j e) in Zz. fold cn in Zz. fold (cw gm im Em u i j e). fold (cw gm im Em w i j e). fold cm. exists (y - x + z)%Z. lia.
Qed.
End Two.
Lemma eval_M n r p R w : jones_rep n r p = Ok R -> word_ok n w -> exists d gens invs E A, rep_artin_gens_invs R = Ok (gens, invs) /\ rep_id R = Ok E /\ rep_evaluate_artin_word R w = Ok A /\ sq d A /\ pmeq p A (M gens invs E (expand w)).
Proof. intros EJ Hw. destruct (eval_ok n r p R w EJ Hw) as (d & gens & invs & E & A & _ & EG & EI & _ & _ & EA & SA & PA & _). exists d, gens, invs, E, A. auto. Qed.
(** two words of B_m have the same image in the Burau matrices of B_m exactly when they
    have the same image in those of B_n *)
Theorem C122_burau m n p Rm Rn u w : m <= n -> jones_rep m 1 p = Ok Rm -> jones_rep n 1 p = Ok Rn -> word_ok m u -> word_ok m w ->
  exists A B A' B', rep_evaluate_artin_word Rm u = Ok A /\ rep_evaluate_artin_word Rm w = Ok B /\ rep_evaluate_artin_word Rn u = Ok A' /\ rep_evaluate_artin_word Rn w = Ok B' /\ (mat_congr p A B <-> mat_congr p A' B').
Proof.
  intros L EJm EJn Hu Hw. assert (UP : forall v, word_ok m v -> word_ok n v) by (intros v Hv; unfold word_ok in *; eapply Forall_impl; [|exact Hv]; cbn; intros; lia).
  destruct (eval_M m 1 p Rm u EJm Hu) as (d1 & gm & im & Em & A & EGm & EIm & EA & SA & PA). destruct (eval_M m 1 p Rm w EJm Hw) as (d2 & gm' & im' & Em' & B & EGm' & EIm' & EB & SB & PB). rewrite EGm in EGm'. injection EGm' as <- <-. rewrite EIm in EIm'. injection EIm' as <-.
  destruct (eval_M n 1 p Rn u EJn (UP u Hu)) as (d3 & gn & inn & En & A' & EGn & EIn & EA' & SA' & PA'). destruct (eval_M n 1 p Rn w EJn (UP w Hw)) as (d4 & gn' & in' & En' & B' & EGn' & EIn' & EB' & SB' & PB'). rewrite EGn in EGn'. injection EGn' as <- <-. rewrite EIn in EIn'. injection EIn' as <-.
  exists A, B, A', B'. repeat (split; [assumption|]). rewrite <- !pmeq_congr. rewrite PA, PB, PA', PB'. apply (stable_words m n p Rm Rn); auto using word_ok_range.
Qed.

(** ** B_m is a subgroup of B_n *)
Theorem C122_subgroup m n u w : 2 <= m -> m <= n -> in_range m u -> in_range m w -> (braid_eq m u w <-> braid_eq n u w).
Proof. exact (embed m n u w). Qed.
(** so the normal forms of two words are equal in B_m exactly when they are equal in B_n *)
Theorem C122_gnf m n tm tn u w : 2 <= m -> m <= n -> gnf_table m tm -> gnf_table n tn -> word_ok m u -> word_ok m w ->
  exists a b a' b', from_artin_word tm m u = Ok a /\ from_artin_word tm m w = Ok b /\ from_artin_word tn n u = Ok a' /\ from_artin_word tn n w = Ok b' /\ (a = b <-> a' = b').
Proof.
  intros M2 L Hm Hn Hu Hw. assert (n2 : 2 <= n) by lia. assert (UP : forall v, word_ok m v -> word_ok n v) by (intros v Hv; unfold word_ok in *; eapply Forall_impl; [|exact Hv]; cbn; intros; lia).
  pose proof (ptab_ok m M2) as TKm. pose proof (gnf_table_ptab m tm Hm) as Em. pose proof (ptab_ok n n2) as TKn. pose proof (gnf_table_ptab n tn Hn) as En.
  destruct (api_from_word _ _ _ _ _ _ _ _ _ TKm tm Em u Hu) as (a & Ea & Da). destruct (api_from_word _ _ _ _ _ _ _ _ _ TKm tm Em w Hw) as (b & Eb & Db).
  destruct (api_from_word _ _ _ _ _ _ _ _ _ TKn tn En u (UP u Hu)) as (a' & Ea' & Da'). destruct (api_from_word _ _ _ _ _ _ _ _ _ TKn tn En w (UP w Hw)) as (b' & Eb' & Db').
  exists a, b, a', b'. repeat (split; [assumption|]). rewrite (api_eq _ _ _ _ _ _ _ _ _ TKm tm Em a b _ _ Da Db), (api_eq _ _ _ _ _ _ _ _ _ TKn tn En a' b' _ _ Da' Db'). apply embed; auto using word_ok_range.
Qed.
(** ** the Burau representations that are not faithful *)
Theorem C122_unfaithful n p R : (6 <= n \/ 4 <= n /\ (p = 2 \/ p = 5)%Z) -> jones_rep n 1 p = Ok R ->
  exists u w A B, word_ok n u /\ word_ok n w /\ ~ braid_eq n (expand u) (expand w) /\ rep_evaluate_artin_word R u = Ok A /\ rep_evaluate_artin_word R w = Ok B /\ mat_congr p A B.
Proof.
  intros HN EJ. assert (HM : exists m, 2 <= m /\ m < 7 /\ m <= n /\ (m = 6 \/ m = 4 /\ (p = 2 \/ p = 5)%Z)) by (destruct HN as [H|[H H']]; [exists 6|exists 4]; repeat split; auto; lia).
  destruct HM as (m & M2 & M7 & L & HM). destruct (jones_rep_ok n 1 p R EJ) as (_ & _ & Hp & _).
  assert (EM : exists Rm, jones_rep m 1 p = Ok Rm). { unfold jones_rep. destruct (Nat.leb_spec 1 m); [|lia]. destruct (Nat.leb_spec (2 * 1) m); [|lia]. destruct (Z.leb_spec 0 p); [|lia]. cbn [assert_ bind]. eauto. }
  destruct EM as [Rm EM]. pose proof (gtb_is_table hdpick m hdpick_ok M7) as Ht. set (tb := gtb hdpick) in *. pose proof (gnf_table_ptab m tb Ht) as Etb. pose proof (ptab_ok m M2) as TK.
  destruct (api_id _ _ _ _ _ _ _ _ _ TK tb Etb) as (e & _ & De). destruct (C116_unfaithful m p tb Rm e HM Ht EM (proj1 De)) as (c & B & C & Vc & NE & EB & EC & K).
  destruct (api_word _ _ _ _ _ _ _ _ _ TK tb Etb e (proj1 De)) as (u & Eu & Hu & _ & Du). destruct (api_word _ _ _ _ _ _ _ _ _ TK tb Etb c Vc) as (w & Ew & Hw & _ & Dw).
  unfold rep_evaluate_nf in EB, EC. rewrite Eu in EB. rewrite Ew in EC. cbn [bind] in EB, EC.
  destruct (C122_burau m n p Rm R u w L EM EJ Hu Hw) as (A1 & B1 & A2 & B2 & EA1 & EB1 & EA2 & EB2 & Q). rewrite EB in EA1. injection EA1 as <-. rewrite EC in EB1. injection EB1 as <-.
  exists u, w, A2, B2. assert (UP : forall v, word_ok m v -> word_ok n v) by (intros v Hv; unfold word_ok in *; eapply Forall_impl; [|exact Hv]; cbn; intros; lia).
  split; [auto|]. split; [auto|]. split; [|split; [exact EA2|split; [exact EB2|now apply Q]]].
  intros BN. apply NE. symmetry. apply (api_eq _ _ _ _ _ _ _ _ _ TK tb Etb e c _ _ Du Dw). apply (embed m n); auto using word_ok_range.
Qed.
(** the hypotheses are met: seven strands, over the integers *)
Example C122_case : exists R, jones_rep 7 1 0 = Ok R /\ exists u w A B, word_ok 7 u /\ word_ok 7 w /\ ~ braid_eq 7 (expand u) (expand w) /\ rep_evaluate_artin_word R u = Ok A /\ rep_evaluate_artin_word R w = Ok B /\ mat_congr 0 A B.
Proof. eexists. split; [reflexivity|]. apply C122_unfaithful; [left; lia|reflexivity]. Qed.
