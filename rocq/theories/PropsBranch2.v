(** PropsBranch2.v – C128: which words of B_m a Jones representation of B_n identifies. *)
From Verif Require Import Base ModelPoly SpecPoly PolyTheory PropsPoly ModelTL SpecTL TLTheory TLCells PropsTL ModelMatrix SpecMatrix MatrixTheory ModelTLMor TLMorTheory JonesTheory MarkovTheory.
From Coq Require Import Permutation Setoid.
From Verif Require Import ModelPerm PermTheory WeakOrder SpecPerm ModelBraid SpecBraid BraidTheory FullTwist ModelRep SpecRep NumTheory RepTheory PropsRep PropsPolymat3 TableTheory EmbedTheory PropsStable StrandRes StrandBlocks PropsBranch PropsThree NFApi Germ GermNF PermGerm PermTable PropsGNF PropsGNF2 PolyRepTheory.
Local Open Scope nat_scope.
#[local] Existing Instance neqp_equiv.

Definition Xeq (p : Z) (n r : nat) (u w : bword) : Prop := forall i j, i < length (Wb n r) -> j < length (Wb n r) -> neqp p (Xe n r u i j) (Xe n r w i j).
Lemma rep_exists n r p : 1 <= n -> 2 * r <= n -> (0 <= p)%Z -> exists R, jones_rep n r p = Ok R.
Proof. intros Hn Hr Hp. unfold jones_rep. destruct (Nat.leb_spec 1 n); [|lia]. destruct (Nat.leb_spec (2 * r) n); [|lia]. destruct (Z.leb_spec 0 p); [|lia]. cbn [assert_ bind]. eauto. Qed.
Lemma word_ok_more m n v : m <= n -> word_ok m v -> word_ok n v.
Proof. intros L Hv. unfold word_ok in *. eapply Forall_impl; [|exact Hv]. cbn. intros. lia. Qed.
Lemma known p m u w : 1 <= m -> (0 <= p)%Z -> in_range m u -> in_range m w -> forall k n r, n = m + k -> 2 * r <= n -> (forall s, 2 * s <= m -> s <= r -> r <= s + k -> Xeq p m s u w) -> Xeq p n r u w.
Proof.
  intros Hm Hp Hu Hw. induction k as [|k IH]; intros n r En Hr H.
  - replace n with m in * by lia. apply H; lia.
  - replace n with ((m + k) + 1) in * by lia. destruct (rep_exists (m + k + 1) r p ltac:(lia) Hr Hp) as [R EJ]. unfold Xeq. apply (step_known (m + k) r p R ltac:(lia) EJ).
    + apply (in_range_more m); auto; lia.
    + apply (in_range_more m); auto; lia.
    + intros H1. apply (IH (m + k) r eq_refl H1). intros s A B C. apply H; lia.
    + intros H1. apply (IH (m + k) (r - 1) eq_refl ltac:(lia)). intros s A B C. apply H; lia.
Qed.
Lemma known_back p m n r s u w : m <= n -> 2 * r <= n -> 2 * s <= m -> s <= r -> r <= s + (n - m) -> in_range m u -> in_range m w -> Xeq p n r u w -> Xeq p m s u w.
Proof.
  intros L Hr Hs H1 H2 Hu Hw H i j Hi Hj. destruct (branching m n r s L Hr Hs H1 H2) as [phi EM]. rewrite <- !(X_embed m n s r phi L Hs Hr EM p) by auto.
  apply H; apply (fidx_lt m n s r phi Hs Hr EM); auto.
Qed.
(** C128: two words of B_m have the same image in JonesCellRep(n, r) exactly when they have
    the same image in JonesCellRep(m, s) for every s with r - (n - m) <= s <= r (and 2 s <= m). *)
Theorem C128_restriction m n r p R u w : 1 <= m -> m <= n -> jones_rep n r p = Ok R -> word_ok m u -> word_ok m w ->
  exists A B, rep_evaluate_artin_word R u = Ok A /\ rep_evaluate_artin_word R w = Ok B /\
    (mat_congr p A B <-> forall s S, s <= r -> r <= s + (n - m) -> jones_rep m s p = Ok S ->
      exists A' B', rep_evaluate_artin_word S u = Ok A' /\ rep_evaluate_artin_word S w = Ok B' /\ mat_congr p A' B').
Proof.
  intros Hm L EJ Hu Hw. destruct (jones_rep_ok n r p R EJ) as (_ & Hr & Hp & _). pose proof (word_ok_more m n u L Hu) as Hu'. pose proof (word_ok_more m n w L Hw) as Hw'.
  destruct (X_eval n r p R u EJ Hu') as (A & EA & _). destruct (X_eval n r p R w EJ Hw') as (B & EB & _). exists A, B. split; [exact EA|]. split; [exact EB|].
  rewrite (X_congr n r p R u w A B EJ Hu' Hw' EA EB). fold (Xeq p n r (expand u) (expand w)). split.
  - intros H s S H1 H2 ES. destruct (jones_rep_ok m s p S ES) as (_ & Hs & _). destruct (X_eval m s p S u ES Hu) as (A' & EA' & _). destruct (X_eval m s p S w ES Hw) as (B' & EB' & _).
    exists A', B'. split; [exact EA'|]. split; [exact EB'|]. rewrite (X_congr m s p S u w A' B' ES Hu Hw EA' EB'). apply (known_back p m n r s); auto using word_ok_range.
  - intros H. apply (known p m (expand u) (expand w) Hm Hp (word_ok_range m u Hu) (word_ok_range m w Hw) (n - m) n r ltac:(lia) Hr). intros s Hs H1 H2. destruct (rep_exists m s p Hm Hs Hp) as [S ES].
    destruct (H s S H1 H2 ES) as (A' & B' & EA' & EB' & K). unfold Xeq. now apply (X_congr m s p S u w A' B' ES Hu Hw EA' EB').
Qed.
(** the matrices themselves: the image in JonesCellRep(m, s) is a submatrix of the one in JonesCellRep(n, r), with the same rows and columns for all words *)
Theorem C128_submatrix m n r s p R S : m <= n -> s <= r -> r <= s + (n - m) -> jones_rep n r p = Ok R -> jones_rep m s p = Ok S ->
  exists d e f, rep_dimension S = Ok (Z.of_nat d) /\ rep_dimension R = Ok (Z.of_nat e) /\ (forall i, i < d -> f i < e) /\ (forall i j, i < d -> j < d -> f i = f j -> i = j) /\
    forall w, word_ok m w -> exists A B, rep_evaluate_artin_word S w = Ok A /\ rep_evaluate_artin_word R w = Ok B /\
      forall i j k, i < d -> j < d -> (p | numcoef (mentry A i j) k - numcoef (mentry B (f i) (f j)) k)%Z.
Proof.
  intros L H1 H2 EJ ES. destruct (jones_rep_ok n r p R EJ) as (_ & Hr & _ & _). destruct (jones_rep_ok m s p S ES) as (_ & Hs & _ & _). destruct (branching m n r s L Hr Hs H1 H2) as [phi EM].
  destruct (Xfacts n r p R EJ) as (_ & _ & _ & ED & _). destruct (Xfacts m s p S ES) as (_ & _ & _ & ED' & _). cbv zeta in ED, ED'.
  exists (length (Wb m s)), (length (Wb n r)), (fidx m n s r phi). split; [exact ED'|]. split; [exact ED|]. split; [apply (fidx_lt m n s r phi Hs Hr EM)|]. split; [apply (fidx_inj m n s r phi Hs Hr EM)|].
  intros w Hw. destruct (X_eval m s p S w ES Hw) as (A & EA & _ & XA). destruct (X_eval n r p R w EJ (word_ok_more m n w L Hw)) as (B & EB & _ & XB). exists A, B. split; [exact EA|]. split; [exact EB|].
  intros i j k Hi Hj. assert (K : neqp p (mentry A i j) (mentry B (fidx m n s r phi i) (fidx m n s r phi j))).
  { rewrite (XA i j Hi Hj), (XB _ _ (fidx_lt m n s r phi Hs Hr EM i Hi) (fidx_lt m n s r phi Hs Hr EM j Hj)). symmetry. apply (X_embed m n s r phi L Hs Hr EM); auto using word_ok_range. }
  apply neqp_congr in K. apply K.
Qed.
(** one strand less: up to a reordering of the basis the matrix is block triangular, with diagonal blocks JonesCellRep(n, r) and JonesCellRep(n, r - 1) *)
Theorem C128_blocks n r p R R1 R0 : 1 <= r -> jones_rep (n + 1) r p = Ok R -> jones_rep n r p = Ok R1 -> jones_rep n (r - 1) p = Ok R0 ->
  exists d1 d0 f1 f0, rep_dimension R1 = Ok (Z.of_nat d1) /\ rep_dimension R0 = Ok (Z.of_nat d0) /\ rep_dimension R = Ok (Z.of_nat (d1 + d0)) /\
    Permutation (map f1 (seq 0 d1) ++ map f0 (seq 0 d0)) (seq 0 (d1 + d0)) /\
    forall w, word_ok n w -> exists A A1 A0, rep_evaluate_artin_word R w = Ok A /\ rep_evaluate_artin_word R1 w = Ok A1 /\ rep_evaluate_artin_word R0 w = Ok A0 /\
      (forall i j k, i < d1 -> j < d1 -> (p | numcoef (mentry A (f1 i) (f1 j)) k - numcoef (mentry A1 i j) k)%Z) /\
      (forall i j k, i < d0 -> j < d0 -> (p | numcoef (mentry A (f0 i) (f0 j)) k - numcoef (mentry A0 i j) k)%Z) /\
      (forall i j k, i < d0 -> j < d1 -> (p | numcoef (mentry A (f0 i) (f1 j)) k)%Z).
Proof.
  intros Pr EJ E1 E0. destruct (jones_rep_ok _ _ _ _ E1) as (Hn & Hr1 & Hp & _). destruct (jones_rep_ok _ _ _ _ EJ) as (_ & Hr & _ & _). destruct (jones_rep_ok _ _ _ _ E0) as (_ & Hr0 & _ & _).
  destruct (Xfacts _ _ p R EJ) as (_ & _ & _ & ED & _). destruct (Xfacts _ _ p R1 E1) as (_ & _ & _ & ED1 & _). destruct (Xfacts _ _ p R0 E0) as (_ & _ & _ & ED0 & _). cbv zeta in *.
  assert (EB : length (B0 n r) = length (Wb n (r - 1))) by (unfold B0; destruct (Nat.eqb_spec r 0); [lia|reflexivity]).
  pose proof (dims n r p R Hn EJ) as DD. rewrite EB in DD. pose proof (pieces n r p R Hn EJ) as PP. rewrite EB in PP. rewrite DD in PP, ED.
  assert (M1 : embeds n (n - 2 * r) (n + 1) (n + 1 - 2 * r) addS) by (apply (em1 n r p R Hn EJ); auto). assert (M0 : embeds n (n - 2 * (r - 1)) (n + 1) (n + 1 - 2 * r) bendS) by (apply (em0 n r p R Hn EJ); auto).
  set (f1 := fidx n (n + 1) r r addS) in *. set (f0 := fidx n (n + 1) (r - 1) r bendS) in *. exists (length (Wb n r)), (length (Wb n (r - 1))), f1, f0. do 4 (split; [assumption|]).
  intros w Hw. destruct (X_eval _ _ p R w EJ (word_ok_more n (n + 1) w ltac:(lia) Hw)) as (A & EA & _ & XA). destruct (X_eval _ _ p R1 w E1 Hw) as (A1 & EA1 & _ & XA1). destruct (X_eval _ _ p R0 w E0 Hw) as (A0 & EA0 & _ & XA0).
  pose proof (word_ok_range n w Hw) as Rw. pose proof (fidx_lt n (n + 1) r r addS Hr1 Hr M1) as L1. pose proof (fidx_lt n (n + 1) (r - 1) r bendS Hr0 Hr M0) as L0. fold f1 in L1. fold f0 in L0.
  exists A, A1, A0. do 3 (split; [assumption|]). split; [|split]; intros i j k Hi Hj.
  - assert (K : neqp p (mentry A (f1 i) (f1 j)) (mentry A1 i j)) by (rewrite XA, XA1 by auto; apply (X_embed n (n + 1) r r addS ltac:(lia) Hr1 Hr M1); auto). apply neqp_congr in K. apply K.
  - assert (K : neqp p (mentry A (f0 i) (f0 j)) (mentry A0 i j)) by (rewrite XA, XA0 by auto; apply (X_embed n (n + 1) (r - 1) r bendS ltac:(lia) Hr0 Hr M0); auto). apply neqp_congr in K. apply K.
  - assert (K : neqp p (mentry A (f0 i) (f1 j)) (NI 0)). { rewrite XA by auto. apply (X_zero n r p R Hn EJ); auto. rewrite EB. exact Hi. }
    apply neqp_congr in K. specialize (K k). replace (numcoef (NI 0) k) with 0%Z in K by (cbn; destruct (k =? 0)%Z; reflexivity). now rewrite Z.sub_0_r in K.
Qed.
(** every Jones representation with 1 <= r is faithful on the braids of three strands (n >= 3; the number of strands that carry the braid, not n) *)
Theorem C128_three n r p R u w : 3 <= n -> 1 <= r -> p <> 1%Z -> jones_rep n r p = Ok R -> word_ok 3 u -> word_ok 3 w ->
  exists A B, rep_evaluate_artin_word R u = Ok A /\ rep_evaluate_artin_word R w = Ok B /\ (mat_congr p A B <-> braid_eq 3 (expand u) (expand w)).
Proof.
  intros Hn Hr Hp1 EJ Hu Hw. destruct (jones_rep_ok n r p R EJ) as (_ & H2 & Hp & _). destruct (rep_exists 3 1 p ltac:(lia) ltac:(lia) Hp) as [S ES].
  destruct (C128_restriction 3 n r p R u w ltac:(lia) Hn EJ Hu Hw) as (A & B & EA & EB & K). exists A, B. split; [exact EA|]. split; [exact EB|].
  pose proof (gtb_is_table hdpick 3 hdpick_ok ltac:(lia)) as Ht. destruct (C114_faithful p S (gtb hdpick) ES Hp1 Ht u w Hu Hw) as (A' & B' & EA' & EB' & F). rewrite <- F. split.
  - intros C. destruct (proj1 K C 1 S ltac:(lia) ltac:(lia) ES) as (A2 & B2 & E2 & F2 & C2). rewrite EA' in E2. injection E2 as <-. rewrite EB' in F2. now injection F2 as <-.
  - intros C. apply F in C. destruct (eval_ok n r p R u EJ (word_ok_more 3 n u Hn Hu)) as (d & gens & invs & E & A2 & _ & EG & EI & _ & _ & EA2 & _ & PA & _ & _ & BM & _). rewrite EA in EA2. injection EA2 as <-.
    destruct (eval_ok n r p R w EJ (word_ok_more 3 n w Hn Hw)) as (d' & gens' & invs' & E' & B2 & _ & EG' & EI' & _ & _ & EB2 & _ & PB & _). rewrite EB in EB2. injection EB2 as <-. rewrite EG in EG'. injection EG' as <- <-. rewrite EI in EI'. injection EI' as <-.
    rewrite <- pmeq_congr. etransitivity; [exact PA|]. etransitivity; [apply (BM _ _ (be_more 3 n _ _ Hn C))|]. now symmetry.
Qed.
(** the hypotheses are met, and one piece alone is not enough: on B_4 the representation (5, 2) has
    the pieces (4, 2) and (4, 1); (4, 2) identifies the words s_0 and s_2, (5, 2) does not *)
Example C128_case : exists R R1 R0 A B A1 B1, jones_rep (4 + 1) 2 0 = Ok R /\ jones_rep 4 2 0 = Ok R1 /\ jones_rep 4 (2 - 1) 0 = Ok R0 /\
  rep_dimension R = Ok 5%Z /\ rep_dimension R1 = Ok 2%Z /\ rep_dimension R0 = Ok 3%Z /\ word_ok 4 [(0, 1)]%Z /\ word_ok 4 [(2, 1)]%Z /\
  rep_evaluate_artin_word R [(0, 1)]%Z = Ok A /\ rep_evaluate_artin_word R [(2, 1)]%Z = Ok B /\ rep_evaluate_artin_word R1 [(0, 1)]%Z = Ok A1 /\ rep_evaluate_artin_word R1 [(2, 1)]%Z = Ok B1 /\
  A1 = B1 /\ A <> B.
Proof.
  do 7 eexists. do 3 (split; [reflexivity|]). do 3 (split; [vm_compute; reflexivity|]). split; [repeat constructor; cbn; lia|]. split; [repeat constructor; cbn; lia|].
  do 4 (split; [vm_compute; reflexivity|]). split; [reflexivity|discriminate].
Qed.
