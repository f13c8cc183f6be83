(** PropsReflect2.v – C129, continued: what the symmetries preserve. *)
From Verif Require Import Base ModelPoly SpecPoly PolyTheory PropsPoly ModelTL SpecTL TLTheory TLCells PropsTL ModelMatrix SpecMatrix MatrixTheory ModelTLMor TLMorTheory PropsTLMor2 JonesTheory TLGens TLFlip MarkovTheory.
From Coq Require Import Ring Setoid Morphisms Permutation.
From Verif Require Import ModelPerm Germ GermNF GermAct GermBraid PermTheory WeakOrder SpecPerm SpecPermTheory PermWords ModelBraid SpecBraid BraidTheory FullTwistBraid FullTwist ModelRep SpecRep NumTheory RepTheory RepCanon PropsRep FullTwistRep PropsPolymat3 PropsTwist PolyRepTheory EmbedTheory PropsStable TableTheory NFApi PermGerm PermTable PropsGNF PropsGNF2 PropsDesc2 PropsKernel PropsScalar HalfTwist PropsBranch PropsReflect.
Local Open Scope nat_scope.
#[local] Existing Instance neqp_equiv.
#[local] Existing Instance pmeq_equiv.

(** ** relations *)
Lemma cong_trans p a b c : (p | a - b)%Z -> (p | b - c)%Z -> (p | a - c)%Z.
Proof. intros [x X] [y Y]. exists (x + y)%Z. lia. Qed.
Lemma cong_sym p a b : (p | a - b)%Z -> (p | b - a)%Z.
Proof. intros [x X]. exists (- x)%Z. lia. Qed.
(** two words have the same matrix if and only if the words seen from behind do, and
    if and only if their mirror images do; in particular the kernel is invariant. *)
Theorem C129_relations n r p R u w Au Aw Fu Fw Mu Mw : jones_rep n r p = Ok R -> word_ok n u -> word_ok n w ->
  rep_evaluate_artin_word R u = Ok Au -> rep_evaluate_artin_word R w = Ok Aw ->
  rep_evaluate_artin_word R (flip_word n u) = Ok Fu -> rep_evaluate_artin_word R (flip_word n w) = Ok Fw ->
  rep_evaluate_artin_word R (mirror_word u) = Ok Mu -> rep_evaluate_artin_word R (mirror_word w) = Ok Mw ->
  (mat_congr p Au Aw <-> mat_congr p Fu Fw) /\ (mat_congr p Au Aw <-> mat_congr p Mu Mw).
Proof.
  intros EJ Hu Hw EAu EAw EFu EFw EMu EMw. destruct (jones_all n r p R EJ) as (d & gens & invs & E & _ & _ & _ & _ & ED & _). destruct (C129_basis n r p R d EJ ED) as [f HP].
  assert (S : forall x X, word_ok n x -> rep_evaluate_artin_word R x = Ok X -> sq d X).
  { intros x X Hx EX. destruct (X_eval n r p R x EJ Hx) as (X' & EX' & SX & _). rewrite EX in EX'. injection EX' as <-. now rewrite <- (d_Wb n r p R d EJ ED) in SX. }
  destruct (C129_flip n r p R d f u EJ ED HP Hu) as (X1 & X2 & E1 & E2 & _ & _ & K1). rewrite EAu in E1. injection E1 as <-. rewrite EFu in E2. injection E2 as <-.
  destruct (C129_flip n r p R d f w EJ ED HP Hw) as (X1 & X2 & E1 & E2 & _ & _ & K2). rewrite EAw in E1. injection E1 as <-. rewrite EFw in E2. injection E2 as <-.
  destruct (C129_mirror n r p R d u EJ ED Hu) as (X1 & X2 & E1 & E2 & _ & _ & K3). rewrite EAu in E1. injection E1 as <-. rewrite EMu in E2. injection E2 as <-.
  destruct (C129_mirror n r p R d w EJ ED Hw) as (X1 & X2 & E1 & E2 & _ & _ & K4). rewrite EAw in E1. injection E1 as <-. rewrite EMw in E2. injection E2 as <-.
  destruct HP as (B & _ & _ & HP).
  rewrite <- !pmeq_congr, !(pmeq_coef p d) by (eauto using flip_word_ok, mirror_word_ok). split; split; intros H i j e Hi Hj.
  - destruct (HP i Hi) as (L1 & _), (HP j Hj) as (L2 & _). eapply cong_trans; [now apply K1|]. eapply cong_trans; [now apply H|]. apply cong_sym. now apply K2.
  - destruct (HP i Hi) as (L1 & P1 & _), (HP j Hj) as (L2 & P2 & _). pose proof (K1 (f i) (f j) e L1 L2) as Q1. pose proof (K2 (f i) (f j) e L1 L2) as Q2. rewrite P1, P2 in *. eapply cong_trans; [apply cong_sym, Q1|]. eapply cong_trans; [now apply H|]. exact Q2.
  - eapply cong_trans; [now apply K3|]. eapply cong_trans; [now apply H|]. apply cong_sym. now apply K4.
  - pose proof (K3 i j (- e)%Z Hi Hj) as Q1. pose proof (K4 i j (- e)%Z Hi Hj) as Q2. rewrite Z.opp_involutive in *. eapply cong_trans; [apply cong_sym, Q1|]. eapply cong_trans; [now apply H|]. exact Q2.
Qed.

(** ** spans *)
Lemma span_move p d X Y v (f g : nat -> nat) s c : (s * s = 1)%Z -> (forall i, i < d -> f i < d /\ f (f i) = i) -> (forall i, i < d -> g i < d /\ g (g i) = i) ->
  (forall i j e, i < d -> j < d -> (p | numcoef (mentry Y i j) e - s * numcoef (mentry X (f i) (g j)) (e - c))%Z) -> rep_span p d X v -> rep_span p d Y v.
Proof.
  intros Hs Hf Hg H (t & A & B & C). assert (NZ : forall i j e, i < d -> j < d -> ~ (p | numcoef (mentry Y i j) e)%Z <-> ~ (p | numcoef (mentry X (f i) (g j)) (e - c))%Z).
  { intros i j e Hi Hj. specialize (H i j e Hi Hj). revert H. generalize (numcoef (mentry Y i j) e) (numcoef (mentry X (f i) (g j)) (e - c)). intros y x [q Q]. split; intros N [k K]; apply N.
    - exists (q + s * k)%Z. nia.
    - exists (s * (k - q))%Z. replace x with (s * s * x)%Z by (rewrite Hs; ring). replace (s * x)%Z with ((k - q) * p)%Z by lia || idtac. rewrite <- Z.mul_assoc. replace (s * x)%Z with ((k - q) * p)%Z by lia. ring. }
  exists (t + c)%Z. split; [|split].
  - intros i j e Hi Hj N. apply NZ in N; auto. apply A in N; [lia|apply Hf, Hi|apply Hg, Hj].
  - destruct B as (i & j & Hi & Hj & N). exists (f i), (g j). destruct (Hf i Hi) as [F1 F2], (Hg j Hj) as [G1 G2]. split; [exact F1|]. split; [exact G1|]. apply NZ; auto. rewrite F2, G2. now replace (t + c - c)%Z with t by lia.
  - destruct C as (i & j & Hi & Hj & N). exists (f i), (g j). destruct (Hf i Hi) as [F1 F2], (Hg j Hj) as [G1 G2]. split; [exact F1|]. split; [exact G1|]. apply NZ; auto. rewrite F2, G2. now replace (t + c + v - 1 - c)%Z with (t + v - 1)%Z by lia.
Qed.
Lemma span_mirror p d X Y v : (forall i j e, i < d -> j < d -> (p | numcoef (mentry Y i j) e - numcoef (mentry X i j) (- e))%Z) -> rep_span p d X v -> rep_span p d Y v.
Proof.
  intros H (t & A & B & C). assert (NZ : forall i j e, i < d -> j < d -> ~ (p | numcoef (mentry Y i j) e)%Z <-> ~ (p | numcoef (mentry X i j) (- e))%Z).
  { intros i j e Hi Hj. specialize (H i j e Hi Hj). destruct H as [q Q]. split; intros N [k K]; apply N; [exists (q + k)%Z|exists (k - q)%Z]; lia. }
  exists (1 - t - v)%Z. split; [|split].
  - intros i j e Hi Hj N. apply NZ in N; auto. apply A in N; auto. lia.
  - destruct C as (i & j & Hi & Hj & N). exists i, j. split; [exact Hi|]. split; [exact Hj|]. apply NZ; auto. now replace (- (1 - t - v))%Z with (t + v - 1)%Z by lia.
  - destruct B as (i & j & Hi & Hj & N). exists i, j. split; [exact Hi|]. split; [exact Hj|]. apply NZ; auto. now replace (- (1 - t - v + v - 1))%Z with t by lia.
Qed.
Definition unexp (w : bword) : list (Z * Z) := map (fun l : nat * bool => (Z.of_nat (fst l), if snd l then 1 else -1)%Z) w.
Lemma expand_unexp w : expand (unexp w) = w.
Proof. induction w as [|[i e] w IH]; [reflexivity|]. unfold unexp, expand in *. cbn [map flat_map fst snd]. rewrite IH, Nat2Z.id. destruct e; reflexivity. Qed.
Lemma unexp_ok n w : in_range n w -> word_ok n (unexp w).
Proof. intros H. unfold word_ok, unexp. rewrite Forall_map. eapply Forall_impl; [|exact H]. cbn. intros [i e]. cbn. lia. Qed.

Section Span.
Variables (n r : nat) (p : Z) (R : rep) (d : nat).
Hypothesis (EJ : jones_rep n r p = Ok R) (ED : rep_dimension R = Ok (Z.of_nat d)).
Let Hn : 1 <= n := proj1 (jones_rep_ok n r p R EJ).
Definition sp (w : bword) (v : Z) : Prop := exists A, rep_evaluate_artin_word R (unexp w) = Ok A /\ rep_span p d A v.
Lemma sp_word w A v : word_ok n w -> rep_evaluate_artin_word R w = Ok A -> (rep_span p d A v <-> sp (expand w) v).
Proof using All.
  intros Hw EA. pose proof (word_ok_range n w Hw) as Rw. pose proof (unexp_ok n _ Rw) as Hu. destruct (entry_Y n r p R d EJ ED w Hw) as (A' & EA' & _ & XA). rewrite EA in EA'. injection EA' as <-. destruct (entry_Y n r p R d EJ ED _ Hu) as (B & EB & _ & XB). rewrite expand_unexp in XB.
  assert (Q : forall i j e, i < d -> j < d -> (p | numcoef (mentry A i j) e - numcoef (mentry B i j) e)%Z).
  { intros i j e Hi Hj. revert e. apply neqp_congr. rewrite (XA _ i j (be_refl n _)), (XB _ i j (be_refl n _)) by auto. reflexivity. }
  assert (I : forall i, i < d -> i < d /\ i = i) by auto. split.
  - intros S. exists B. split; [exact EB|]. apply (span_move p d A B v (fun i => i) (fun i => i) 1 0); auto. intros i j e Hi Hj. rewrite Z.mul_1_l, Z.sub_0_r. now apply cong_sym, Q.
  - intros (B' & EB' & S). rewrite EB in EB'. injection EB' as <-. apply (span_move p d B A v (fun i => i) (fun i => i) 1 0); auto. intros i j e Hi Hj. rewrite Z.mul_1_l, Z.sub_0_r. now apply Q.
Qed.
Lemma sp_braid w w' v : in_range n w -> in_range n w' -> braid_eq n w w' -> sp w v -> sp w' v.
Proof using All.
  intros Rw Rw' BE (A & EA & S). destruct (entry_Y n r p R d EJ ED _ (unexp_ok n _ Rw)) as (A' & EA' & _ & XA). rewrite EA in EA'. injection EA' as <-. destruct (entry_Y n r p R d EJ ED _ (unexp_ok n _ Rw')) as (B & EB & _ & XB). rewrite expand_unexp in *. exists B. split; [exact EB|].
  apply (span_move p d A B v (fun i => i) (fun i => i) 1 0); auto. intros i j e Hi Hj. rewrite Z.mul_1_l, Z.sub_0_r. revert e. apply neqp_congr. rewrite (XB _ i j (be_refl n _)) by auto. now rewrite (XA w' i j BE) by auto.
Qed.
Lemma sp_delta w v : in_range n w -> (sp w v <-> sp (hw n ++ w) v) /\ (sp w v <-> sp (w ++ hw n) v).
Proof using All.
  intros Rw. assert (Rl : in_range n (hw n ++ w)) by (apply in_range_app; auto using hw_range). assert (Rr : in_range n (w ++ hw n)) by (apply in_range_app; auto using hw_range).
  destruct (C129_basis n r p R d EJ ED) as [f HP]. pose proof (delta_lifts n Hn) as LD. fold (hw n) in LD.
  destruct (C129_multiply n r p R d f (hw n) (unexp w) (unexp (hw n ++ w)) (unexp (w ++ hw n)) EJ ED HP LD) as (A & Al & Ar & EA & EL & ER & K); try (rewrite !expand_unexp; apply be_refl); auto using unexp_ok.
  destruct HP as (B & _ & _ & HP). set (s := ((-1) ^ Z.of_nat (r * (n - 1)))%Z) in *. set (c := Z.of_nat (r * (n - r + 1))) in *.
  assert (Hs : (s * s = 1)%Z) by (unfold s; rewrite <- Z.pow_mul_l; change (-1 * -1)%Z with 1%Z; apply Z.pow_1_l, Nat2Z.is_nonneg).
  assert (Hf : forall i, i < d -> f i < d /\ f (f i) = i) by (intros i Hi; destruct (HP i Hi) as (H1 & H2 & _); auto). assert (I : forall i, i < d -> i < d /\ i = i) by auto.
  assert (Q : forall a b, (p | a - s * b)%Z -> (p | b - s * a)%Z). { intros a b [q Q]. exists (- s * q)%Z. replace b with (s * s * b)%Z by (rewrite Hs; ring). replace (s * s * b - s * a)%Z with (- s * (a - s * b))%Z by ring. rewrite Q. ring. }
  split; split; intros (X & EX & S).
  - rewrite EA in EX. injection EX as <-. exists Al. split; [exact EL|]. apply (span_move p d A Al v f (fun i => i) s c); auto. intros i j e Hi Hj. now apply K.
  - rewrite EL in EX. injection EX as <-. exists A. split; [exact EA|]. apply (span_move p d Al A v f (fun i => i) s (- c)); auto. intros i j e Hi Hj. destruct (Hf i Hi) as [F1 F2]. apply Q. pose proof (proj1 (K (f i) j (e - - c)%Z F1 Hj)) as K1. rewrite F2 in K1. now replace (e - - c - c)%Z with e in K1 by lia.
  - rewrite EA in EX. injection EX as <-. exists Ar. split; [exact ER|]. apply (span_move p d A Ar v (fun i => i) f s c); auto. intros i j e Hi Hj. now apply K.
  - rewrite ER in EX. injection EX as <-. exists A. split; [exact EA|]. apply (span_move p d Ar A v (fun i => i) f s (- c)); auto. intros i j e Hi Hj. destruct (Hf j Hj) as [F1 F2]. apply Q. pose proof (proj2 (K i (f j) (e - - c)%Z Hi F1)) as K1. rewrite F2 in K1. now replace (e - - c - c)%Z with e in K1 by lia.
Qed.
Lemma wpow_range k : in_range n (wpow (hw n) k).
Proof using Type.
  assert (H : forall w j, in_range n w -> in_range n (concat (repeat w j))) by (intros w j H; induction j; cbn; [constructor|apply in_range_app; auto]).
  unfold wpow. destruct (0 <=? k)%Z; apply H; [apply hw_range|apply in_range_winv, hw_range].
Qed.
Lemma sp_left k w v : in_range n w -> (sp w v <-> sp (wpow (hw n) k ++ w) v).
Proof using All.
  intros Rw. assert (Rk : forall j, in_range n (wpow (hw n) j ++ w)) by (intros j; apply in_range_app; auto using wpow_range). assert (Rd : forall j, in_range n (hw n ++ wpow (hw n) j ++ w)) by (intros j; apply in_range_app; auto using hw_range).
  assert (St : forall j, sp (wpow (hw n) (j + 1) ++ w) v <-> sp (wpow (hw n) j ++ w) v).
  { intros j. rewrite (proj1 (sp_delta (wpow (hw n) j ++ w) v (Rk j))). assert (BE : braid_eq n (wpow (hw n) (j + 1) ++ w) (hw n ++ wpow (hw n) j ++ w)) by (rewrite (wpow_succ n) by apply hw_range; now rewrite app_assoc). split; apply sp_braid; auto. now symmetry. }
  induction k as [|k IH|k IH] using Z_ind2; [reflexivity|rewrite IH; symmetry; apply St|]. rewrite IH. rewrite <- (St (k - 1)%Z). now replace (k - 1 + 1)%Z with k by lia.
Qed.
End Span.

(** ** C129 for braids *)
Lemma mk_n {T} (tb : nat -> res (nftable T)) n k f b : mk tb n k f = Ok b -> o_n b = n.
Proof. unfold mk. intros E. destruct (tb n) as [t|]; cbn [bind] in E; [|discriminate]. destruct (is_factors_normalised t f) as [c|]; cbn [bind] in E; [|discriminate]. destruct (assert_ c); cbn [bind] in E; [|discriminate]. injection E as <-. reflexivity. Qed.
Lemma nf_eval {T} n r p (tb : nat -> res (nftable T)) R b w A : 2 <= n -> jones_rep n r p = Ok R -> denotes tb n b w -> rep_evaluate_nf tb R b = Ok A -> exists u, word_ok n u /\ braid_eq n (expand u) w /\ rep_evaluate_artin_word R u = Ok A.
Proof. intros n2 EJ (_ & u & Eu & Hu & BU) EA. exists u. split; [exact Hu|]. split; [exact BU|]. unfold rep_evaluate_nf in EA. now rewrite Eu in EA. Qed.
Lemma nf_sp {T} n r p (tb : nat -> res (nftable T)) R d b w A v : 2 <= n -> jones_rep n r p = Ok R -> rep_dimension R = Ok (Z.of_nat d) -> denotes tb n b w -> in_range n w -> rep_evaluate_nf tb R b = Ok A -> (rep_span p d A v <-> sp p R d w v).
Proof.
  intros n2 EJ ED Db Rw EA. destruct (nf_eval n r p tb R b w A n2 EJ Db EA) as (u & Hu & BU & EU). rewrite (sp_word n r p R d EJ ED u A v Hu EU). split; apply (sp_braid n r p R d EJ ED); auto using word_ok_range. now symmetry.
Qed.
(** Delta^k b and b have images of the same projective length *)
Theorem C129_projlen n r p tb R d k D b c X Y v : 2 <= n -> gnf_table n tb -> jones_rep n r p = Ok R -> rep_dimension R = Ok (Z.of_nat d) -> nf_value tb n b ->
  from_gnf_pair tb n k [] = Ok D -> nf_mul tb D b = Ok c -> rep_evaluate_nf tb R b = Ok X -> rep_evaluate_nf tb R c = Ok Y -> (rep_span p d X v <-> rep_span p d Y v).
Proof.
  intros n2 Ht EJ ED Vb EDk EM EX EY. pose proof (gnf_table_ptab n tb Ht) as Etb. pose proof (ptab_ok n n2) as TK.
  destruct (api_word _ _ _ _ _ _ _ _ _ TK tb Etb b Vb) as (u & Eu & Hu & _ & Db). pose proof (word_ok_range n u Hu) as Ru.
  destruct (C48_from_gnf_pair n tb k [] [] (hw n) n2 Ht ltac:(constructor) ltac:(constructor) (delta_lifts n ltac:(lia))) as (D' & ED' & DD). rewrite EDk in ED'. injection ED' as <-. cbn [concat] in DD. rewrite app_nil_r in DD.
  destruct (api_mul _ _ _ _ _ _ _ _ _ TK tb Etb D b _ _ DD Db) as (c' & Ec & Dc). rewrite EM in Ec. injection Ec as <-.
  rewrite (nf_sp n r p tb R d b (expand u) X v n2 EJ ED Db Ru EX). rewrite (nf_sp n r p tb R d c _ Y v n2 EJ ED Dc) by (auto; apply in_range_app; auto using wpow_range). now apply (sp_left n r p R d EJ ED).
Qed.
(** so the projective length of a braid depends on its canonical factors only, which is why
    the search may restrict to braids with inf = 0 *)
Theorem C129_factors n r p tb R d b c X Y v : 2 <= n -> gnf_table n tb -> jones_rep n r p = Ok R -> rep_dimension R = Ok (Z.of_nat d) -> nf_value tb n b -> nf_value tb n c ->
  o_factors b = o_factors c -> rep_evaluate_nf tb R b = Ok X -> rep_evaluate_nf tb R c = Ok Y -> (rep_span p d X v <-> rep_span p d Y v).
Proof.
  intros n2 Ht EJ ED Vb Vc EF EX EY. pose proof (delta_lifts n ltac:(lia)) as LD. fold (hw n) in LD.
  destruct (C48_from_gnf_pair_inverts n tb b n2 Ht Vb) as (xs & E1 & (N1 & _) & F1). destruct (C48_from_gnf_pair_inverts n tb c n2 Ht Vc) as (ys & E2 & _ & F2).
  assert (On : o_n b = o_n c). { destruct Vb as (t1 & p1 & f1 & _ & _ & M1), Vc as (t2 & p2 & f2 & _ & _ & M2). now rewrite (mk_n _ _ _ _ _ M1), (mk_n _ _ _ _ _ M2). }
  assert (Exy : ys = xs). { unfold canonical_decomposition, canonical_factors in E1, E2. rewrite <- On, <- EF in E2. destruct (bind (tb (o_n b)) (fun t => mapM (pyget (t_divs t)) (o_factors b))) as [z|z]; cbn [bind] in *; congruence. }
  subst ys. assert (PW : Forall (is_perm_word n) xs) by (eapply Forall_impl; [|exact N1]; intros x Hx; apply Hx).
  set (us := map (fun x => pword (sword x)) xs). assert (LU : Forall2 (lifts n) xs us /\ in_range n (concat us)).
  { unfold us. clear - PW. induction PW as [|x xs Hx Hxs [I1 I2]]; [split; constructor|]. destruct (sword_lifts n x Hx) as [L1 L2]. split; [constructor; auto|]. cbn [map concat]. apply in_range_app. split; [|exact I2]. unfold in_range, pword. rewrite Forall_map. exact L2. }
  destruct LU as [LU RU]. destruct (C48_from_gnf_pair n tb (inf b) xs us (hw n) n2 Ht PW LU LD) as (b' & Eb & Db). rewrite F1 in Eb. injection Eb as <-.
  destruct (C48_from_gnf_pair n tb (inf c) xs us (hw n) n2 Ht PW LU LD) as (c' & Ec & Dc). rewrite F2 in Ec. injection Ec as <-.
  rewrite (nf_sp n r p tb R d b _ X v n2 EJ ED Db), (nf_sp n r p tb R d c _ Y v n2 EJ ED Dc) by (auto; apply in_range_app; auto using wpow_range). now rewrite <- !(sp_left n r p R d EJ ED).
Qed.
(** and the flipped and mirrored words have images of the same projective length *)
Theorem C129_same_span n r p R d w A B C v : jones_rep n r p = Ok R -> rep_dimension R = Ok (Z.of_nat d) -> word_ok n w -> rep_evaluate_artin_word R w = Ok A ->
  rep_evaluate_artin_word R (flip_word n w) = Ok B -> rep_evaluate_artin_word R (mirror_word w) = Ok C -> (rep_span p d A v <-> rep_span p d B v) /\ (rep_span p d A v <-> rep_span p d C v).
Proof.
  intros EJ ED Hw EA EB EC. destruct (C129_basis n r p R d EJ ED) as [f HP].
  destruct (C129_flip n r p R d f w EJ ED HP Hw) as (X1 & X2 & E1 & E2 & _ & _ & K1). rewrite EA in E1. injection E1 as <-. rewrite EB in E2. injection E2 as <-.
  destruct (C129_mirror n r p R d w EJ ED Hw) as (X1 & X2 & E1 & E2 & _ & _ & K3). rewrite EA in E1. injection E1 as <-. rewrite EC in E2. injection E2 as <-.
  destruct HP as (Bs & _ & _ & HP). assert (Hf : forall i, i < d -> f i < d /\ f (f i) = i) by (intros i Hi; destruct (HP i Hi) as (H1 & H2 & _); auto). split; split.
  - apply (span_move p d A B v f f 1 0); auto. intros i j e Hi Hj. rewrite Z.mul_1_l, Z.sub_0_r. now apply K1.
  - apply (span_move p d B A v f f 1 0); auto. intros i j e Hi Hj. rewrite Z.mul_1_l, Z.sub_0_r. destruct (Hf i Hi) as [F1 F2], (Hf j Hj) as [G1 G2]. pose proof (K1 (f i) (f j) e F1 G1) as Q. rewrite F2, G2 in Q. now apply cong_sym.
  - apply span_mirror. exact K3.
  - apply span_mirror. intros i j e Hi Hj. pose proof (K3 i j (- e)%Z Hi Hj) as Q. rewrite Z.opp_involutive in Q. now apply cong_sym.
Qed.
Definition esum (w : bword) : Z := fold_right (fun (l : nat * bool) z => (if snd l then 1 else -1) + z)%Z 0%Z w.
Lemma esum_app u w : esum (u ++ w) = (esum u + esum w)%Z.
Proof. induction u as [|l u IH]; [reflexivity|]. cbn [app esum fold_right]. fold (esum (u ++ w)) (esum u). rewrite IH. ring. Qed.
Lemma be_expsum n u w : braid_eq n u w -> esum u = esum w.
Proof. induction 1; rewrite ?esum_app; try congruence; try reflexivity. destruct e; reflexivity. Qed.
Example C129_braid_case p R tb : jones_rep 4 2 p = Ok R -> gnf_table 4 tb -> exists b D c X Y, nf_value tb 4 b /\ nf_value tb 4 c /\ from_gnf_pair tb 4 5 [] = Ok D /\ nf_mul tb D b = Ok c /\ b <> c /\ rep_evaluate_nf tb R b = Ok X /\ rep_evaluate_nf tb R c = Ok Y.
Proof.
  intros EJ Ht. pose proof (gnf_table_ptab 4 tb Ht) as Etb. pose proof (ptab_ok 4 ltac:(lia)) as TK.
  set (w := [(0, 1); (2, -1)]%Z). assert (Hw : word_ok 4 w) by (repeat constructor; cbn; lia). destruct (api_from_word _ _ _ _ _ _ _ _ _ TK tb Etb w Hw) as (b & Eb & Db).
  destruct (C48_from_gnf_pair 4 tb 5 [] [] (hw 4) ltac:(lia) Ht ltac:(constructor) ltac:(constructor) (delta_lifts 4 ltac:(lia))) as (D & ED & DD). cbn [concat] in DD. rewrite app_nil_r in DD.
  destruct (api_mul _ _ _ _ _ _ _ _ _ TK tb Etb D b _ _ DD Db) as (c & Ec & Dc). pose proof Db as (_ & ub & Eub & Hub & _). pose proof Dc as (_ & uc & Euc & Huc & _).
  destruct (X_eval 4 2 p R ub EJ Hub) as (X & EX & _). destruct (X_eval 4 2 p R uc EJ Huc) as (Y & EY & _). exists b, D, c, X, Y. split; [apply Db|]. split; [apply Dc|]. split; [exact ED|]. split; [exact Ec|]. split.
  - intros E. apply (api_eq _ _ _ _ _ _ _ _ _ TK tb Etb b c _ _ Db Dc) in E. apply be_expsum in E. vm_compute in E. discriminate.
  - unfold rep_evaluate_nf. now rewrite Eub, Euc.
Qed.
