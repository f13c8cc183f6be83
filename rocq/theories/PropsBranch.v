(** PropsBranch.v – C128: restricting a Jones representation to fewer strands. *)
From Verif Require Import Base ModelPoly SpecPoly PolyTheory PropsPoly ModelTL SpecTL TLTheory TLCells PropsTL ModelMatrix SpecMatrix MatrixTheory ModelTLMor TLMorTheory PropsTLMor2 JonesTheory TLGens MarkovTheory.
From Coq Require Import Ring Setoid Morphisms Permutation.
From Verif Require Import ModelPerm PermTheory WeakOrder SpecPerm SpecPermTheory PermWords ModelBraid SpecBraid BraidTheory FullTwistBraid FullTwist ModelRep SpecRep NumTheory RepTheory RepCanon PropsRep FullTwistRep PropsPolymat3 PropsTwist PolyRepTheory EmbedTheory PropsStable StrandRes StrandBlocks BurauThree PropsBurau TableTheory.
Local Open Scope nat_scope.
#[local] Existing Instance neqp_equiv.
#[local] Existing Instance pmeq_equiv.

Lemma FTw_central n w : in_range n w -> braid_eq n (FTw n ++ w) (w ++ FTw n).
Proof.
  induction 1 as [|[i e] w Hi Hw IH]; [rewrite app_nil_r; reflexivity|]. cbn [fst] in Hi. pose proof (Delta_central n i Hi) as K. fold (FTw n) in K.
  assert (C : braid_eq n ([(i, e)] ++ FTw n) (FTw n ++ [(i, e)])).
  { destruct e; [exact K|]. pose proof (be_cancel n i true Hi) as C1. pose proof (be_cancel n i false Hi) as C2. cbn [negb] in C1, C2.
    assert (Q : braid_eq n ([(i, false)] ++ ([(i, true)] ++ FTw n) ++ [(i, false)]) ([(i, false)] ++ (FTw n ++ [(i, true)]) ++ [(i, false)])) by (rewrite K; reflexivity).
    rewrite <- !app_assoc in Q. change ([(i, true)] ++ [(i, false)]) with [(i, true); (i, false)] in Q. rewrite C1, app_nil_r in Q. rewrite app_assoc in Q. change ([(i, false)] ++ [(i, true)]) with [(i, false); (i, true)] in Q. rewrite C2 in Q. symmetry. exact Q. }
  change ((i, e) :: w) with ([(i, e)] ++ w). rewrite app_assoc, <- C, <- app_assoc, IH. now rewrite app_assoc.
Qed.

(** the entries of the image of a word, on the cell basis *)
Definition Xe (n r : nat) (w : bword) (i j : nat) : num := NL (ev n w (ddelta (nth i (Wb n r) (did 0))) (nth j (Wb n r) (did 0))).
Lemma Xfacts n r p R : jones_rep n r p = Ok R -> exists gens invs E, let d := length (Wb n r) in
  rep_dimension R = Ok (Z.of_nat d) /\ rep_artin_gens_invs R = Ok (gens, invs) /\ rep_id R = Ok E /\ (forall u, sq d (M gens invs E u)) /\
  (forall u v, braid_eq n u v -> pmeq p (M gens invs E u) (M gens invs E v)) /\
  (forall u v, pmeq p (M gens invs E (u ++ v)) (MatrixTheory.prod (NI 0) nadd nmul (M gens invs E u) (M gens invs E v))) /\
  (forall w i j, in_range n w -> i < d -> j < d -> neqp p (ent (NI 0) (M gens invs E w) i j) (Xe n r w i j)) /\
  (forall i j, i < d -> j < d -> neqp p (Xe n r (FTw n) i j) (if i =? j then NL (vpow (Z.of_nat (2 * r * (n - r + 1)))) else NI 0)).
Proof.
  intros EJ. destruct (jones_rep_ok n r p R EJ) as (Hn & Hr & Hp & ER). destruct (jones_all n r p R EJ) as (d & gens & invs & E & _ & _ & _ & _ & ED & EG & EI & HE & _).
  destruct (C32_cell_basis n r Hr) as [B [EB _]]. assert (EW : Wb n r = B) by (unfold Wb; now rewrite EB). pose proof (jones_dim n r B Hr EB) as ED'.
  assert (Ed : d = length B). { rewrite ER in ED. cbn [rep_dimension] in ED. rewrite ED in ED'. injection ED' as ED'. lia. } subst d.
  destruct (Mfacts n r p R (length B) gens invs E EJ ED EG EI) as (_ & _ & _ & _ & _ & SM & BM & PM).
  exists gens, invs, E. cbv zeta. rewrite EW. do 6 (split; [assumption|]).
  assert (XW : forall w i j, in_range n w -> i < length B -> j < length B -> neqp p (ent (NI 0) (M gens invs E w) i j) (Xe n r w i j)).
  { intros w i j Hw Hi Hj. unfold Xe. rewrite EW. destruct (C31_gens_invs n) as [gs [hs [Et _]]]. destruct (gens_ok n r p Hr Hp B EB gs hs Et) as [gens' [invs' [EG' [FG [FH _]]]]]. rewrite ER in EG. cbn [rep_artin_gens_invs] in EG. rewrite EG in EG'. injection EG' as <- <-.
    now apply (Mev n r p Hr Hp B EB gs hs Et gens invs E HE FG FH). }
  split; [exact XW|]. intros i j Hi Hj. rewrite <- (XW (FTw n) i j (FTw_range n) Hi Hj). rewrite (twist_R n r p R (length B) gens invs E EJ ED EG HE i j Hi Hj). destruct (i =? j); [reflexivity|]. apply neq_neqp. unfold NumTheory.neq. cbn [coerce]. reflexivity.
Qed.
Lemma X_mul n r p R : jones_rep n r p = Ok R -> forall u v i j, in_range n u -> in_range n v -> i < length (Wb n r) -> j < length (Wb n r) ->
  neqp p (Xe n r (u ++ v) i j) (rsum (NI 0) nadd (length (Wb n r)) (fun k => nmul (Xe n r u i k) (Xe n r v k j))).
Proof.
  intros EJ u v i j Hu Hv Hi Hj. destruct (Xfacts n r p R EJ) as (gens & invs & E & ED & EG & EI & SM & BM & PM & XW & _). set (d := length (Wb n r)) in *.
  rewrite <- (XW (u ++ v) i j) by (auto; apply in_range_app; auto). pose proof (PM u v) as K. pose proof (SM u) as (W1 & R1 & C1). pose proof (SM v) as (W2 & R2 & C2).
  apply (meq_ent (NI 0) (neqp p)) in K; [|apply SM|apply (sq_pr d); apply SM]. destruct K as (_ & _ & K). destruct (SM (u ++ v)) as (_ & R3 & C3). rewrite (K i j) by lia.
  rewrite (prod_e (NI 0) nadd nmul) by congruence. rewrite C1. apply (rsum_ext (NI 0) nadd nmul nneg (neqp p) _ (nringp_ext p)). intros k Hk. apply (nringp_ext p); apply XW; auto.
Qed.
Lemma X_braid n r p R u v : jones_rep n r p = Ok R -> braid_eq n u v -> in_range n u -> in_range n v -> forall i j, i < length (Wb n r) -> j < length (Wb n r) -> neqp p (Xe n r u i j) (Xe n r v i j).
Proof.
  intros EJ BE Hu Hv i j Hi Hj. destruct (Xfacts n r p R EJ) as (gens & invs & E & ED & EG & EI & SM & BM & PM & XW & _). set (d := length (Wb n r)) in *.
  rewrite <- !XW by auto. pose proof (BM u v BE) as K. apply (meq_ent (NI 0) (neqp p)) in K; [|apply SM|apply SM]. destruct K as (_ & _ & K). destruct (SM u) as (_ & R1 & C1). apply K; lia.
Qed.
Lemma X_eval n r p R w : jones_rep n r p = Ok R -> word_ok n w -> exists A, rep_evaluate_artin_word R w = Ok A /\ sq (length (Wb n r)) A /\ forall i j, i < length (Wb n r) -> j < length (Wb n r) -> neqp p (mentry A i j) (Xe n r (expand w) i j).
Proof.
  intros EJ Hw. destruct (Xfacts n r p R EJ) as (gens & invs & E & ED & EG & EI & SM & BM & PM & XW & _). set (d := length (Wb n r)) in *.
  destruct (eval_ok n r p R w EJ Hw) as (d' & gens' & invs' & E' & A & ED' & EG' & EI' & _ & _ & EA & SA & PA & _). rewrite EG in EG'. injection EG' as <- <-. rewrite EI in EI'. injection EI' as <-. rewrite ED in ED'. injection ED' as ED'. assert (d' = d) by lia. subst d'.
  exists A. split; [exact EA|]. split; [exact SA|]. intros i j Hi Hj. rewrite <- XW by (auto using word_ok_range). apply (meq_ent (NI 0) (neqp p)) in PA; [|apply SA|apply SM]. destruct PA as (_ & _ & K). destruct SA as (_ & R1 & C1). unfold mentry, ent in *. apply K; lia.
Qed.
Lemma X_congr n r p R u w A B : jones_rep n r p = Ok R -> word_ok n u -> word_ok n w -> rep_evaluate_artin_word R u = Ok A -> rep_evaluate_artin_word R w = Ok B ->
  (mat_congr p A B <-> forall i j, i < length (Wb n r) -> j < length (Wb n r) -> neqp p (Xe n r (expand u) i j) (Xe n r (expand w) i j)).
Proof.
  intros EJ Hu Hw EA EB. destruct (X_eval n r p R u EJ Hu) as (A' & EA' & SA & XA). rewrite EA in EA'. injection EA' as <-. destruct (X_eval n r p R w EJ Hw) as (B' & EB' & SB & XB). rewrite EB in EB'. injection EB' as <-.
  rewrite <- pmeq_congr. rewrite (pmeq_coef p (length (Wb n r))) by assumption. split; intros H i j.
  - intros Hi Hj. rewrite <- XA, <- XB by auto. apply neqp_congr. intros e. now apply H.
  - intros e Hi Hj. specialize (H i j Hi Hj). rewrite <- XA, <- XB in H by auto. apply neqp_congr in H. apply H.
Qed.

(** ** positions in the basis *)
Fixpoint ix (B : list diag) (x : diag) : nat := match B with [] => 0 | y :: t => if diag_eqb y x then 0 else S (ix t x) end.
Lemma ix_ok B x : In x B -> ix B x < length B /\ nth (ix B x) B (did 0) = x.
Proof.
  induction B as [|y B IH]; intros H; [destruct H|]. cbn [ix]. destruct (diag_eqb_spec y x) as [->|N]; [cbn; split; [lia|reflexivity]|]. destruct H as [H|H]; [congruence|]. destruct (IH H) as [A C]. cbn [length nth]. split; [lia|exact C].
Qed.
Lemma ix_inj B x y : In x B -> In y B -> ix B x = ix B y -> x = y.
Proof. intros Hx Hy E. destruct (ix_ok B x Hx) as [_ A]. destruct (ix_ok B y Hy) as [_ C]. congruence. Qed.
Section Embed.
Variables (m n s r : nat) (phi : diag -> diag).
Hypothesis (L : m <= n) (Hs : 2 * s <= m) (Hr : 2 * r <= n) (EM : embeds m (m - 2 * s) n (n - 2 * r) phi).
Definition fidx (i : nat) : nat := ix (Wb n r) (phi (nth i (Wb m s) (did 0))).
Lemma small_in i : i < length (Wb m s) -> typed m (m - 2 * s) (nth i (Wb m s) (did 0)) /\ through_all (m - 2 * s) (dseq (nth i (Wb m s) (did 0))).
Proof using Hs. intros Hi. apply (Wb_spec m s Hs). now apply nth_In. Qed.
Lemma phi_in i : i < length (Wb m s) -> In (phi (nth i (Wb m s) (did 0))) (Wb n r).
Proof using Hs Hr EM. intros Hi. apply (Wb_spec n r Hr). destruct (small_in i Hi) as [A C]. split; [now apply (em_typed _ _ _ _ _ EM)|now apply (em_through _ _ _ _ _ EM)]. Qed.
Lemma fidx_lt i : i < length (Wb m s) -> fidx i < length (Wb n r).
Proof using Hs Hr EM. intros Hi. now apply ix_ok, phi_in. Qed.
Lemma fidx_nth i : i < length (Wb m s) -> nth (fidx i) (Wb n r) (did 0) = phi (nth i (Wb m s) (did 0)).
Proof using Hs Hr EM. intros Hi. now apply ix_ok, phi_in. Qed.
Lemma fidx_inj i j : i < length (Wb m s) -> j < length (Wb m s) -> fidx i = fidx j -> i = j.
Proof using Hs Hr EM.
  intros Hi Hj E. apply ix_inj in E; [|now apply phi_in|now apply phi_in]. apply (em_inj _ _ _ _ _ EM) in E; [|now apply small_in|now apply small_in].
  apply (proj1 (NoDup_nth (Wb m s) (did 0)) (proj1 (Wb_spec m s Hs))); auto.
Qed.
Lemma X_embed p w i j : in_range m w -> i < length (Wb m s) -> j < length (Wb m s) -> neqp p (Xe n r w (fidx i) (fidx j)) (Xe m s w i j).
Proof using All.
  intros Hw Hi Hj. apply neq_neqp. unfold Xe, NumTheory.neq. cbn [coerce]. rewrite !fidx_nth by auto. destruct (small_in i Hi) as [Ti _]. destruct (small_in j Hj) as [Tj _].
  rewrite (ev_embeds _ _ _ _ _ L EM w Hw _ _ Tj). apply (ev_ext m (m - 2 * s) w Hw); [|exact Tj]. now apply (ddelta_embeds _ _ _ _ _ _ EM).
Qed.
End Embed.

(** ** one strand less: the two pieces *)
Lemma not_both n m x y : 0 < m -> typed n m x -> through_all m (dseq x) -> typed n (m - 2) y -> bendS x <> addS y.
Proof.
  intros Hm ((C & Lx) & T1 & T2) Th ((Cy & Ly) & Y1 & Y2) E. assert (Eb : dbot (bendS x) = dbot (addS y)) by now rewrite E. cbn [bendS addS dbot] in Eb.
  assert (Es : nth (m - 1) (dseq (bendS x)) 0 = nth (m - 1) (dseq (addS y)) 0) by now rewrite E. cbn [bendS addS dseq] in Es. pose proof (Th (m - 1) ltac:(lia)) as K. rewrite Es in K.
  pose proof (TLAlg2.ins_ei (dseq y) (id_seq 1) (dbot y) ltac:(lia) 1 ltac:(rewrite TLAlg2.id_seq_length; lia)) as Q. rewrite TLAlg2.nth_id in Q by lia. replace (1 + dbot y) with (m - 1) in Q by lia. rewrite Q in K. lia.
Qed.
Definition B0 (n r : nat) : list diag := if r =? 0 then [] else Wb n (r - 1).
Section Step.
Variables (n r : nat) (p : Z) (R : rep).
Hypothesis (Hn : 1 <= n) (EJ : jones_rep (n + 1) r p = Ok R).
Let Hr : 2 * r <= n + 1 := proj1 (proj2 (jones_rep_ok _ _ _ _ EJ)).
Let Hp : (0 <= p)%Z := proj1 (proj2 (proj2 (jones_rep_ok _ _ _ _ EJ))).
Let D := length (Wb (n + 1) r).
Let d1 := length (Wb n r).
Let d0 := length (B0 n r).
Let f1 := fidx n (n + 1) r r addS.
Let f0 := fidx n (n + 1) (r - 1) r bendS.
Lemma rep_small s : 2 * s <= n -> exists Rs, jones_rep n s p = Ok Rs.
Proof using All. intros Hs. unfold jones_rep. destruct (Nat.leb_spec 1 n); [|lia]. destruct (Nat.leb_spec (2 * s) n); [|lia]. destruct (Z.leb_spec 0 p); [|lia]. cbn [assert_ bind]. eauto. Qed.
Lemma case1 : 0 < d1 -> 2 * r <= n.
Proof using All. intros H. destruct (Nat.le_gt_cases (2 * r) n) as [L|L]; [exact L|]. exfalso. unfold d1, Wb in H. rewrite (proj1 (C32_cell_dimension_outside n r L)) in H. cbn in H. lia. Qed.
Lemma case0 : 0 < d0 -> 1 <= r.
Proof using All. intros H. destruct (Nat.eq_dec r 0) as [Q|Q]; [|lia]. unfold d0, B0 in H. rewrite Q in H. cbn in H. lia. Qed.
Lemma em1 : 2 * r <= n -> embeds n (n - 2 * r) (n + 1) (n + 1 - 2 * r) addS.
Proof using All. intros H. replace (n + 1 - 2 * r) with (n - 2 * r + 1) by lia. apply embeds_add. Qed.
Lemma em0 : 1 <= r -> embeds n (n - 2 * (r - 1)) (n + 1) (n + 1 - 2 * r) bendS.
Proof using All. intros H. replace (n + 1 - 2 * r) with (n - 2 * (r - 1) - 1) by lia. apply embeds_bend. lia. Qed.
Lemma d0_eq : 1 <= r -> d0 = length (Wb n (r - 1)).
Proof using All. intros H. unfold d0, B0. destruct (Nat.eqb_spec r 0); [lia|reflexivity]. Qed.
Lemma disjoint i j : i < d1 -> j < d0 -> f1 i <> f0 j.
Proof using All.
  intros Hi Hj E. pose proof (case1 ltac:(lia)) as H1. pose proof (case0 ltac:(lia)) as H0. rewrite (d0_eq H0) in Hj. unfold f1, f0, fidx in E.
  apply ix_inj in E; [|apply (phi_in n (n + 1) r r addS H1 Hr (em1 H1)); exact Hi|apply (phi_in n (n + 1) (r - 1) r bendS ltac:(lia) Hr (em0 H0)); exact Hj].
  destruct (small_in n r H1 i Hi) as [T1 _]. destruct (small_in n (r - 1) ltac:(lia) j Hj) as [T0 Th]. symmetry in E. revert E. apply (not_both n (n - 2 * (r - 1))); auto; [lia|]. replace (n - 2 * (r - 1) - 2) with (n - 2 * r) by lia. exact T1.
Qed.
Lemma dims : D = d1 + d0.
Proof using All.
  destruct (Wb_spec (n + 1) r Hr) as (_ & L & _). assert (L1 : Z.of_nat d1 = if 2 * r <=? n then dimZ n r else 0%Z).
  { destruct (Nat.leb_spec (2 * r) n) as [H|H]; [now apply Wb_spec|]. unfold d1, Wb. now rewrite (proj1 (C32_cell_dimension_outside n r H)). }
  unfold D. apply Nat2Z.inj. rewrite Nat2Z.inj_add, L, L1. replace (n + 1) with (S n) by lia. destruct (Nat.eq_dec r 0) as [Q|N].
  - unfold d0, B0. rewrite Q, !dimZ_zero. cbn. reflexivity.
  - rewrite dimZ_pascal by lia. rewrite d0_eq by lia. destruct (Wb_spec n (r - 1) ltac:(lia)) as (_ & L0 & _). rewrite L0. destruct (Nat.leb_spec (2 * r) n) as [H|H]; [reflexivity|]. rewrite (dimZ_half n r) by lia. reflexivity.
Qed.
Lemma pieces : Permutation (map f1 (seq 0 d1) ++ map f0 (seq 0 d0)) (seq 0 D).
Proof using All.
  assert (LT : incl (map f1 (seq 0 d1) ++ map f0 (seq 0 d0)) (seq 0 D)).
  { intros x I. apply in_app_or in I. apply in_seq. split; [lia|]. cbn [Nat.add]. destruct I as [I|I]; apply in_map_iff in I; destruct I as (i & <- & I); apply in_seq in I.
    - pose proof (case1 ltac:(lia)) as H1. apply (fidx_lt n (n + 1) r r addS H1 Hr (em1 H1)). unfold d1 in I. lia.
    - pose proof (case0 ltac:(lia)) as H0. apply (fidx_lt n (n + 1) (r - 1) r bendS ltac:(lia) Hr (em0 H0)). rewrite <- d0_eq by exact H0. lia. }
  assert (ND : NoDup (map f1 (seq 0 d1) ++ map f0 (seq 0 d0))).
  { assert (NA : forall (l l' : list nat), NoDup l -> NoDup l' -> (forall x, In x l -> ~ In x l') -> NoDup (l ++ l')).
    { clear. induction l as [|x l IH]; intros l' A B H; [exact B|]. inversion A; subst. cbn. constructor; [rewrite in_app_iff; intros [Q|Q]; [contradiction|apply (H x); cbn; auto]|]. apply IH; auto. intros y Hy. apply H. now right. }
    apply NA.
    - apply TLCup.NoDup_map_inj_in; [|apply seq_NoDup]. intros i j Hi Hj. apply in_seq in Hi. apply in_seq in Hj. pose proof (case1 ltac:(lia)) as H1. apply (fidx_inj n (n + 1) r r addS H1 Hr (em1 H1)); unfold d1 in *; lia.
    - apply TLCup.NoDup_map_inj_in; [|apply seq_NoDup]. intros i j Hi Hj. apply in_seq in Hi. apply in_seq in Hj. pose proof (case0 ltac:(lia)) as H0. rewrite (d0_eq H0) in *. apply (fidx_inj n (n + 1) (r - 1) r bendS ltac:(lia) Hr (em0 H0)); lia.
    - intros x I1 I0. apply in_map_iff in I1. apply in_map_iff in I0. destruct I1 as (i & <- & I1). destruct I0 as (j & E & I0). apply in_seq in I1. apply in_seq in I0. apply (disjoint i j); [lia|lia|auto]. }
  apply NoDup_Permutation; [exact ND|apply seq_NoDup|]. intros x. split; [apply LT|]. apply (NoDup_length_incl ND); [|exact LT]. rewrite app_length, !map_length, !seq_length. now rewrite dims.
Qed.
Lemma X_zero w i j : in_range n w -> i < d0 -> j < d1 -> neqp p (Xe (n + 1) r w (f0 i) (f1 j)) (NI 0).
Proof using All.
  intros Hw Hi Hj. pose proof (case1 ltac:(lia)) as H1. pose proof (case0 ltac:(lia)) as H0. rewrite (d0_eq H0) in Hi. unfold f1, f0. apply neq_neqp. unfold Xe, NumTheory.neq. cbn [coerce].
  rewrite (fidx_nth n (n + 1) (r - 1) r bendS ltac:(lia) Hr (em0 H0) i Hi), (fidx_nth n (n + 1) r r addS H1 Hr (em1 H1) j Hj). destruct (small_in n (r - 1) ltac:(lia) i Hi) as [Ti Th]. destruct (small_in n r H1 j Hj) as [Tj _].
  rewrite (ev_embeds n (n - 2 * r) (n + 1) (n + 1 - 2 * r) addS ltac:(lia) (em1 H1) w Hw _ _ Tj).
  transitivity (ev n w (fun _ => lmul (lint 0) (lint 0)) (nth j (Wb n r) (did 0))); [|rewrite ev_scale; ring]. apply (ev_ext n (n - 2 * r) w Hw); [|exact Tj].
  intros y Ty. unfold ddelta. destruct (diag_eqb_spec (bendS (nth i (Wb n (r - 1)) (did 0))) (addS y)) as [Q|Q]; [|ring]. exfalso. revert Q. apply (not_both n (n - 2 * (r - 1))); auto; [lia|]. replace (n - 2 * (r - 1) - 2) with (n - 2 * r) by lia. exact Ty.
Qed.
Theorem step_known u w : in_range n u -> in_range n w ->
  (2 * r <= n -> forall i j, i < d1 -> j < d1 -> neqp p (Xe n r u i j) (Xe n r w i j)) ->
  (1 <= r -> forall i j, i < length (Wb n (r - 1)) -> j < length (Wb n (r - 1)) -> neqp p (Xe n (r - 1) u i j) (Xe n (r - 1) w i j)) ->
  forall i j, i < D -> j < D -> neqp p (Xe (n + 1) r u i j) (Xe (n + 1) r w i j).
Proof using All.
  intros Hu Hw E1 E0. apply (blocks_known p n D d1 d0 (Xe (n + 1) r) (Xe n r) (Xe n (r - 1)) f1 f0 (FTw n) (Z.of_nat (2 * r * (n - r + 1))) (Z.of_nat (2 * (r - 1) * (n - (r - 1) + 1)))); auto.
  - apply FTw_range.
  - intros P1 P0 E. pose proof (case1 P1). pose proof (case0 P0). apply Nat2Z.inj in E. nia.
  - apply pieces.
  - intros u' v i j Hu' Hv. apply (X_mul (n + 1) r p R EJ); apply (in_range_more n); auto; lia.
  - intros v i j Hv. apply (X_braid (n + 1) r p R); auto.
    + apply (be_more n); [lia|]. now apply FTw_central.
    + apply (in_range_more n); [lia|]. apply in_range_app. auto using FTw_range.
    + apply (in_range_more n); [lia|]. apply in_range_app. auto using FTw_range.
  - intros v i j Hv Hi Hj. pose proof (case1 ltac:(lia)) as H1. apply (X_embed n (n + 1) r r addS ltac:(lia) H1 Hr (em1 H1)); auto.
  - intros v i j Hv Hi Hj. pose proof (case0 ltac:(lia)) as H0. rewrite (d0_eq H0) in *. apply (X_embed n (n + 1) (r - 1) r bendS ltac:(lia) ltac:(lia) Hr (em0 H0)); auto.
  - intros v i j. apply X_zero.
  - intros i j Hi Hj. pose proof (case1 ltac:(lia)) as H1. destruct (rep_small r H1) as [Rs EJs]. destruct (Xfacts n r p Rs EJs) as (g & h & E & _ & _ & _ & _ & _ & _ & _ & T). now apply T.
  - intros i j Hi Hj. pose proof (case0 ltac:(lia)) as H0. rewrite (d0_eq H0) in *. destruct (rep_small (r - 1) ltac:(lia)) as [Rs EJs]. destruct (Xfacts n (r - 1) p Rs EJs) as (g & h & E & _ & _ & _ & _ & _ & _ & _ & T). now apply T.
  - intros i j Hi Hj. apply E1; auto. apply case1. lia.
  - intros i j Hi Hj. pose proof (case0 ltac:(lia)) as H0. rewrite (d0_eq H0) in *. now apply E0.
Qed.
End Step.
