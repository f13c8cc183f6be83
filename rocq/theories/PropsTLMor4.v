(** PropsTLMor4.v – C93: the trace of TLMor is the sum of the matrix traces on
    the cell modules, weighted by TLCell.trace_scalar.  C94: the cells of
    JonesRep. *)
From Verif Require Import Base ModelPoly SpecPoly PolyTheory PolyDiv EvalTheory PropsPoly ModelTL SpecTL TLTheory TLAlg TLAlg2 TLBasis TLCells TLRel PropsTL ModelMatrix SpecMatrix MatrixTheory PropsMatrix ModelTLMor TLMorTheory TLGens PropsTLMor JonesTheory TLTrace PropsTLMor3 MarkovTheory.
From Coq Require Import Ring Setoid Morphisms Permutation Relations.
Local Open Scope nat_scope.

Lemma dsum_nth (l : list diag) (F : diag -> lpoly) z : leq (dsum l F) (rsum (lint 0) ladd (length l) (fun i => F (nth i l z))).
Proof.
  induction l as [|x l IH] using rev_ind; [reflexivity|]. rewrite dsum_app, app_length. cbn [length]. rewrite Nat.add_1_r. cbn [rsum]. rewrite IH.
  rewrite app_nth2, Nat.sub_diag by lia. cbn [nth]. unfold dsum. cbn [map]. rewrite lsum_cons. change (lsum []) with (lint 0).
  rewrite (rsum_ext (lint 0) ladd lmul lneg leq leq_equiv lring_ext (length l) (fun i => F (nth i (l ++ [x]) z)) (fun i => F (nth i l z))); [ring|].
  intros k Hk. now rewrite app_nth1.
Qed.
Lemma msum_dsum {A} t (l : list A) (F : A -> diag -> lpoly) : leq (dsum l (fun a => msum t (F a))) (msum t (fun d => dsum l (fun a => F a d))).
Proof.
  induction t as [|x t IH]; cbn [msum]; [apply dsum_zero|]. rewrite <- IH, <- dsum_scale, <- dsum_add. reflexivity.
Qed.
Lemma cell_trace n r m : 2 * r <= n -> sqm n m -> exists A t, project_leftmult_matrix n r m = Ok A /\ mat_trace (lint 0) ladd A = Ok t /\ leq t (msum (moterms m) (fun d => ctr n r d)).
Proof.
  intros Hr Sm. pose proof Sm as [Wm [Tm Bm]]. destruct (C32_cell_basis n r Hr) as [B [EB _]].
  destruct (C90_leftmult_matrix n r m B Hr (proj2 (morphism_wf m) Wm) Tm Bm EB) as [A [EA [_ [_ [_ EC]]]]].
  destruct (cell_matrix_ok n r Hr B EB m Sm) as [A' [EA' [WA [RA [CA HA]]]]]. rewrite EC in EA'. injection EA' as <-. exists A.
  pose proof (C83_trace (lint 0) ladd A (proj2 (is_matrix_wf A) WA)) as K. rewrite RA, CA, Nat.eqb_refl in K.
  eexists. split; [exact EA|]. split; [exact K|].
  assert (EW : Wb n r = B) by (unfold Wb; now rewrite EB).
  transitivity (dsum B (fun l => msum (moterms m) (fun u => ract u l l))).
  - rewrite (dsum_nth B _ (did 0)). apply (rsum_ext (lint 0) ladd lmul lneg leq leq_equiv lring_ext). intros i Hi. destruct (HA i i Hi Hi) as [_ [Q _]]. unfold ent in Q. rewrite CA in Q. rewrite Q. reflexivity.
  - rewrite msum_dsum. unfold ctr. rewrite EW. reflexivity.
Qed.
(** trace(m) = sum over r = 0 .. n // 2 of TLCell(n, r).trace_scalar() times the
    matrix trace of TLCell(n, r).project_leftmult_matrix(m) *)
Theorem C93_markov_trace n m : morphism m -> motop m = n -> mobot m = n -> exists tr : nat -> lpoly,
  (forall r, 2 * r <= n -> exists A, project_leftmult_matrix n r m = Ok A /\ mat_trace (lint 0) ladd A = Ok (tr r)) /\
  mor_trace m = Ok (lsum (map (fun r => lmul (trace_scalar n r) (tr r)) (seq 0 (n / 2 + 1)))).
Proof.
  intros Hm Tm Bm. apply morphism_wf in Hm. assert (Sm : sqm n m) by (split; auto).
  assert (Kr : forall r, exists t, 2 * r <= n -> exists A, project_leftmult_matrix n r m = Ok A /\ mat_trace (lint 0) ladd A = Ok t /\ leq t (msum (moterms m) (fun d => ctr n r d))).
  { intros r. destruct (Nat.le_gt_cases (2 * r) n) as [H|H]; [|exists (lint 0); intros; lia]. destruct (cell_trace n r m H Sm) as [A [t K]]. exists t. intros _. exists A. exact K. }
  set (tr := fun r => match project_leftmult_matrix n r m with Ok A => match mat_trace (lint 0) ladd A with Ok t => t | Err _ => lint 0 end | Err _ => lint 0 end).
  assert (Ht : forall r, 2 * r <= n -> (exists A, project_leftmult_matrix n r m = Ok A /\ mat_trace (lint 0) ladd A = Ok (tr r)) /\ leq (tr r) (msum (moterms m) (fun d => ctr n r d))).
  { intros r H. destruct (cell_trace n r m H Sm) as [A [t [E1 [E2 E3]]]]. unfold tr. rewrite E1, E2. split; [exists A; auto|exact E3]. }
  exists tr. split; [intros r H; now apply Ht|].
  destruct (mor_trace_ok m Hm) as [t [E [C Et]]]. rewrite E. f_equal. apply canon_eq; [exact C|apply canon_lsum|]. rewrite Et.
  fold (dsum (seq 0 (n / 2 + 1)) (fun r => lmul (trace_scalar n r) (tr r))).
  rewrite (dsum_ext _ _ (fun r => msum (moterms m) (fun d => lmul (trace_scalar n r) (ctr n r d)))).
  - rewrite msum_dsum. apply msum_ext. intros x Hx. symmetry. apply tau_ok. pose proof (id_typed _ _ _ (wf_dict _ Hm) x Hx) as K. now rewrite Tm, Bm in K.
  - intros r Hr. apply in_seq in Hr. pose proof (Nat.div_mod n 2 ltac:(lia)). rewrite (proj2 (Ht r ltac:(lia))).
    clear. induction (moterms m) as [|x l IH]; cbn [msum]; [ring|]. rewrite <- IH. ring.
Qed.
(** trace_scalar is the quantum integer [n - 2r + 1], so that the weights add up
    to (v + v^-1)^n, the trace of the identity *)
Theorem C93_weights n : exists i, mor_id n = Ok i /\ mor_trace i = Ok (lprod (lpoly_make (-1) [1; 0; 1]%Z) n) /\
  leq (lsum (map (fun r => lmul (trace_scalar n r) (lint (match cell_dimension n r with Ok d => d | Err _ => 0 end))) (seq 0 (n / 2 + 1)))) (lprod (lpoly_make (-1) [1; 0; 1]%Z) n).
Proof.
  destruct (mor_of_diag_ok (did n)) as [i [Ei [Wi [_ [_ Si]]]]]; [split; [apply crossingless_id|cbn [did dseq dtop dbot]; rewrite id_seq_length; lia]|]. exists i.
  assert (E : mor_id n = Ok i). { unfold mor_id. rewrite tld_id_ok. cbn [bind]. exact Ei. }
  split; [exact E|]. destruct (mor_trace_ok i Wi) as [t [Et [Ct St]]]. split.
  - rewrite Et. f_equal. apply canon_eq; [exact Ct| |].
    + destruct n as [|n]; apply canon_make.
    + rewrite St, Si. cbn [did dseq]. rewrite tcount_id. unfold q2. rewrite <- lprod_lpn. reflexivity.
  - rewrite lprod_lpn. change (lpn (lpoly_make (-1) [1; 0; 1]%Z) n) with (q2 n). rewrite <- binsum_ok. unfold binsum. fold (dsum (seq 0 (n / 2 + 1)) (fun r => lmul (trace_scalar n r) (lint (match cell_dimension n r with Ok d => d | Err _ => 0 end)))).
    apply dsum_ext. intros r Hr. apply in_seq in Hr. pose proof (Nat.div_mod n 2 ltac:(lia)). rewrite cell_dimension_eq. destruct (Nat.leb_spec (2 * r) n); [reflexivity|lia].
Qed.
Example C93_nontrivial : exists x A t, mor_e 1 4 = Ok x /\ project_leftmult_matrix 4 2 x = Ok A /\ mat_trace (lint 0) ladd A = Ok t /\ t = lpoly_make (-1) [1; 0; 1]%Z.
Proof. do 3 eexists. split; [vm_compute; reflexivity|]. split; [vm_compute; reflexivity|]. split; vm_compute; reflexivity. Qed.

(** ** C94: JonesRep(n) *)
(** JonesRep(n).cells is TLCell(n, 0), ..., TLCell(n, n // 2 - 1); the
    constructor never fails *)
Theorem C94_cells n : jonesrep_cells n = Ok (map (fun r => (n, r)) (seq 0 (n / 2))).
Proof.
  unfold jonesrep_cells. pose proof (Nat.div_mod n 2 ltac:(lia)) as D.
  assert (K : forall l, (forall r, In r l -> r < n / 2) -> mapM (fun r => _ <- assert_ (cell_ok n r) ;; Ok (n, r)) l = Ok (map (fun r => (n, r)) l)).
  { induction l as [|r l IH]; intros H; [reflexivity|]. cbn [mapM map]. unfold cell_ok at 1. pose proof (H r (or_introl eq_refl)). destruct (Nat.leb_spec (2 * r) n); [|lia]. cbn [assert_ bind].
    rewrite IH by (intros; apply H; now right). reflexivity. }
  apply K. intros r Hr. apply in_seq in Hr. lia.
Qed.
(** "direct sum of all cell modules" is false for every n: the cell module
    TLCell(n, n // 2) exists, is not zero and is not in the list *)
Theorem C94_all_cells_refuted n : exists cells d, jonesrep_cells n = Ok cells /\ cell_ok n (n / 2) = true /\ cell_dimension n (n / 2) = Ok d /\ (0 < d)%Z /\ ~ In (n, n / 2) cells.
Proof.
  pose proof (Nat.div_mod n 2 ltac:(lia)) as D. exists (map (fun r => (n, r)) (seq 0 (n / 2))), (dimZ n (n / 2)). split; [apply C94_cells|].
  split; [apply Nat.leb_le; lia|]. split; [rewrite cell_dimension_eq; destruct (Nat.leb_spec (2 * (n / 2)) n); [reflexivity|lia]|]. split; [apply dimZ_pos; lia|].
  intros H. apply in_map_iff in H. destruct H as [r [E H]]. apply in_seq in H. assert (r = n / 2) by congruence. lia.
Qed.
(** it is the only one missing *)
Theorem C94_missing_one n r cells : jonesrep_cells n = Ok cells -> (2 * r <= n <-> In (n, r) cells \/ r = n / 2).
Proof.
  rewrite C94_cells. intros E0. assert (cells = map (fun r => (n, r)) (seq 0 (n / 2))) as -> by congruence. clear E0. pose proof (Nat.div_mod n 2 ltac:(lia)) as D. pose proof (Nat.mod_upper_bound n 2 ltac:(lia)). rewrite in_map_iff. split.
  - intros H0. destruct (Nat.eq_dec r (n / 2)); [now right|left]. exists r. split; [reflexivity|]. apply in_seq. lia.
  - intros [[x [E K]]|K]; [apply in_seq in K; assert (x = r) by congruence; lia|lia].
Qed.
Example C94_nontrivial : jonesrep_cells 4 = Ok [(4, 0); (4, 1)] /\ cell_dimension 4 2 = Ok 2%Z.
Proof. split; vm_compute; reflexivity. Qed.
