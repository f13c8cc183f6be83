(** JonesTheory.v – cell_matrix is a homomorphism from TL(n, n) to matrices. *)
From Verif Require Import Base ModelPoly SpecPoly PolyTheory PolyDiv EvalTheory PropsPoly ModelTL SpecTL TLTheory TLAlg TLAlg2 TLBasis TLCells TLRel PropsTL ModelMatrix SpecMatrix MatrixTheory PropsMatrix ModelTLMor TLMorTheory TLGens PropsTLMor.
From Coq Require Import Ring Setoid Morphisms.
Local Open Scope nat_scope.

Lemma nth_firstn_lt {A} (l : list A) k i d : i < k -> nth i (firstn k l) d = nth i l d.
Proof. revert k i. induction l as [|x l IH]; intros [|k] [|i] H; cbn; auto; try lia. apply IH. lia. Qed.
Lemma nth_skipn_add {A} (l : list A) k i d : nth i (skipn k l) d = nth (k + i) l d.
Proof. revert k. induction l as [|x l IH]; intros [|k]; cbn [skipn Nat.add nth]; auto. now destruct i. Qed.
Lemma from_rows_ent {R} (O : R) (f : nat -> nat -> R) a c : 0 < a -> exists m, mat_from_rows (map (fun i => map (f i) (seq 0 c)) (seq 0 a)) = Ok m /\ mwf m /\ mrows m = a /\ mcols m = c /\
  forall i j, i < a -> j < c -> ent O m i j = f i j.
Proof.
  intros Ha. set (rows := map (fun i => map (f i) (seq 0 c)) (seq 0 a)). assert (L : length rows = a) by (unfold rows; now rewrite map_length, seq_length).
  assert (F : Forall (fun r => length r = c) rows). { apply Forall_forall. intros r Hr. unfold rows in Hr. apply in_map_iff in Hr. destruct Hr as [i [<- _]]. now rewrite map_length, seq_length. }
  destruct (C82_from_rows rows c) as [m [E [W [R1 [C1 R2]]]]]; [intros K; rewrite K in L; cbn in L; lia|exact F|]. apply is_matrix_wf in W. exists m. split; [exact E|]. split; [exact W|]. split; [congruence|]. split; [exact C1|].
  intros i j Hi Hj. unfold ent, entry. rewrite C1. assert (Q : nth j (nth i (mat_rows m) []) O = f i j).
  { rewrite R2. unfold rows. rewrite nth_map_seq by lia. rewrite nth_map_seq by lia. reflexivity. }
  rewrite <- Q. unfold mat_rows. rewrite nth_map_seq by lia. rewrite C1. rewrite nth_firstn_lt by lia. rewrite nth_skipn_add. f_equal; lia.
Qed.

(** cups at the bottom of the lower diagram survive *)
Lemma dprod_through u l m : diagram u -> diagram l -> dbot u = dtop l -> dbot l = m -> through_all m (dseq (fst (dprod u l))) -> through_all m (dseq l).
Proof.
  intros [Cu Lu] [Cl Ll] E <- T i Hi. destruct (Nat.le_gt_cases (dbot l) (nth i (dseq l) 0)) as [K|K]; [exact K|exfalso].
  set (j := nth i (dseq l) 0) in *. destruct (C29_compose (dseq u) (dseq l) (dbot u) Cu Cl ltac:(lia) ltac:(lia)) as [r [n [Er [Cr [Lr [J _]]]]]].
  assert (Hb : length (dseq l) - dbot u = dbot l) by lia. rewrite Hb in *.
  assert (P : nth i r 0 = j).
  { apply J; try lia; [unfold j; intros Q; apply (proj1 Cl i); lia|]. unfold outer. destruct (Nat.ltb_spec i (dbot l)); [|lia]. destruct (Nat.ltb_spec j (dbot l)); [|lia]. apply Relation_Operators.rst_step. apply arc_lower. lia. }
  unfold dprod in T. rewrite (tld_mul_ok u l r n) in T by (try split; auto). cbn [fst dseq] in T. specialize (T i Hi). lia.
Qed.

Lemma dimZ_pos n : forall r, 2 * r <= n -> (0 < dimZ n r)%Z.
Proof.
  induction n as [|n IH]; intros r H; [replace r with 0 by lia; rewrite dimZ_zero; lia|]. destruct r as [|r]; [rewrite dimZ_zero; lia|].
  rewrite dimZ_pascal by lia. replace (S r - 1) with r by lia. pose proof (IH r ltac:(lia)). destruct (Nat.eq_dec (S n) (2 * S r)) as [E|E]; [rewrite (dimZ_half n (S r)); lia|]. specialize (IH (S r) ltac:(lia)). lia.
Qed.
Lemma zip_star_map {A} (O : A) (C : nat -> nat -> A) d : 0 < d -> zip_star O (map (fun j => map (fun i => C i j) (seq 0 d)) (seq 0 d)) = map (fun i => map (C i) (seq 0 d)) (seq 0 d).
Proof.
  intros Hd. assert (K : zip_star O (map (fun j => map (fun i => C i j) (seq 0 d)) (seq 0 d)) = map (fun i => map (fun col => nth i col O) (map (fun j => map (fun i => C i j) (seq 0 d)) (seq 0 d))) (seq 0 d)).
  { destruct d as [|d']; [lia|]. unfold zip_star. cbn [seq map]. cbn [length]. now rewrite map_length, seq_length. }
  rewrite K. apply map_ext_in. intros i Hi. apply in_seq in Hi. rewrite map_map. apply map_ext_in. intros j Hj. now rewrite nth_map_seq by lia.
Qed.
Section Cell.
Variables (n r : nat).
Hypothesis (Hr : 2 * r <= n).
Variable B : list diag.
Hypothesis (EB : cell_basis n r = Ok B).
Let m := n - 2 * r.
Let d := length B.
Let b i := nth i B (did 0).
Lemma B_spec x : In x B <-> typed n m x /\ through_all m (dseq x).
Proof using Hr EB.
  destruct (C32_cell_basis n r Hr) as [l [E [I _]]]. rewrite EB in E. injection E as <-. rewrite I. unfold typed. tauto.
Qed.
Lemma B_nodup : NoDup B. Proof using Hr EB. destruct (C32_cell_basis n r Hr) as [l [E [_ [_ [N _]]]]]. rewrite EB in E. now injection E as <-. Qed.
Lemma B_dim : cell_dimension n r = Ok (Z.of_nat d). Proof using Hr EB. destruct (C32_cell_basis n r Hr) as [l [E [_ [_ [_ N]]]]]. rewrite EB in E. now injection E as <-. Qed.
Lemma b_in i : i < d -> In (b i) B. Proof. intros H. now apply nth_In. Qed.
Lemma b_inj i j : i < d -> j < d -> b i = b j -> i = j. Proof using Hr EB. apply NoDup_nth. apply B_nodup. Qed.
Lemma b_typed i : i < d -> typed n m (b i). Proof using Hr EB. intros H. now apply B_spec, b_in. Qed.
Lemma b_strands i : i < d -> through_strands (b i) = m.
Proof using Hr EB. intros H. apply b_in, B_spec in H. destruct H as [[D [T Bt]] H]. rewrite <- Bt. apply C32_through_strands; [exact D|]. now rewrite Bt. Qed.
(** the coefficient of b_i in x b_l *)
Definition act (x : terms) (i : nat) (l : diag) : lpoly := msum x (fun u => lmul (q2 (snd (dprod u l))) (ddelta (b i) (fst (dprod u l)))).
Lemma mul_diag_ok x l : sqm n x -> typed n m l -> exists p, mor_mul_diag x l = Ok p /\ wf p /\ motop p = n /\ mobot p = m /\ forall F, leq (msum (moterms p) F) (msum (moterms x) (fun u => lmul (q2 (snd (dprod u l))) (F (fst (dprod u l))))).
Proof using Type.
  intros [Wx [Tx Bx]] [Dl [Tl Bl]]. unfold mor_mul_diag. destruct (mor_of_diag_ok l Dl) as [y [Ey [Wy [Ty [By Sy]]]]]. unfold mor_of_diag in Ey. rewrite Ey. cbn [bind].
  destruct (mor_mul_ok x y Wx Wy ltac:(congruence)) as [p [Ep [Wp [Tp [Bp Sp]]]]]. exists p. split; [exact Ep|]. split; [exact Wp|]. split; [congruence|]. split; [congruence|].
  intros F. rewrite Sp. unfold bil. apply msum_ext. intros u _. now rewrite Sy.
Qed.
Lemma cell_matrix_ok x : sqm n x -> exists A, cell_matrix x r = Ok A /\ mwf A /\ mrows A = d /\ mcols A = d /\
  (forall i j, i < d -> j < d -> lcanon (ent (lint 0) A i j) /\ leq (ent (lint 0) A i j) (act (moterms x) i (b j)) /\ exists p, mor_mul_diag x (b j) = Ok p /\ has_coef p (b i) (ent (lint 0) A i j)).
Proof using Hr EB.
  intros Sx. pose proof Sx as [Wx [Tx Bx]]. unfold cell_matrix. rewrite Tx, Bx, Nat.eqb_refl. cbn [assert_ bind]. rewrite EB. cbn [bind]. fold m.
  assert (Hp : exists P : nat -> mor, forall j, j < d -> mor_mul_diag x (b j) = Ok (P j) /\ wf (P j) /\ motop (P j) = n /\ mobot (P j) = m /\ forall F, leq (msum (moterms (P j)) F) (msum (moterms x) (fun u => lmul (q2 (snd (dprod u (b j)))) (F (fst (dprod u (b j))))))).
  { exists (fun j => match mor_mul_diag x (b j) with Ok p => p | Err _ => x end). intros j Hj. destruct (mul_diag_ok x (b j) Sx (b_typed j Hj)) as [p [E K]]. rewrite E. auto. }
  destruct Hp as [P HP].
  assert (EBs : B = map b (seq 0 d)). { unfold b, d. clear. induction B as [|x l IH]; [reflexivity|]. cbn [length seq map nth]. f_equal. rewrite <- seq_shift, map_map. exact IH. }
  assert (M1 : mapM (fun b => mor_mul_diag x b) B = Ok (map P (seq 0 d))).
  { rewrite EBs at 1. clear - HP. assert (K : forall l, (forall j, In j l -> j < d) -> mapM (fun b => mor_mul_diag x b) (map b l) = Ok (map P l)).
    { induction l as [|j l IH]; intros H; [reflexivity|]. cbn [map mapM]. rewrite (proj1 (HP j (H j (or_introl eq_refl)))). cbn [bind]. rewrite IH by (intros; apply H; now right). reflexivity. }
    apply K. intros j Hj. apply in_seq in Hj. lia. }
  rewrite M1. cbn [bind].
  set (C := fun i j => match mor_coefficient (P j) (b i) with Ok c => c | Err _ => lint 0 end).
  assert (HC : forall i j, i < d -> j < d -> has_coef (P j) (b i) (C i j) /\ lcanon (C i j) /\ leq (C i j) (act (moterms x) i (b j))).
  { intros i j Hi Hj. destruct (HP j Hj) as [_ [Wp [Tp [Bp Sp]]]]. assert (Tb : of_type (motop (P j)) (mobot (P j)) (b i)) by (rewrite Tp, Bp; exact (b_typed i Hi)). destruct (coef_sum (P j) (b i) Wp Tb) as [c [Hc [Cc Ec]]].
    unfold C. unfold has_coef in Hc |- *. rewrite Hc. split; [reflexivity|]. split; [exact Cc|]. rewrite Ec. apply Sp. }
  assert (M2 : mapM (fun prod => q <- mor_quotient prod m ;; mapM (fun b => mor_coefficient q b) B) (map P (seq 0 d)) = Ok (map (fun j => map (fun i => C i j) (seq 0 d)) (seq 0 d))).
  { assert (K : forall l, (forall j, In j l -> j < d) -> mapM (fun prod => q <- mor_quotient prod m ;; mapM (fun b => mor_coefficient q b) B) (map P l) = Ok (map (fun j => map (fun i => C i j) (seq 0 d)) l)).
    { induction l as [|j l IH]; intros H; [reflexivity|]. cbn [map mapM]. pose proof (H j (or_introl eq_refl)) as Hj. destruct (HP j Hj) as [_ [Wp [Tp [Bp Sp]]]].
      destruct (C36_quotient (P j) m (proj2 (morphism_wf _) Wp)) as [q [Eq [_ [Tq [Bq Hq]]]]]. rewrite Eq. cbn [bind].
      assert (K2 : forall l2, (forall i, In i l2 -> i < d) -> mapM (fun b => mor_coefficient q b) (map b l2) = Ok (map (fun i => C i j) l2)).
      { induction l2 as [|i l2 IH2]; intros H2; [reflexivity|]. cbn [map mapM]. pose proof (H2 i (or_introl eq_refl)) as Hi. destruct (HC i j Hi Hj) as [Hc _].
        assert (Tb : of_type (motop (P j)) (mobot (P j)) (b i)) by (rewrite Tp, Bp; exact (b_typed i Hi)). specialize (Hq _ _ Tb Hc). rewrite (b_strands i Hi), Nat.leb_refl in Hq. unfold has_coef in Hq. rewrite Hq. cbn [bind].
        rewrite IH2 by (intros; apply H2; now right). reflexivity. }
      rewrite EBs at 1. rewrite K2 by (intros i Hi; apply in_seq in Hi; lia). cbn [bind]. rewrite IH by (intros; apply H; now right). reflexivity. }
    apply K. intros j Hj. apply in_seq in Hj. lia. }
  rewrite M2. cbn [bind].
  assert (Hd : 0 < d). { pose proof B_dim as K. rewrite cell_dimension_eq in K. destruct (Nat.leb_spec (2 * r) n); [|lia]. injection K as K. pose proof (dimZ_pos n r Hr). lia. }
  pose proof (zip_star_map L0 C d Hd) as ZS.
  rewrite ZS. destruct (from_rows_ent (lint 0) C d d Hd) as [A [EA [WA [RA [CA NA]]]]]. exists A. split; [exact EA|]. split; [exact WA|]. split; [exact RA|]. split; [exact CA|].
  intros i j Hi Hj. rewrite (NA i j Hi Hj). destruct (HC i j Hi Hj) as [X [Y Z]]. split; [exact Y|]. split; [exact Z|]. exists (P j). split; [apply (HP j Hj)|exact X].
Qed.
Lemma cell_pos : 0 < d.
Proof using Hr EB. pose proof B_dim as K. rewrite cell_dimension_eq in K. destruct (Nat.leb_spec (2 * r) n); [|lia]. injection K as K. pose proof (dimZ_pos n r Hr). lia. Qed.
Local Notation rsum := (rsum (lint 0) ladd).
(** act on a diagram l that is not in the basis is zero *)
Lemma act_out x i l : sqm n x -> i < d -> typed n m l -> leq (act (moterms x) i l) (rsum d (fun k => lmul (act (moterms x) i (b k)) (ddelta (b k) l))).
Proof using Hr EB.
  intros Sx Hi Tl. destruct (in_dec (fun a c => ltac:(destruct (diag_eqb_spec a c); [now left|now right])) l B) as [Hl|Hl].
  - apply (In_nth _ _ (did 0)) in Hl. destruct Hl as [k [Hk <-]]. fold (b k).
    rewrite (rsum_ext (lint 0) ladd lmul lneg leq _ lring_ext d (fun k0 => lmul (act (moterms x) i (b k0)) (ddelta (b k0) (b k))) (fun k0 => lmul (if k =? k0 then lint 1 else lint 0) (act (moterms x) i (b k0)))).
    + symmetry. apply (rsum_delta (lint 0) (lint 1) ladd lmul lsub lneg leq _ lring_ext lring d k (fun k0 => act (moterms x) i (b k0)) Hk).
    + intros k0 Hk0. unfold ddelta. destruct (diag_eqb_spec (b k0) (b k)) as [E|E], (Nat.eqb_spec k k0) as [->|E']; try ring; [|congruence]. exfalso. apply E'. symmetry. now apply b_inj.
  - rewrite (rsum_zero (lint 0) (lint 1) ladd lmul lsub lneg leq _ lring_ext lring d).
    + unfold act. rewrite <- (msum_zero (moterms x)). apply msum_ext. intros u Hu. unfold ddelta. destruct (diag_eqb_spec (b i) (fst (dprod (fst u) l))) as [E|E]; [|ring].
      exfalso. apply Hl. apply B_spec. split; [exact Tl|]. destruct Sx as [Wx [Tx Bx]]. destruct (id_typed _ _ _ (wf_dict _ Wx) _ Hu) as [Du [Tu Bu]]. destruct Tl as [Dl [T1 T2]].
      apply (dprod_through (fst u) l m); auto; [congruence|]. rewrite <- E. apply B_spec. now apply b_in.
    + intros k Hk. unfold ddelta. destruct (diag_eqb_spec (b k) l) as [<-|]; [|ring]. exfalso. apply Hl. now apply b_in.
Qed.
Lemma act_mul x y xy i j : sqm n x -> sqm n y -> mor_mul x y = Ok xy -> i < d -> j < d ->
  leq (act (moterms xy) i (b j)) (rsum d (fun k => lmul (act (moterms x) i (b k)) (act (moterms y) k (b j)))).
Proof using Hr EB.
  intros Sx Sy E Hi Hj. destruct (sqm_mul n x y Sx Sy) as [? [E' [Sxy F]]]. rewrite E in E'. injection E' as <-.
  pose proof Sx as [Wx [Tx Bx]]. pose proof Sy as [Wy [Ty By]]. pose proof (b_typed j Hj) as [Dj [Tj Bj]].
  transitivity (msum (moterms y) (fun w => lmul (q2 (snd (dprod w (b j)))) (act (moterms x) i (fst (dprod w (b j)))))).
  - unfold act at 1. rewrite F. unfold bil. rewrite msum_swap. apply msum_ext. intros w Hw. unfold act. rewrite <- msum_scale. apply msum_ext. intros u Hu.
    destruct (id_typed _ _ _ (wf_dict _ Wx) _ Hu) as [Du [Tu Bu]]. destruct (id_typed _ _ _ (wf_dict _ Wy) _ Hw) as [Dw [Tw Bw]]. rewrite assocF by (auto; congruence). reflexivity.
  - transitivity (msum (moterms y) (fun w => rsum d (fun k => lmul (act (moterms x) i (b k)) (lmul (q2 (snd (dprod w (b j)))) (ddelta (b k) (fst (dprod w (b j)))))))).
    + apply msum_ext. intros w Hw. destruct (id_typed _ _ _ (wf_dict _ Wy) _ Hw) as [Dw [Tw Bw]].
      rewrite (act_out x i) by (auto; pose proof (proj2 (dprod_ok (fst w) (b j) Dw Dj ltac:(congruence))) as K; rewrite Tw, Ty, Bj in K; exact K).
      rewrite (rsum_mull (lint 0) (lint 1) ladd lmul lsub lneg leq _ lring_ext lring). apply (rsum_ext (lint 0) ladd lmul lneg leq _ lring_ext). intros k _. ring.
    + generalize d. intros e. induction e as [|e IH]; cbn [SpecMatrix.rsum]; [apply msum_zero|]. rewrite msum_add, IH, msum_scale. reflexivity.
Qed.
Lemma cell_matrix_mul x y xy X Y XY : sqm n x -> sqm n y -> mor_mul x y = Ok xy -> cell_matrix x r = Ok X -> cell_matrix y r = Ok Y -> cell_matrix xy r = Ok XY ->
  mat_mul (lint 0) ladd lmul X Y = Ok XY.
Proof using Hr EB.
  intros Sx Sy E EX EY EXY. destruct (sqm_mul n x y Sx Sy) as [? [E' [Sxy F]]]. rewrite E in E'. injection E' as <-.
  destruct (cell_matrix_ok x Sx) as [? [K [WX [RX [CX NX]]]]]. rewrite EX in K. injection K as <-. destruct (cell_matrix_ok y Sy) as [? [K [WY [RY [CY NY]]]]]. rewrite EY in K. injection K as <-.
  destruct (cell_matrix_ok xy Sxy) as [? [K [WZ [RZ [CZ NZ]]]]]. rewrite EXY in K. injection K as <-.
  rewrite (mul_ok (lint 0) ladd lmul X Y) by congruence. f_equal. apply (mat_ext (lint 0)); auto using prod_wf; cbn [MatrixTheory.prod mrows mcols]; try congruence.
  intros i j Hi Hj. change (prod (lint 0) ladd lmul X Y) with (MatrixTheory.prod (lint 0) ladd lmul X Y). rewrite (prod_e (lint 0) ladd lmul X Y i j Hi Hj). rewrite RX in Hi. rewrite CY in Hj. destruct (NZ i j Hi Hj) as [Cz [Ez _]]. apply canon_eq.
  - rewrite CX. destruct d; [apply canon_int|apply canon_add].
  - exact Cz.
  - rewrite Ez, (act_mul x y xy i j Sx Sy E Hi Hj), CX. apply (rsum_ext (lint 0) ladd lmul lneg leq _ lring_ext). intros k Hk. destruct (NX i k Hi Hk) as [_ [A _]], (NY k j Hk Hj) as [_ [A' _]]. now rewrite A, A'.
Qed.
Lemma cell_matrix_id e E : mor_id n = Ok e -> cell_matrix e r = Ok E -> mwf E /\ mrows E = d /\ mcols E = d /\ forall i j, i < d -> j < d -> ent (lint 0) E i j = if i =? j then lint 1 else lint 0.
Proof using Hr EB.
  intros Ee EE. destruct (sqm_id n) as [? [K [Se Fe]]]. rewrite Ee in K. injection K as <-. destruct (cell_matrix_ok e Se) as [? [K [W [R [C N]]]]]. rewrite EE in K. injection K as <-.
  split; [exact W|]. split; [exact R|]. split; [exact C|]. intros i j Hi Hj. destruct (N i j Hi Hj) as [Ce [Ae _]]. apply canon_eq; [exact Ce|destruct (i =? j); apply canon_int|].
  rewrite Ae. unfold act. rewrite Fe. pose proof (b_typed j Hj) as [Dj [Tj Bj]]. rewrite <- Tj, (dprod_id_l (b j) Dj). cbn [fst snd]. rewrite q2_0. unfold ddelta.
  destruct (diag_eqb_spec (b i) (b j)) as [E'|E'], (Nat.eqb_spec i j) as [->|E'']; try ring; [|congruence]. exfalso. apply E''. now apply b_inj.
Qed.
End Cell.
