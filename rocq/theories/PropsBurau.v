(** PropsBurau.v – C115: the representation with r = 1 is the reduced Burau
    representation, for every number of strands. *)
From Verif Require Import Base ModelPoly SpecPoly PolyTheory PolyDiv EvalTheory PropsPoly ModelTL SpecTL TLTheory TLAlg TLAlg2 TLBasis TLCells TLRel PropsTL ModelMatrix SpecMatrix MatrixTheory PropsMatrix ModelTLMor TLMorTheory TLGens TLFlip PropsTLMor PropsTLMor2 JonesTheory TLTrace PropsTLMor3 MarkovTheory PropsTLMor4 TLCup TLBurau.
From Verif Require Import ModelPerm PermTheory WeakOrder SpecPerm ModelBraid SpecBraid BraidTheory ModelRep SpecRep NumTheory RepTheory RepCanon PropsRep ModelPolymat SpecPolymat PolymatTheory PropsPolymat PropsPolymat2 PropsPolymat3.
From Coq Require Import Ring Setoid Morphisms.
Local Open Scope nat_scope.

(** entry (i, j) of the matrix of generator k (sg = 1) or of its inverse (sg = -1):
    row k holds -v^sg, -v^(2 sg), -v^sg around the diagonal, the other rows are those of
    the identity *)
Definition burau_entry (sg : Z) (k i j : nat) : lpoly :=
  if i =? k then (if j =? k then mkL (2 * sg) [(-1)%Z] else if (j =? k + 1) || (j + 1 =? k) then mkL sg [(-1)%Z] else mkL 0 [])
  else if i =? j then mkL 0 [1%Z] else mkL 0 [].
Definition burau_matrix (sg : Z) (n k : nat) : mat lpoly :=
  mkM (n - 1) (n - 1) (flat_map (fun i => map (burau_entry sg k i) (seq 0 (n - 1))) (seq 0 (n - 1))).

Lemma flat_table {A} (f : nat -> nat -> A) a c dflt : length (flat_map (fun i => map (f i) (seq 0 c)) (seq 0 a)) = a * c /\
  forall i j, i < a -> j < c -> nth (c * i + j) (flat_map (fun i => map (f i) (seq 0 c)) (seq 0 a)) dflt = f i j.
Proof.
  assert (K : forall b, length (flat_map (fun i => map (f i) (seq 0 c)) (seq b a)) = a * c /\ forall i j, i < a -> j < c -> nth (c * i + j) (flat_map (fun i => map (f i) (seq 0 c)) (seq b a)) dflt = f (b + i) j).
  { induction a as [|a IH]; intros b; [split; [reflexivity|intros; lia]|]. cbn [seq flat_map]. destruct (IH (S b)) as [L N]. split; [rewrite app_length, map_length, seq_length, L; lia|]. intros i j Hi Hj. destruct i as [|i].
    - rewrite app_nth1 by (rewrite map_length, seq_length; lia). rewrite (nth_indep _ _ (f b 0)) by (rewrite map_length, seq_length; lia). replace (c * 0 + j) with j by lia. rewrite (map_nth (f b)). rewrite seq_nth by lia. f_equal; lia.
    - rewrite app_nth2 by (rewrite map_length, seq_length; nia). rewrite map_length, seq_length. replace (c * S i + j - c) with (c * i + j) by nia. rewrite N by lia. f_equal. lia. }
  destruct (K 0) as [L N]. split; [exact L|exact N].
Qed.
Lemma burau_lsq sg n k : lsq (n - 1) (burau_matrix sg n k).
Proof. split; [|split; reflexivity]. unfold mwf. cbn [burau_matrix mrows mcols mdata]. apply (flat_table (burau_entry sg k) (n - 1) (n - 1) (lint 0)). Qed.
Lemma burau_ent sg n k i j : i < n - 1 -> j < n - 1 -> ent (lint 0) (burau_matrix sg n k) i j = burau_entry sg k i j.
Proof. intros Hi Hj. unfold ent, entry. cbn [burau_matrix mcols mdata]. rewrite <- (proj2 (flat_table (burau_entry sg k) (n - 1) (n - 1) (lint 0)) i j Hi Hj). reflexivity. Qed.
Lemma burau_canon sg k i j : lcanon (burau_entry sg k i j).
Proof.
  unfold burau_entry. destruct (i =? k), (j =? k), ((j =? k + 1) || (j + 1 =? k)), (i =? j); split; cbn [lcoeffs lval hd last]; intros Q; try reflexivity; try discriminate; try contradiction; split; discriminate.
Qed.

(** ** the action of one generator on the basis *)
Lemma ddelta_cup n i j : i < n - 1 -> j < n - 1 -> ddelta (cupD i n) (cupD j n) = if i =? j then lint 1 else lint 0.
Proof.
  intros Hi Hj. unfold ddelta. destruct (diag_eqb_spec (cupD i n) (cupD j n)) as [Q|Q], (Nat.eqb_spec i j) as [Q'|Q']; try reflexivity.
  - exfalso. destruct (Nat.lt_trichotomy i j) as [K|[K|K]]; [|contradiction|].
    + pose proof (cup_lex i j n K ltac:(lia)) as L. rewrite Q in L. exact (lex_lt_asym _ _ L L).
    + pose proof (cup_lex j i n K ltac:(lia)) as L. rewrite Q in L. exact (lex_lt_asym _ _ L L).
  - subst. contradiction.
Qed.
Lemma ddelta_out n i d : i < n - 1 -> ~ through_all (n - 2) (dseq d) -> ddelta (cupD i n) d = lint 0.
Proof. intros Hi H. unfold ddelta. destruct (diag_eqb_spec (cupD i n) d) as [Q|Q]; [|reflexivity]. exfalso. apply H. rewrite <- Q. apply cup_through. lia. Qed.
Definition csg (sg : Z) : lpoly := mkL sg [(-1)%Z].
Lemma one_step sg n k i j : sg = 1%Z \/ sg = (-1)%Z -> k + 1 < n -> i < n - 1 -> j < n - 1 ->
  leq (ladd (ddelta (cupD i n) (cupD j n)) (lmul (csg sg) (lmul (q2 (snd (dprod (de k n) (cupD j n)))) (ddelta (cupD i n) (fst (dprod (de k n) (cupD j n))))))) (burau_entry sg k i j).
Proof.
  intros Hs Hk Hi Hj. rewrite ddelta_cup by assumption. unfold burau_entry.
  assert (Z0 : forall x, leq (ladd x (lmul (csg sg) (lmul (q2 (snd (dprod (de k n) (cupD j n)))) (lint 0)))) x) by (intros x; ring).
  destruct (Nat.eqb_spec j k) as [->|N1].
  - rewrite cup_self by lia. cbn [fst snd]. rewrite ddelta_cup by lia. rewrite q2_1. destruct (Nat.eqb_spec i k) as [->|N]; [destruct Hs as [-> | ->]; reflexivity|destruct Hs as [-> | ->]; reflexivity].
  - destruct (Nat.eqb_spec j (k + 1)) as [->|N2].
    { rewrite cup_back by lia. cbn [fst snd orb]. rewrite ddelta_cup by lia. rewrite q2_0. destruct (Nat.eqb_spec i k) as [->|N].
      - destruct (Nat.eqb_spec k (k + 1)); [lia|]. destruct Hs as [-> | ->]; reflexivity.
      - destruct (i =? k + 1); destruct Hs as [-> | ->]; reflexivity. }
    destruct (Nat.eqb_spec (j + 1) k) as [E3|N3].
    { subst k. rewrite cup_move by lia. cbn [fst snd orb]. rewrite ddelta_cup by lia. rewrite q2_0. destruct (Nat.eqb_spec i (j + 1)) as [->|N].
      - destruct (Nat.eqb_spec (j + 1) j); [lia|]. destruct Hs as [-> | ->]; reflexivity.
      - destruct (i =? j); destruct Hs as [-> | ->]; reflexivity. }
    cbn [orb]. rewrite (ddelta_out n i); [|exact Hi|].
    + rewrite Z0. destruct (Nat.eqb_spec i k) as [->|N]; [destruct (Nat.eqb_spec k j); [lia|reflexivity]|destruct (i =? j); reflexivity].
    + destruct (Nat.lt_ge_cases j k); [apply cup_far_above; lia|apply cup_far_below; lia].
Qed.
Lemma lin_burau sg n k g : sg = 1%Z \/ sg = (-1)%Z -> 2 <= n -> k + 1 < n -> is_lin n (csg sg) k g -> cell_matrix g 1 = Ok (burau_matrix sg n k).
Proof.
  intros Hs Hn Hk [Sg Lg]. pose proof (cell_basis_1 n Hn) as EB. set (B := map (fun k => cupD k n) (seq 0 (n - 1))) in *. assert (LB : length B = n - 1) by (unfold B; now rewrite map_length, seq_length).
  assert (NB : forall i, i < n - 1 -> nth i B (did 0) = cupD i n) by (intros i Hi; unfold B; now rewrite nth_map_seq by lia).
  destruct (cell_matrix_ok n 1 ltac:(lia) B EB g Sg) as (A & EA & W & RA & CA & N). rewrite LB in *. rewrite EA. f_equal. destruct (burau_lsq sg n k) as (W' & R' & C').
  apply (mat_ext (lint 0)); [exact W|exact W'|congruence|congruence|]. intros i j Hi Hj. rewrite RA in Hi. rewrite CA in Hj. rewrite burau_ent by assumption. destruct (N i j Hi Hj) as (Cn & Q & _). apply canon_eq; [exact Cn|apply burau_canon|]. rewrite Q.
  unfold act. rewrite Lg. rewrite !NB by assumption. destruct (cup_typed j n ltac:(lia)) as (T1 & T2 & T3). rewrite <- (one_step sg n k i j Hs Hk Hi Hj).
  assert (EI : dprod (did n) (cupD j n) = (cupD j n, 0)) by (rewrite <- T2 at 1; now apply dprod_id_l). rewrite EI. cbn [fst snd]. rewrite q2_0. ring.
Qed.
(** cell_matrices(n, 1) is the list of the Burau matrices and of their inverses *)
Theorem burau_cells n : 2 <= n -> cell_matrices n 1 = Ok (map (burau_matrix 1 n) (seq 0 (n - 1)), map (burau_matrix (-1) n) (seq 0 (n - 1))).
Proof.
  intros Hn. destruct (C31_gens_invs n) as (gs & hs & E & L1 & L2 & _). unfold cell_matrices. rewrite E. cbn [bind].
  assert (K : forall sg l b, (forall i g, nth_error l i = Some g -> cell_matrix g 1 = Ok (burau_matrix sg n (b + i))) -> mapM (fun x => cell_matrix x 1) l = Ok (map (burau_matrix sg n) (seq b (length l)))).
  { intros sg l. induction l as [|x l IH]; intros b H; [reflexivity|]. cbn [mapM length seq map]. rewrite (H 0 x eq_refl). cbn [bind]. rewrite (IH (S b)); [cbn [bind]; now rewrite Nat.add_0_r|]. intros i g Hi. specialize (H (S i) g Hi). now replace (S b + i) with (b + S i) by lia. }
  rewrite (K 1%Z gs 0); [|intros i g Hi; destruct (gens_lin n gs hs i g E Hi) as [Hi' Lg]; apply lin_burau; auto]. cbn [bind].
  rewrite (K (-1)%Z hs 0); [|intros i g Hi; destruct (invs_lin n gs hs i g E Hi) as [Hi' Lg]; apply lin_burau; auto]. cbn [bind]. now rewrite L1, L2.
Qed.
