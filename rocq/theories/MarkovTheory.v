(** MarkovTheory.v – the trace of TLMor is the sum of the traces on the cell
    modules, weighted by quantum integers. *)
From Verif Require Import Base ModelPoly SpecPoly PolyTheory PolyDiv EvalTheory PropsPoly ModelTL SpecTL TLTheory TLAlg TLAlg2 TLBasis TLCells TLRel PropsTL ModelMatrix SpecMatrix MatrixTheory PropsMatrix ModelTLMor TLMorTheory TLGens PropsTLMor JonesTheory TLTrace PropsTLMor3.
From Coq Require Import Ring Setoid Morphisms Permutation Relations.
Local Open Scope nat_scope.
Local Arguments Nat.ltb : simpl never.
Local Arguments Nat.sub : simpl never.

(** ** finite sums over lists *)
Definition dsum {A} (l : list A) (F : A -> lpoly) : lpoly := lsum (map F l).
Lemma dsum_cons {A} (x : A) l F : dsum (x :: l) F = ladd (F x) (dsum l F). Proof. reflexivity. Qed.
Lemma dsum_ext {A} (l : list A) F G : (forall x, In x l -> leq (F x) (G x)) -> leq (dsum l F) (dsum l G).
Proof. induction l as [|x l IH]; intros H; [reflexivity|]. rewrite !dsum_cons, (H x) by now left. rewrite IH by (intros; apply H; now right). reflexivity. Qed.
Lemma dsum_zero {A} (l : list A) : leq (dsum l (fun _ => lint 0)) (lint 0).
Proof. induction l as [|x l IH]; [reflexivity|]. rewrite dsum_cons, IH. ring. Qed.
Lemma dsum_add {A} (l : list A) F G : leq (dsum l (fun x => ladd (F x) (G x))) (ladd (dsum l F) (dsum l G)).
Proof. induction l as [|x l IH]; [unfold dsum; cbn [map]; change (lsum []) with (lint 0); ring|]. rewrite !dsum_cons, IH. ring. Qed.
Lemma dsum_scale {A} (l : list A) c F : leq (dsum l (fun x => lmul c (F x))) (lmul c (dsum l F)).
Proof. induction l as [|x l IH]; [unfold dsum; cbn [map]; change (lsum []) with (lint 0); ring|]. rewrite !dsum_cons, IH. ring. Qed.
Lemma dsum_swap {A B} (l : list A) (k : list B) F : leq (dsum l (fun x => dsum k (fun y => F x y))) (dsum k (fun y => dsum l (fun x => F x y))).
Proof. induction l as [|x l IH]; [symmetry; apply dsum_zero|]. rewrite dsum_cons, IH, <- dsum_add. apply dsum_ext. intros y _. rewrite dsum_cons. reflexivity. Qed.
Lemma dsum_one (l : list diag) d F : NoDup l -> leq (dsum l (fun x => if diag_eqb d x then F x else lint 0)) (if in_dec (fun a c => ltac:(destruct (diag_eqb_spec a c); [now left|now right])) d l then F d else lint 0).
Proof.
  intros N. destruct (in_dec _ d l) as [I|I].
  - induction l as [|x l IH]; [destruct I|]. inversion N; subst. rewrite dsum_cons. destruct (diag_eqb_spec d x) as [<-|Ne].
    + rewrite (dsum_ext l _ (fun _ => lint 0)), dsum_zero; [ring|]. intros y Hy. destruct (diag_eqb_spec d y) as [<-|]; [contradiction|reflexivity].
    + destruct I as [I|I]; [congruence|]. rewrite IH by auto. ring.
  - rewrite (dsum_ext l _ (fun _ => lint 0)), dsum_zero; [reflexivity|]. intros y Hy. destruct (diag_eqb_spec d y) as [<-|]; [contradiction|reflexivity].
Qed.
Lemma leq_canon p : exists q, lcanon q /\ leq p q.
Proof. exists (lmul (lint 1) p). split; [apply canon_make|ring]. Qed.
Lemma lmul_cancel c a b : is_lpoly c -> c <> lint 0 -> leq (lmul c a) (lmul c b) -> leq a b.
Proof.
  intros Hc Nc H. destruct (leq_canon a) as [a' [Ca Ea]], (leq_canon b) as [b' [Cb Eb]]. rewrite Ea, Eb in *.
  assert (E : lmul a' c = lmul b' c). { apply canon_eq; try apply canon_make. transitivity (lmul c a'); [ring|]. rewrite H. ring. }
  pose proof (C15_of_product a' c (canon_is_lpoly _ Ca) Hc Nc) as A. pose proof (C15_of_product b' c (canon_is_lpoly _ Cb) Hc Nc) as B. rewrite E in A. rewrite A in B. injection B as ->. reflexivity.
Qed.

(** ** the trace of a diagram on a cell module *)
Definition Wb (k r : nat) : list diag := match cell_basis k r with Ok B => B | Err _ => [] end.
Lemma Wb_spec k r : 2 * r <= k -> NoDup (Wb k r) /\ Z.of_nat (length (Wb k r)) = dimZ k r /\ forall x, In x (Wb k r) <-> typed k (k - 2 * r) x /\ through_all (k - 2 * r) (dseq x).
Proof.
  intros H. unfold Wb. destruct (C32_cell_basis k r H) as [B [-> [I [_ [N D]]]]]. split; [exact N|]. split.
  - rewrite cell_dimension_eq in D. destruct (Nat.leb_spec (2 * r) k); [|lia]. congruence.
  - intros x. rewrite I. unfold typed. tauto.
Qed.
(** entry (i, j) of the matrix of u *)
Definition ract (u i j : diag) : lpoly := lmul (q2 (snd (dprod u j))) (ddelta i (fst (dprod u j))).
Definition ctr (k r : nat) (d : diag) : lpoly := dsum (Wb k r) (fun l => ract d l l).
Lemma ract_mul u v a b c t r : typed a b u -> typed b c v -> t + 2 * r = b -> forall i j, typed c t j -> typed a t i -> through_all t (dseq i) ->
  leq (lmul (q2 (snd (dprod u v))) (ract (fst (dprod u v)) i j)) (dsum (Wb b r) (fun w => lmul (ract u i w) (ract v w j))).
Proof.
  intros [Du [Tu Bu]] [Dv [Tv Bv]] Hb i j [Dj [Tj Bj]] [Di [Ti Bi]] Ai. unfold ract at 1. rewrite (assocF u v j (ddelta i)) by (auto; congruence).
  destruct (dprod_ok v j Dv Dj ltac:(congruence)) as [_ [Dw [Tw Bw]]]. set (w := fst (dprod v j)) in *. set (k := snd (dprod v j)) in *.
  destruct (Wb_spec b r ltac:(lia)) as [N [_ I]]. replace (b - 2 * r) with t in I by lia.
  transitivity (lmul (q2 k) (dsum (Wb b r) (fun x => if diag_eqb w x then ract u i x else lint 0))).
  - apply lmul_proper; [reflexivity|]. rewrite (dsum_one (Wb b r) w (ract u i) N). destruct (in_dec _ w (Wb b r)) as [H|H]; [reflexivity|].
    unfold ddelta. destruct (diag_eqb_spec i (fst (dprod u w))) as [E|E]; [|ring]. exfalso. apply H. apply I. split; [split; [exact Dw|split; congruence]|].
    apply (dprod_through u w t); auto; try congruence; now rewrite <- E.
  - rewrite <- dsum_scale. apply dsum_ext. intros x _. unfold ract at 3. fold w k. unfold ddelta. destruct (diag_eqb_spec w x), (diag_eqb_spec x w); try congruence; ring.
Qed.
(** tr(u v) = tr(v u) on the cell modules with the same number of strands *)
Lemma ctr_cyclic u v a b r s t : typed a b u -> typed b a v -> t + 2 * r = a -> t + 2 * s = b ->
  leq (lmul (q2 (snd (dprod u v))) (ctr a r (fst (dprod u v)))) (lmul (q2 (snd (dprod v u))) (ctr b s (fst (dprod v u)))).
Proof.
  intros Hu Hv Ha Hb. unfold ctr. rewrite <- !dsum_scale.
  destruct (Wb_spec a r ltac:(lia)) as [_ [_ Ia]], (Wb_spec b s ltac:(lia)) as [_ [_ Ib]]. replace (a - 2 * r) with t in Ia by lia. replace (b - 2 * s) with t in Ib by lia.
  rewrite (dsum_ext (Wb a r) _ (fun l => dsum (Wb b s) (fun w => lmul (ract u l w) (ract v w l)))).
  - rewrite (dsum_ext (Wb b s) (fun x => lmul (q2 (snd (dprod v u))) _) (fun w => dsum (Wb a r) (fun l => lmul (ract v w l) (ract u l w)))).
    + rewrite dsum_swap. apply dsum_ext. intros w _. apply dsum_ext. intros l _. ring.
    + intros w Hw. apply Ib in Hw. apply (ract_mul v u b a b t r); tauto.
  - intros l Hl. apply Ia in Hl. apply (ract_mul u v a b a t s); tauto.
Qed.
(** on the cell module with the most strands everything that factors through
    fewer points is zero *)
Lemma through_le t k x : typed k t x -> through_all t (dseq x) -> t <= k.
Proof.
  intros [[C L] [T B]] A. assert (K : length (map (fun i => nth i (dseq x) 0) (seq 0 t)) <= length (seq t k)).
  { apply NoDup_incl_length.
    - assert (Q : forall m a, a + m <= t -> NoDup (map (fun i => nth i (dseq x) 0) (seq a m))).
      { induction m as [|m IH]; intros a H; cbn [seq map]; constructor; [|apply IH; lia]. intros I. apply in_map_iff in I. destruct I as [j [E I]]. apply in_seq in I.
        destruct (proj1 C a ltac:(lia)) as [_ [_ P1]]. destruct (proj1 C j ltac:(lia)) as [_ [_ P2]]. rewrite E in P2. lia. }
      apply Q. lia.
    - intros y Hy. apply in_map_iff in Hy. destruct Hy as [i [<- Hi]]. apply in_seq in Hi. apply in_seq. pose proof (A i ltac:(lia)). destruct (proj1 C i ltac:(lia)) as [P _]. lia. }
  rewrite map_length, !seq_length in K. exact K.
Qed.
Lemma ctr_top u v n k : typed n k u -> typed k n v -> k < n -> leq (ctr n 0 (fst (dprod u v))) (lint 0).
Proof.
  intros [Du [Tu Bu]] [Dv [Tv Bv]] H. unfold ctr. destruct (Wb_spec n 0 ltac:(lia)) as [_ [_ I]]. replace (n - 2 * 0) with n in I by lia.
  rewrite (dsum_ext _ _ (fun _ => lint 0)); [apply dsum_zero|]. intros l Hl. apply I in Hl. destruct Hl as [[Dl [Tl Bl]] Al]. unfold ract, ddelta.
  destruct (diag_eqb_spec l (fst (dprod (fst (dprod u v)) l))) as [E|E]; [|ring]. exfalso.
  assert (E2 : fst (dprod (fst (dprod u v)) l) = fst (dprod u (fst (dprod v l)))).
  { destruct (C30_associative u v l Du Dv Dl ltac:(congruence) ltac:(congruence)) as [xy [n1 [yz [n2 [z [m1 [m2 [H1 [H2 [H3 [H4 _]]]]]]]]]]]. unfold dprod. rewrite H1, H3. cbn [fst]. rewrite H2, H4. reflexivity. }
  destruct (dprod_ok v l Dv Dl ltac:(congruence)) as [_ [Dw [Tw Bw]]]. rewrite E2 in E.
  assert (Aw : through_all n (dseq (fst (dprod v l)))) by (apply (dprod_through u (fst (dprod v l)) n); auto; try congruence; now rewrite <- E).
  apply (through_le n k) in Aw; [lia|]. split; [exact Dw|split; congruence].
Qed.

(** ** a diagram that is not the identity has a cup *)
Lemma adjacent_arc s n : crossingless s -> n <= length s -> forall w i j, j - i <= w -> nth i s 0 = j -> i < j -> j < n -> exists k, k + 1 < n /\ nth k s 0 = k + 1.
Proof.
  intros C L. induction w as [|w IH]; intros i j Hw E H1 H2; [lia|]. destruct (Nat.eq_dec j (i + 1)) as [->|N]; [exists i; split; [lia|exact E]|].
  destruct (proj1 C (i + 1) ltac:(lia)) as [P1 [P2 P3]]. set (p := nth (i + 1) s 0) in *. destruct (proj1 C i ltac:(lia)) as [Q1 [Q2 Q3]]. rewrite E in Q1, Q2, Q3.
  assert (p <> i) by (intros K; rewrite K in P3; lia). assert (p <> j) by (intros K; rewrite K in P3; lia).
  assert (p < j). { destruct (Nat.lt_ge_cases p j); [assumption|exfalso]. apply (proj2 C i (i + 1) ltac:(lia)). fold p. lia. }
  assert (i + 1 < p). { destruct (Nat.lt_ge_cases (i + 1) p); [assumption|exfalso]. assert (p < i) by lia. apply (proj2 C p i ltac:(lia)). rewrite P3. lia. }
  apply (IH (i + 1) p); auto; lia.
Qed.
Lemma not_id_cup d n : typed n n d -> d <> did n -> exists k, k + 1 < n /\ nth k (dseq d) 0 = k + 1.
Proof.
  intros Td N. destruct Td as [[C L] [T B]].
  assert (K : exists i, i < n /\ nth i (dseq d) 0 < n).
  { destruct (forallb (fun i => n <=? nth i (dseq d) 0) (seq 0 n)) eqn:F.
    - exfalso. apply N. rewrite forallb_forall in F. destruct (C32_cell_basis n 0 ltac:(lia)) as [l [E [I _]]].
      assert (El : cell_basis n 0 = Ok [did n]). { unfold cell_basis. destruct n; cbn [Nat.eqb]; rewrite tld_id_ok; reflexivity. }
      rewrite El in E. injection E as <-. assert (J : In d [did n]); [|destruct J as [J|[]]; auto]. apply I. split; [split; [exact C|lia]|]. split; [exact T|]. split; [lia|].
      intros i Hi. replace (n - 2 * 0) with n in * by lia. apply Nat.leb_le, F, in_seq. lia.
    - assert (Q : forall l, forallb (fun i => n <=? nth i (dseq d) 0) l = false -> exists i, In i l /\ nth i (dseq d) 0 < n).
      { induction l as [|x l IH]; cbn [forallb]; [discriminate|]. intros E. apply andb_false_iff in E. destruct E as [E|E]; [apply Nat.leb_gt in E; exists x; split; [now left|exact E]|]. destruct (IH E) as [i [Hi K]]. exists i. split; [now right|exact K]. }
      destruct (Q _ F) as [i [Hi K]]. apply in_seq in Hi. exists i. split; [lia|exact K]. }
  destruct K as [i [Hi K]]. destruct (proj1 C i ltac:(lia)) as [P1 [P2 P3]]. destruct (Nat.lt_ge_cases i (nth i (dseq d) 0)) as [G|G].
  - apply (adjacent_arc (dseq d) n C ltac:(lia) n i (nth i (dseq d) 0)); auto; lia.
  - apply (adjacent_arc (dseq d) n C ltac:(lia) n (nth i (dseq d) 0) i); auto; lia.
Qed.
(** a cup at k absorbs e_k, leaving a loop *)
Lemma absorb d n k : typed n n d -> k + 1 < n -> nth k (dseq d) 0 = k + 1 -> dprod d (de k n) = (d, 1).
Proof.
  intros Td Hk E. pose proof (proj1 Td) as D0. destruct Td as [[C L] [T B]]. set (s := dseq d) in *. pose proof (crossingless_e k n Hk) as Ce. pose proof (e_seq_length k n) as Le.
  assert (E' : nth (k + 1) s 0 = k) by (destruct (proj1 C k ltac:(lia)) as [_ [_ P]]; now rewrite E in P).
  destruct (C29_compose s (e_seq k n) n C Ce ltac:(lia) ltac:(lia)) as [r [m [Ec [Cr [Lr [J [_ U]]]]]]]. rewrite Le in *. replace (2 * n - n) with n in * by lia.
  assert (Ls : length s = 2 * n) by lia. rewrite Ls in Lr, J. replace (2 * n - n) with n in * by lia.
  assert (Out : forall i, i < n -> i <> k -> i <> k + 1 -> joined s (e_seq k n) n (Up i) (Lo i)).
  { intros i Hi N1 N2. apply rst_trans with (Lo (2 * n - 1 - i)).
    - apply rst_sym, rst_step. pose proof (same_dot s (e_seq k n) n i Hi) as K. now rewrite Le in K.
    - apply rst_sym, rst_step. pose proof (arc_lower s (e_seq k n) n i ltac:(lia)) as K. rewrite nth_e in K by lia.
      destruct (Nat.eqb_spec i k); [lia|]. destruct (Nat.eqb_spec i (k + 1)); [lia|]. destruct (Nat.eqb_spec i (2 * n - k - 1)); [lia|]. destruct (Nat.eqb_spec i (2 * n - k - 2)); [lia|]. exact K. }
  assert (Nk : forall i, i < 2 * n -> i <> k -> i <> k + 1 -> nth i s 0 <> k /\ nth i s 0 <> k + 1).
  { intros i Hi N1 N2. destruct (proj1 C i ltac:(lia)) as [_ [_ P]]. split; intros K; rewrite K in P; lia. }
  assert (Er : r = s).
  { apply (nth_ext_len _ _ (2 * n) 0); [lia|lia|]. intros i Hi. destruct (proj1 C i ltac:(lia)) as [P1 [P2 P3]]. apply J; try lia.
    assert (Ou : forall i, i < 2 * n -> i <> k -> i <> k + 1 -> joined s (e_seq k n) n (Up i) (outer n n i)).
    { intros x Hx N1 N2. unfold outer. destruct (Nat.ltb_spec x n); [now apply Out|]. replace (x - n + n) with x by lia. apply rst_refl. }
    destruct (Nat.eq_dec i k) as [->|N1]; [|destruct (Nat.eq_dec i (k + 1)) as [->|N2]].
    - rewrite E. unfold outer. destruct (Nat.ltb_spec k n), (Nat.ltb_spec (k + 1) n); try lia. apply rst_step. pose proof (arc_lower s (e_seq k n) n k ltac:(lia)) as K. rewrite nth_e, Nat.eqb_refl in K by lia. exact K.
    - rewrite E'. unfold outer. destruct (Nat.ltb_spec k n), (Nat.ltb_spec (k + 1) n); try lia. apply rst_sym, rst_step. pose proof (arc_lower s (e_seq k n) n k ltac:(lia)) as K. rewrite nth_e, Nat.eqb_refl in K by lia. exact K.
    - destruct (Nk i Hi N1 N2) as [M1 M2]. apply rst_trans with (Up i); [apply rst_sym; now apply Ou|]. apply rst_trans with (Up (nth i s 0)); [apply rst_step; apply arc_upper; lia|]. apply Ou; auto; lia. }
  assert (Em : m = 1).
  { set (S := fun p => match p with Up i => i = k \/ i = k + 1 | Lo i => i = 2 * n - 1 - k \/ i = 2 * n - 2 - k end).
    assert (Inv : forall p q, joined s (e_seq k n) n p q -> (S p <-> S q)).
    { intros p q H. induction H as [p q H| | |]; [|tauto|tauto|tauto]. destruct H as [i Hi|i Hi|i Hi]; cbn [S].
      - rewrite Le in Hi. pose proof (e_cases k n i Hk Hi) as K. cbv zeta in K. lia.
      - destruct (Nat.eq_dec i k) as [->|N1]; [rewrite E; lia|]. destruct (Nat.eq_dec i (k + 1)) as [->|N2]; [rewrite E'; lia|]. destruct (Nk i ltac:(lia) N1 N2). lia.
      - rewrite Le. lia. }
    symmetry. apply (U [k]). unfold loops. rewrite Le, Ls. replace (2 * n - n) with n by lia. split; [|split].
    - intros x [<-|[]]. split; [lia|]. intros i Hi H. apply Inv in H. assert (Q : S (outer n n i)) by (apply H; cbn; lia). unfold outer in Q. destruct (Nat.ltb_spec i n); cbn [S] in Q; lia.
    - repeat constructor.
    - intros x [Hx Hn]. exists k. split; [now left|]. destruct (Nat.eq_dec x k) as [->|N1]; [apply rst_refl|]. destruct (Nat.eq_dec x (k + 1)) as [->|N2].
      + apply rst_sym, rst_step. pose proof (arc_upper s (e_seq k n) n k ltac:(lia)) as K. rewrite E in K. exact K.
      + exfalso. apply (Hn x); [lia|]. unfold outer. destruct (Nat.ltb_spec x n); [|lia]. now apply Out. }
  subst r m. unfold dprod. rewrite (tld_mul_ok d (de k n) s 1).
  - cbn [de dbot]. rewrite T. destruct d as [dt db ds]. cbn in *. subst. reflexivity.
  - exact D0.
  - now apply diagram_e.
  - exact B.
  - rewrite B. exact Ec.
Qed.
(** e_k factors through n - 2 points *)
Definition cupD (k n : nat) : diag := mkD n (n - 2) (ins (ins (id_seq k) [1; 0] k) (id_seq (n - 2 - k)) k).
Definition capD (k n : nat) : diag := mkD (n - 2) n (ins (ins (id_seq k) [1; 0] k) (id_seq (n - 2 - k)) (k + 2)).
Lemma cupcap k n : k + 1 < n -> typed n (n - 2) (cupD k n) /\ typed (n - 2) n (capD k n) /\ dprod (cupD k n) (capD k n) = (de k n, 0).
Proof.
  intros H. set (z := n - 2 - k). assert (C10 : crossingless [1; 0]) by (apply is_cm_Ok; vm_compute; reflexivity).
  assert (Ik : k <= length (id_seq k)) by (rewrite id_seq_length; lia). assert (Iz : z <= length (id_seq z)) by (rewrite id_seq_length; lia).
  assert (Lo : length (ins (id_seq k) [1; 0] k) = 2 * k + 2) by (rewrite ins_length by exact Ik; rewrite id_seq_length; cbn [length]; lia).
  assert (Co : crossingless (ins (id_seq k) [1; 0] k)) by (apply crossingless_ins; auto using crossingless_id).
  assert (L1 : length (dseq (cupD k n)) = n + (n - 2)). { cbn [cupD dseq]. fold z. rewrite ins_length by lia. rewrite id_seq_length. lia. }
  assert (L2 : length (dseq (capD k n)) = n - 2 + n). { cbn [capD dseq]. fold z. rewrite ins_length by lia. rewrite id_seq_length. lia. }
  assert (C1 : crossingless (dseq (cupD k n))) by (cbn [cupD dseq]; apply crossingless_ins; auto using crossingless_id; lia).
  assert (C2 : crossingless (dseq (capD k n))) by (cbn [capD dseq]; apply crossingless_ins; auto using crossingless_id; lia).
  split; [split; [split; assumption|split; reflexivity]|]. split; [split; [split; assumption|split; reflexivity]|].
  assert (E1 : compose (ins (id_seq k) [1; 0] k) (ins (id_seq k) [1; 0] k) k = Ok (ins (id_seq k) (e_seq 0 2) k, 0)).
  { destruct (compose_ins (id_seq k) [1; 0] (id_seq k) [1; 0] k 0) as [ac [n1 [bd [n2 [H1 [H2 H3]]]]]]; auto using crossingless_id; try lia; try (cbn; lia).
    rewrite compose_id_l in H1 by auto using crossingless_id. injection H1 as <- <-. vm_compute in H2. injection H2 as <- <-.
    rewrite Nat.add_0_r in H3. replace (length (id_seq k) - k) with k in H3 by (rewrite id_seq_length; lia). exact H3. }
  assert (E2 : compose (dseq (cupD k n)) (dseq (capD k n)) (n - 2) = Ok (e_seq k n, 0)).
  { cbn [cupD capD dseq]. fold z. destruct (compose_ins (ins (id_seq k) [1; 0] k) (id_seq z) (ins (id_seq k) [1; 0] k) (id_seq z) k z) as [ac [n1 [bd [n2 [H1 [H2 H3]]]]]]; auto using crossingless_id; try lia.
    rewrite E1 in H1. injection H1 as <- <-. rewrite compose_id_l in H2 by auto using crossingless_id. injection H2 as <- <-.
    rewrite Lo in H3. replace (2 * k + 2 - k) with (k + 2) in H3 by lia. replace (k + z) with (n - 2) in H3 by (unfold z; lia). rewrite H3. f_equal. f_equal.
    pose proof (pad_e k 2 z 0 ltac:(lia)) as P. unfold pad in P. rewrite P. f_equal; unfold z; lia. }
  unfold dprod. rewrite (tld_mul_ok (cupD k n) (capD k n) (e_seq k n) 0); [reflexivity| | |reflexivity|exact E2].
  - split; assumption.
  - split; assumption.
Qed.

(** ** the identity *)
Lemma tcount_id n : tcount (id_seq n) = n.
Proof.
  pose proof (trace_count_ok (id_seq n) (crossingless_id n)) as [m [E [_ U]]]. unfold tcount. rewrite E. rewrite <- (U (seq 0 n)); [apply seq_length|].
  pose proof (id_seq_length n) as L. split; [|split].
  - intros k Hk. apply in_seq in Hk. lia.
  - assert (Inv : forall x y, closure_joined (id_seq n) x y -> x = y \/ (x + y + 1 = 2 * n)).
    { intros x y H. induction H as [x y H| | |].
      - destruct H as [i Hi|i Hi]; rewrite L in *; [rewrite nth_id by lia|]; lia.
      - now left.
      - lia.
      - lia. }
    assert (K : forall z a, a + z <= n -> ForallOrdPairs (fun k k' => ~ closure_joined (id_seq n) k k') (seq a z)).
    { induction z as [|q IH]; intros a Ha; cbn [seq]; constructor; [|apply IH; lia]. apply Forall_forall. intros y Hy. apply in_seq in Hy. intros J. apply Inv in J. lia. }
    apply K. lia.
  - intros k Hk. rewrite L in Hk. destruct (Nat.lt_ge_cases k n).
    + exists k. split; [apply in_seq; lia|apply rst_refl].
    + exists (2 * n - 1 - k). split; [apply in_seq; lia|]. apply rst_step. rewrite <- L. constructor. lia.
Qed.
Lemma Q2_nz : is_lpoly Q2 /\ Q2 <> lint 0. Proof. split; [eexists _, _; reflexivity|discriminate]. Qed.
Lemma qi_step a : leq (ladd (quantum_integer (a + 1)) (quantum_integer (a - 1))) (lmul Q2 (quantum_integer a)).
Proof.
  apply (lmul_cancel (lsub (vpow 1) (vpow (-1)))); [eexists _, _; reflexivity|discriminate|].
  assert (Q : forall k, leq (lmul (lsub (vpow 1) (vpow (-1))) (quantum_integer k)) (lsub (vpow k) (vpow (- k)))) by (intros k; rewrite <- (C18_quotient k); ring).
  transitivity (ladd (lmul (lsub (vpow 1) (vpow (-1))) (quantum_integer (a + 1))) (lmul (lsub (vpow 1) (vpow (-1))) (quantum_integer (a - 1)))); [ring|]. rewrite !Q.
  transitivity (lmul Q2 (lsub (vpow a) (vpow (- a)))); [|rewrite <- Q; ring].
  assert (V : forall x y, leq (lmul (vpow x) (vpow y)) (vpow (x + y))).
  { intros x y k. rewrite !coef_L, L_mul. unfold vpow. rewrite !L_make. cbn [lin]. rewrite ?L_make. cbn [lin]. rewrite !Z.mul_1_l, !Z.add_0_r. f_equal. }
  assert (E : leq Q2 (ladd (vpow 1) (vpow (-1)))) by (intros k; reflexivity). rewrite E.
  transitivity (ladd (lsub (lmul (vpow 1) (vpow a)) (lmul (vpow 1) (vpow (- a)))) (lsub (lmul (vpow (-1)) (vpow a)) (lmul (vpow (-1)) (vpow (- a))))); [|ring]. rewrite !V.
  replace (1 + a)%Z with (a + 1)%Z by lia. replace (-1 + a)%Z with (a - 1)%Z by lia. replace (1 + - a)%Z with (- (a - 1))%Z by lia. replace (-1 + - a)%Z with (- (a + 1))%Z by lia. ring.
Qed.

(** ** the weighted sum of the traces on the cell modules *)
Definition tau (n : nat) (d : diag) : lpoly := dsum (seq 0 (n / 2 + 1)) (fun r => lmul (trace_scalar n r) (ctr n r d)).
Lemma ddelta_refl d : ddelta d d = lint 1.
Proof. unfold ddelta. now rewrite diag_eqb_refl. Qed.
Lemma dsum_ones {A} (l : list A) : leq (dsum l (fun _ => lint 1)) (lint (Z.of_nat (length l))).
Proof.
  induction l as [|x l IH]; [reflexivity|]. rewrite dsum_cons, IH. cbn [length]. intros k. rewrite coef_L, L_add. unfold lint. rewrite !L_make. cbn [lin]. rewrite coef_L, L_make. cbn [lin]. lia.
Qed.
Lemma ctr_id n r : 2 * r <= n -> leq (ctr n r (did n)) (lint (dimZ n r)).
Proof.
  intros H. destruct (Wb_spec n r H) as [_ [E I]]. rewrite <- E. unfold ctr. rewrite <- dsum_ones. apply dsum_ext. intros l Hl. apply I in Hl. destruct Hl as [[Dl [Tl Bl]] _].
  unfold ract. rewrite <- Tl. rewrite dprod_id_l by exact Dl. cbn [fst snd]. rewrite ddelta_refl. reflexivity.
Qed.
Definition binsum (n : nat) : lpoly := dsum (seq 0 (n / 2 + 1)) (fun r => lmul (trace_scalar n r) (lint (dimZ n r))).
Lemma dsum_app {A} (l k : list A) F : leq (dsum (l ++ k) F) (ladd (dsum l F) (dsum k F)).
Proof. induction l as [|x l IH]; cbn [app]; [unfold dsum at 2; cbn [map]; change (lsum []) with (lint 0); ring|]. rewrite !dsum_cons, IH. ring. Qed.
Lemma lint_add a b : leq (lint (a + b)) (ladd (lint a) (lint b)).
Proof. intros k. rewrite !coef_L, L_add. unfold lint. rewrite !L_make. cbn [lin]. lia. Qed.
Lemma dsum_shift a m (F : nat -> lpoly) : leq (dsum (seq (S a) m) F) (dsum (seq a m) (fun r => F (S r))).
Proof. unfold dsum. rewrite <- seq_shift, map_map. reflexivity. Qed.
Lemma dsum_last m F : leq (dsum (seq 0 (S m)) F) (ladd (dsum (seq 0 m) F) (F m)).
Proof. rewrite seq_S, dsum_app. cbn [Nat.add]. unfold dsum at 2. cbn [map]. rewrite lsum_cons. change (lsum []) with (lint 0). ring. Qed.
Lemma dsum_first m F : leq (dsum (seq 0 (S m)) F) (ladd (F 0) (dsum (seq 0 m) (fun r => F (S r)))).
Proof. cbn [seq]. rewrite dsum_cons, dsum_shift. reflexivity. Qed.
Lemma qi_zero : leq (quantum_integer 0) (lint 0). Proof. intros k. reflexivity. Qed.
(** the weights: sum of [n + 1 - 2r] dim W(n, r) = (v + v^-1)^n *)
Lemma binsum_S n : leq (binsum (S n)) (lmul Q2 (binsum n)).
Proof.
  set (t := fun a => quantum_integer a). set (N := Z.of_nat n).
  (* with the convention that the range may be extended by one at odd n *)
  assert (Z1 : forall r, leq (lmul (t (N + 2 - 2 * Z.of_nat (S r))%Z) (lint (dimZ n r))) (lmul (t (N - 2 * Z.of_nat r)%Z) (lint (dimZ n r)))).
  { intros r. replace (N + 2 - 2 * Z.of_nat (S r))%Z with (N - 2 * Z.of_nat r)%Z by lia. reflexivity. }
  assert (A : leq (binsum (S n)) (ladd (dsum (seq 0 (n / 2 + 1)) (fun r => lmul (t (N + 2 - 2 * Z.of_nat r)%Z) (lint (dimZ n r)))) (dsum (seq 0 (n / 2 + 1)) (fun r => lmul (t (N - 2 * Z.of_nat r)%Z) (lint (dimZ n r)))))).
  { unfold binsum. set (h := n / 2). assert (T : forall r, trace_scalar (S n) r = t (N + 2 - 2 * Z.of_nat r)%Z) by (intros r; unfold trace_scalar, t; f_equal; lia).
    assert (Pas : forall r, leq (lmul (t (N + 2 - 2 * Z.of_nat (S r))%Z) (lint (dimZ (S n) (S r)))) (ladd (lmul (t (N + 2 - 2 * Z.of_nat (S r))%Z) (lint (dimZ n (S r)))) (lmul (t (N - 2 * Z.of_nat r)%Z) (lint (dimZ n r))))).
    { intros r. rewrite dimZ_pascal by lia. replace (S r - 1) with r by lia. rewrite lint_add. rewrite <- Z1. ring. }
    assert (G : forall m, leq (dsum (seq 0 (S m)) (fun r => lmul (t (N + 2 - 2 * Z.of_nat r)%Z) (lint (dimZ (S n) r)))) (ladd (dsum (seq 0 (S m)) (fun r => lmul (t (N + 2 - 2 * Z.of_nat r)%Z) (lint (dimZ n r)))) (dsum (seq 0 m) (fun r => lmul (t (N - 2 * Z.of_nat r)%Z) (lint (dimZ n r)))))).
    { induction m as [|m IH].
      - unfold dsum. cbn [seq map]. rewrite !lsum_cons. change (lsum []) with (lint 0). rewrite !dimZ_zero. ring.
      - rewrite dsum_last, IH, Pas. rewrite (dsum_last (S m)), (dsum_last m (fun r => lmul (t (N - 2 * Z.of_nat r)%Z) _)). ring. }
    rewrite (dsum_ext _ _ (fun r => lmul (t (N + 2 - 2 * Z.of_nat r)%Z) (lint (dimZ (S n) r)))) by (intros r _; rewrite T; reflexivity).
    pose proof (Nat.div_mod n 2 ltac:(lia)) as D. pose proof (Nat.mod_upper_bound n 2 ltac:(lia)) as M. fold h in D.
    destruct (Nat.eq_dec (n mod 2) 0) as [E|E].
    - replace (S n / 2) with h by (apply (Nat.div_unique _ 2 h 1); lia). replace (h + 1) with (S h) by lia. rewrite G. rewrite (dsum_last h (fun r => lmul (t (N - 2 * Z.of_nat r)%Z) _)).
      replace (N - 2 * Z.of_nat h)%Z with 0%Z by lia. assert (T0 : leq (t 0%Z) (lint 0)) by exact qi_zero. rewrite T0. ring.
    - replace (S n / 2) with (S h) by (apply (Nat.div_unique _ 2 (S h) 0); lia). replace (S h + 1) with (S (S h)) by lia. replace (h + 1) with (S h) by lia. rewrite G.
      rewrite (dsum_last (S h)). rewrite (dimZ_half n (S h)) by lia. ring. }
  rewrite A. unfold binsum. rewrite <- dsum_scale, <- dsum_add. apply dsum_ext. intros r _. unfold trace_scalar. fold N. unfold t.
  replace (N + 2 - 2 * Z.of_nat r)%Z with ((N - 2 * Z.of_nat r + 1) + 1)%Z by lia. replace (N - 2 * Z.of_nat r)%Z with ((N - 2 * Z.of_nat r + 1) - 1)%Z at 2 by lia.
  transitivity (lmul (ladd (quantum_integer (N - 2 * Z.of_nat r + 1 + 1)) (quantum_integer (N - 2 * Z.of_nat r + 1 - 1))) (lint (dimZ n r))); [ring|]. rewrite qi_step. ring.
Qed.
Lemma binsum_ok n : leq (binsum n) (q2 n).
Proof. induction n as [|n IH]; [intros k; reflexivity|]. rewrite binsum_S, IH. replace (S n) with (1 + n) by lia. rewrite q2_add. apply lmul_proper; [|reflexivity]. intros k. reflexivity. Qed.
Lemma tau_id n : leq (tau n (did n)) (q2 (tcount (dseq (did n)))).
Proof.
  cbn [did dseq]. rewrite tcount_id, <- binsum_ok. unfold tau, binsum. apply dsum_ext. intros r Hr. apply in_seq in Hr. rewrite ctr_id; [reflexivity|].
  pose proof (Nat.div_mod n 2 ltac:(lia)). lia.
Qed.
Theorem tau_ok n : forall d, typed n n d -> leq (tau n d) (q2 (tcount (dseq d))).
Proof.
  induction n as [n IH] using (well_founded_induction lt_wf). intros d Td.
  destruct (diag_eqb_spec d (did n)) as [->|Nd]; [apply tau_id|].
  destruct (not_id_cup d n Td Nd) as [k [Hk Ek]]. pose proof (absorb d n k Td Hk Ek) as Ab. destruct (cupcap k n Hk) as [Tu [Tv Ecc]].
  set (cup := cupD k n) in *. set (cap := capD k n) in *. pose proof Td as [Dd [Ttd Btd]]. pose proof Tu as [Du [Ttu Btu]]. pose proof Tv as [Dv [Ttv Btv]].
  destruct (C30_associative d cup cap Dd Du Dv ltac:(congruence) ltac:(congruence)) as [xy [n1 [yz [n2 [z [m1 [m2 [H1 [H2 [H3 [H4 H5]]]]]]]]]]].
  unfold dprod in Ecc. rewrite H3 in Ecc. cbn [fst snd] in Ecc. injection Ecc as -> ->. unfold dprod in Ab. rewrite H4 in Ab. injection Ab as -> ->.
  assert (Hx : dprod d cup = (xy, n1)) by (unfold dprod; now rewrite H1). assert (Hxc : dprod xy cap = (d, m1)) by (unfold dprod; now rewrite H2).
  destruct (dprod_ok d cup Dd Du ltac:(congruence)) as [_ [Dx [Tx Bx]]]. rewrite Hx in Dx, Tx, Bx. cbn [fst] in Dx, Tx, Bx.
  assert (Txy : typed n (n - 2) xy) by (split; [exact Dx|split; congruence]).
  set (w := fst (dprod cap xy)). set (kw := snd (dprod cap xy)).
  destruct (dprod_ok cap xy Dv Dx ltac:(congruence)) as [_ [Dw [Tw Bw]]]. assert (Tyw : typed (n - 2) (n - 2) w) by (split; [exact Dw|unfold w; split; congruence]).
  pose proof (dprod_cyclic xy cap Dx Dv ltac:(congruence) ltac:(congruence)) as Cy. rewrite Hxc in Cy. cbn [fst snd] in Cy. fold w kw in Cy.
  assert (K : leq (lmul (q2 m1) (tau n d)) (lmul (q2 kw) (tau (n - 2) w))).
  { unfold tau. assert (Hh : n / 2 + 1 = S ((n - 2) / 2 + 1)). { replace n with ((n - 2) + 1 * 2) at 1 by lia. rewrite Nat.div_add by lia. lia. }
    rewrite Hh, dsum_first.
    pose proof (ctr_top xy cap n (n - 2) Txy Tv ltac:(lia)) as Top. rewrite Hxc in Top. cbn [fst] in Top. rewrite Top.
    transitivity (lmul (q2 m1) (dsum (seq 0 ((n - 2) / 2 + 1)) (fun r => lmul (trace_scalar n (S r)) (ctr n (S r) d)))); [ring|].
    rewrite <- !dsum_scale. apply dsum_ext. intros r Hr. apply in_seq in Hr. pose proof (Nat.div_mod (n - 2) 2 ltac:(lia)).
    pose proof (ctr_cyclic xy cap n (n - 2) (S r) r (n - 2 - 2 * r) Txy Tv ltac:(lia) ltac:(lia)) as CC. rewrite Hxc in CC. cbn [fst snd] in CC. fold w kw in CC.
    transitivity (lmul (trace_scalar n (S r)) (lmul (q2 m1) (ctr n (S r) d))); [ring|]. rewrite CC.
    replace (trace_scalar n (S r)) with (trace_scalar (n - 2) r) by (unfold trace_scalar; f_equal; lia). ring. }
  rewrite (IH (n - 2) ltac:(lia) w Tyw), <- q2_add, <- Cy, q2_add in K.
  apply (lmul_cancel (q2 m1)); [| |exact K].
  - apply canon_is_lpoly. unfold q2. assert (forall j, lcanon (lpn Q2 j)) as Q by (induction j; apply canon_make). apply Q.
  - assert (m1 <= 1) by lia. destruct m1 as [|[|]]; try lia; discriminate.
Qed.
