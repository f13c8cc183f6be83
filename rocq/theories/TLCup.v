(** TLCup.v – cups at the top of a diagram: absorbing e_k, splitting off a cup,
    moving it. *)
From Verif Require Import Base ModelPoly SpecPoly PolyTheory PolyDiv EvalTheory PropsPoly ModelTL SpecTL TLTheory TLAlg TLAlg2 TLBasis TLCells TLRel PropsTL ModelMatrix SpecMatrix MatrixTheory PropsMatrix ModelTLMor TLMorTheory TLGens TLFlip PropsTLMor JonesTheory TLTrace PropsTLMor3 MarkovTheory.
From Coq Require Import Ring Setoid Morphisms Permutation Relations.
Local Open Scope nat_scope.
Local Arguments Nat.ltb : simpl never.
Local Arguments Nat.sub : simpl never.

(** a cup at the bottom of a rectangular diagram absorbs e_k, leaving a loop *)
Lemma absorb_bot d a n k : typed a n d -> k + 1 < n -> nth k (dseq d) 0 = k + 1 -> dprod d (de k n) = (d, 1).
Proof.
  intros Td Hk E. pose proof (proj1 Td) as D0. destruct Td as [[C L] [T B]]. set (s := dseq d) in *. pose proof (crossingless_e k n Hk) as Ce. pose proof (e_seq_length k n) as Le.
  assert (E' : nth (k + 1) s 0 = k) by (destruct (proj1 C k ltac:(lia)) as [_ [_ P]]; now rewrite E in P).
  assert (Ls : length s = a + n) by lia.
  destruct (C29_compose s (e_seq k n) n C Ce ltac:(lia) ltac:(lia)) as [r [m [Ec [Cr [Lr [J [_ U]]]]]]]. rewrite Le in *. replace (2 * n - n) with n in * by lia.
  rewrite Ls in Lr, J. replace (a + n - n) with a in * by lia.
  assert (Out : forall i, i < n -> i <> k -> i <> k + 1 -> joined s (e_seq k n) n (Up i) (Lo i)).
  { intros i Hi N1 N2. apply rst_trans with (Lo (2 * n - 1 - i)).
    - apply rst_sym, rst_step. pose proof (same_dot s (e_seq k n) n i Hi) as K. now rewrite Le in K.
    - apply rst_sym, rst_step. pose proof (arc_lower s (e_seq k n) n i ltac:(lia)) as K. rewrite nth_e in K by lia.
      destruct (Nat.eqb_spec i k); [lia|]. destruct (Nat.eqb_spec i (k + 1)); [lia|]. destruct (Nat.eqb_spec i (2 * n - k - 1)); [lia|]. destruct (Nat.eqb_spec i (2 * n - k - 2)); [lia|]. exact K. }
  assert (Nk : forall i, i < a + n -> i <> k -> i <> k + 1 -> nth i s 0 <> k /\ nth i s 0 <> k + 1).
  { intros i Hi N1 N2. destruct (proj1 C i ltac:(lia)) as [_ [_ P]]. split; intros K; rewrite K in P; lia. }
  assert (Er : r = s).
  { apply (nth_ext_len _ _ (a + n) 0); [lia|lia|]. intros i Hi. destruct (proj1 C i ltac:(lia)) as [P1 [P2 P3]]. apply J; try lia.
    assert (Ou : forall i, i < a + n -> i <> k -> i <> k + 1 -> joined s (e_seq k n) n (Up i) (outer n n i)).
    { intros x Hx N1 N2. unfold outer. destruct (Nat.ltb_spec x n); [now apply Out|]. replace (x - n + n) with x by lia. apply rst_refl. }
    destruct (Nat.eq_dec i k) as [->|N1]; [|destruct (Nat.eq_dec i (k + 1)) as [->|N2]].
    - rewrite E. unfold outer. destruct (Nat.ltb_spec k n), (Nat.ltb_spec (k + 1) n); try lia. apply rst_step. pose proof (arc_lower s (e_seq k n) n k ltac:(lia)) as K. rewrite nth_e, Nat.eqb_refl in K by lia. exact K.
    - rewrite E'. unfold outer. destruct (Nat.ltb_spec k n), (Nat.ltb_spec (k + 1) n); try lia. apply rst_sym, rst_step. pose proof (arc_lower s (e_seq k n) n k ltac:(lia)) as K. rewrite nth_e, Nat.eqb_refl in K by lia. exact K.
    - destruct (Nk i Hi N1 N2) as [M1 M2]. apply rst_trans with (Up i); [apply rst_sym; now apply Ou|]. apply rst_trans with (Up (nth i s 0)); [apply rst_step; apply arc_upper; lia|]. apply Ou; auto; lia. }
  assert (Em : m = 1).
  { set (S := fun p => match p with Up i => i = k \/ i = k + 1 | Lo i => i = 2 * n - 1 - k \/ i = 2 * n - 2 - k end).
    assert (Inv : forall p q, joined s (e_seq k n) n p q -> (S p <-> S q)).
    { intros p q H. induction H as [p q H| | |]; [|tauto|tauto|tauto]. destruct H as [i Hi|i Hi|i Hi]; cbn [S].
      - rewrite Le in Hi. pose proof (e_cases k n i Hk Hi) as K. cbv zeta in K. lia.
      - destruct (Nat.eq_dec i k) as [->|N1]; [rewrite E; lia|]. destruct (Nat.eq_dec i (k + 1)) as [->|N2]; [rewrite E'; lia|]. destruct (Nk i ltac:(lia) N1 N2). lia.
      - rewrite Le. lia. }
    symmetry. apply (U [k]). unfold loops. rewrite Le, Ls. replace (2 * n - n) with n by lia. replace (a + n - n) with a by lia. split; [|split].
    - intros x [<-|[]]. split; [lia|]. intros i Hi H. apply Inv in H. assert (Q : S (outer n n i)) by (apply H; cbn; lia). unfold outer in Q. destruct (Nat.ltb_spec i n); cbn [S] in Q; lia.
    - repeat constructor.
    - intros x [Hx Hn]. exists k. split; [now left|]. destruct (Nat.eq_dec x k) as [->|N1]; [apply rst_refl|]. destruct (Nat.eq_dec x (k + 1)) as [->|N2].
      + apply rst_sym, rst_step. pose proof (arc_upper s (e_seq k n) n k ltac:(lia)) as K. rewrite E in K. exact K.
      + exfalso. apply (Hn x); [lia|]. unfold outer. destruct (Nat.ltb_spec x n); [|lia]. now apply Out. }
  subst r m. unfold dprod. rewrite (tld_mul_ok d (de k n) s 1).
  - cbn [de dbot]. rewrite T. destruct d as [dt db ds]. cbn in *. subst. reflexivity.
  - exact D0.
  - now apply diagram_e.
  - exact B.
  - rewrite B. exact Ec.
Qed.
Lemma dflip_e k n : k + 1 < n -> dflip (de k n) = de k n.
Proof.
  intros H. unfold dflip, de. cbn [dtop dbot dseq]. f_equal. apply (nth_ext_len _ _ (2 * n) 0); [rewrite fl_length; apply e_seq_length|apply e_seq_length|].
  intros i Hi. rewrite nth_fl by (rewrite e_seq_length; lia). rewrite e_seq_length.
  assert (Hj : 2 * n - 1 - i < 2 * n) by lia. pose proof (e_cases k n i H Hi) as A. pose proof (e_cases k n (2 * n - 1 - i) H Hj) as B. cbv zeta in A, B. lia.
Qed.
(** the same at the top *)
Lemma absorb_top d n m k : typed n m d -> k + 1 < n -> nth (n + m - 1 - k) (dseq d) 0 = n + m - 2 - k -> dprod (de k n) d = (d, 1).
Proof.
  intros Td Hk E. pose proof Td as [[C L] [T B]]. pose proof (dflip_type _ _ _ Td) as Tf.
  assert (Ef : nth k (dseq (dflip d)) 0 = k + 1). { cbn [dflip dseq]. rewrite nth_fl by lia. rewrite L, T, B, E. lia. }
  pose proof (absorb_bot (dflip d) m n k Tf Hk Ef) as A.
  pose proof (dprod_flip (dflip d) (de k n) (proj1 Tf) (diagram_e k n Hk) ltac:(destruct Tf as [_ [_ ->]]; reflexivity)) as F. rewrite A in F. cbn [fst snd] in F.
  rewrite dflip_e in F by exact Hk. rewrite !dflip_dflip in F by (apply Td). exact F.
Qed.
Lemma NoDup_map_inj_in {A B} (f : A -> B) l : (forall x y, In x l -> In y l -> f x = f y -> x = y) -> NoDup l -> NoDup (map f l).
Proof.
  induction l as [|x l IH]; cbn [map]; intros H N; [constructor|]. inversion N as [|? ? N1 N2]; subst. constructor.
  - intros K. apply in_map_iff in K. destruct K as [y [E Hy]]. apply N1. replace x with y; [exact Hy|]. apply H; [now right|now left|exact E].
  - apply IH; [intros a b Ha Hb; apply H; now right|exact N2].
Qed.
(** a diagram with fewer strands at the bottom has a cup at the top *)
Lemma top_cup d n m : typed n m d -> m < n -> exists k, k + 1 < n /\ dprod (de k n) d = (d, 1).
Proof.
  intros Td Hm. pose proof Td as [[C L] [T B]]. pose proof (dflip_type _ _ _ Td) as Tf. destruct Tf as [[Cf Lf] [Tf Bf]]. set (s := dseq (dflip d)) in *.
  assert (Ls : length s = n + m) by lia.
  assert (K : exists i, i < n /\ nth i s 0 < n).
  { destruct (forallb (fun i => n <=? nth i s 0) (seq 0 n)) eqn:F.
    - exfalso. rewrite forallb_forall in F.
      assert (ND : NoDup (map (fun i => nth i s 0) (seq 0 n))).
      { apply NoDup_map_inj_in; [|apply seq_NoDup]. intros x y Hx Hy E. apply in_seq in Hx, Hy. destruct (proj1 Cf x ltac:(lia)) as [_ [_ P]]. destruct (proj1 Cf y ltac:(lia)) as [_ [_ Q]]. congruence. } 
      assert (I : incl (map (fun i => nth i s 0) (seq 0 n)) (seq n m)).
      { intros y Hy. apply in_map_iff in Hy. destruct Hy as [x [<- Hx]]. specialize (F x Hx). apply Nat.leb_le in F. apply in_seq in Hx. apply in_seq. destruct (proj1 Cf x ltac:(lia)) as [P _]. lia. }
      pose proof (NoDup_incl_length ND I) as Q. rewrite map_length, !seq_length in Q. lia.
    - assert (Q : forall l, forallb (fun i => n <=? nth i s 0) l = false -> exists i, In i l /\ nth i s 0 < n).
      { induction l as [|x l IH]; cbn [forallb]; [discriminate|]. intros E. apply andb_false_iff in E. destruct E as [E|E]; [apply Nat.leb_gt in E; exists x; split; [now left|exact E]|]. destruct (IH E) as [i [Hi K]]. exists i. split; [now right|exact K]. }
      destruct (Q _ F) as [i [Hi K]]. apply in_seq in Hi. exists i. split; [lia|exact K]. }
  assert (A : exists k, k + 1 < n /\ nth k s 0 = k + 1).
  { destruct K as [i [Hi K]]. destruct (proj1 Cf i ltac:(lia)) as [P1 [P2 P3]]. destruct (Nat.lt_ge_cases i (nth i s 0)) as [G|G].
    - apply (adjacent_arc s n Cf ltac:(lia) n i (nth i s 0)); auto; lia.
    - apply (adjacent_arc s n Cf ltac:(lia) n (nth i s 0) i); auto; lia. }
  destruct A as [k [Hk A]]. exists k. split; [exact Hk|]. apply (absorb_top d n m k Td Hk).
  unfold s in A. cbn [dflip dseq] in A. rewrite nth_fl in A by lia. rewrite L, T, B in A.
  destruct (proj1 C (n + m - 1 - k) ltac:(lia)) as [P _]. lia.
Qed.

Definition rpad (a kb c : nat) (x : list nat) : list nat := ins (ins (id_seq a) x a) (id_seq c) (a + kb).
Lemma rpad_compose a kx ky c x y z m : length x >= kx -> length y = kx + ky -> crossingless x -> crossingless y ->
  compose x y kx = Ok (z, m) -> compose (rpad a kx c x) (rpad a ky c y) (a + kx + c) = Ok (rpad a ky c z, m).
Proof.
  intros Lx Ly Cx Cy E. unfold rpad.
  assert (Ia : a <= length (id_seq a)) by (rewrite id_seq_length; lia). assert (Ic : c <= length (id_seq c)) by (rewrite id_seq_length; lia).
  assert (E1 : compose (ins (id_seq a) x a) (ins (id_seq a) y a) (a + kx) = Ok (ins (id_seq a) z a, m)).
  { destruct (compose_ins (id_seq a) x (id_seq a) y a kx) as [ac [n1 [bd [n2 [H1 [H2 H3]]]]]]; auto using crossingless_id; try lia.
    rewrite compose_id_l in H1 by auto using crossingless_id. injection H1 as <- <-. rewrite E in H2. injection H2 as <- <-.
    replace (length (id_seq a) - a) with a in H3 by (rewrite id_seq_length; lia). exact H3. }
  assert (L1 : forall w, length (ins (id_seq a) w a) = 2 * a + length w) by (intros w; rewrite ins_length by exact Ia; rewrite id_seq_length; lia).
  destruct (compose_ins (ins (id_seq a) x a) (id_seq c) (ins (id_seq a) y a) (id_seq c) (a + kx) c) as [ac [n1 [bd [n2 [H1 [H2 H3]]]]]];
    auto using crossingless_id, crossingless_ins; try (rewrite L1 by auto; lia).
  rewrite compose_id_l in H2 by auto using crossingless_id. injection H2 as <- <-. rewrite E1 in H1. injection H1 as <- <-.
  replace (length (ins (id_seq a) y a) - (a + kx)) with (a + ky) in H3 by (rewrite L1 by auto; lia). rewrite Nat.add_0_r in H3. exact H3.
Qed.
Lemma compose_01 : compose (e_seq 1 3) (ins [1; 0] (id_seq 1) 0) 3 = Ok (ins (id_seq 1) [1; 0] 1, 0).
Proof. reflexivity. Qed.
(** e_(k+1) moves the cup at k to k+1 *)
Lemma cup_move k n : k + 2 < n -> dprod (de (k + 1) n) (cupD k n) = (cupD (k + 1) n, 0).
Proof.
  intros H. set (c := n - 3 - k). assert (C10 : crossingless [1; 0]) by (apply is_cm_Ok; vm_compute; reflexivity).
  assert (K1 : dseq (cupD k n) = rpad k 1 c (ins [1; 0] (id_seq 1) 0)).
  { cbn [cupD dseq]. replace (n - 2 - k) with (1 + c) by (unfold c; lia). rewrite <- ins_id. rewrite <- (ins_assoc _ (id_seq 1)) by (rewrite ?ins_length, ?id_seq_length; rewrite ?id_seq_length; cbn; lia). unfold rpad. f_equal.
    rewrite <- (ins_assoc (id_seq k) [1; 0] (id_seq 1) k 0) by (rewrite ?id_seq_length; cbn; lia). now rewrite Nat.add_0_r. }
  assert (K2 : dseq (cupD (k + 1) n) = rpad k 1 c (ins (id_seq 1) [1; 0] 1)).
  { cbn [cupD dseq]. replace (n - 2 - (k + 1)) with c by (unfold c; lia). unfold rpad. f_equal.
    rewrite <- (ins_id k 1). apply (ins_assoc (id_seq k) (id_seq 1) [1; 0] k 1); rewrite ?id_seq_length; cbn; lia. }
  assert (K3 : e_seq (k + 1) n = rpad k 3 c (e_seq 1 3)).
  { pose proof (pad_e k 3 c 1 ltac:(lia)) as P. unfold pad in P. unfold rpad. rewrite P. f_equal; unfold c; lia. }
  assert (E : compose (dseq (de (k + 1) n)) (dseq (cupD k n)) n = Ok (dseq (cupD (k + 1) n), 0)).
  { cbn [de dseq]. rewrite K1, K2, K3. replace n with (k + 3 + c) at 1 by (unfold c; lia).
    apply (rpad_compose k 3 1 c); [rewrite e_seq_length; lia|reflexivity| | |apply compose_01]; apply is_cm_Ok; vm_compute; reflexivity. }
  destruct (cupcap k n ltac:(lia)) as [[T1 [T2 T3]] _].
  unfold dprod. rewrite (tld_mul_ok (de (k + 1) n) (cupD k n) _ 0 (diagram_e (k + 1) n ltac:(lia)) T1 ltac:(cbn; lia) E). reflexivity.
Qed.
(** e_(j+2) slides along the cup at 0 *)
Lemma cup_slide j n : j + 3 < n -> exists x, typed n (n - 2) x /\ dprod (de (j + 2) n) (cupD 0 n) = (x, 0) /\ dprod (cupD 0 n) (de j (n - 2)) = (x, 0).
Proof.
  intros H. assert (C10 : crossingless [1; 0]) by (apply is_cm_Ok; vm_compute; reflexivity).
  destruct (cupcap 0 n ltac:(lia)) as [TC _]. pose proof TC as [T1 [T2 T3]].
  assert (Ce : crossingless (e_seq j (n - 2))) by (apply crossingless_e; lia). pose proof (e_seq_length j (n - 2)) as Le.
  assert (K0 : dseq (cupD 0 n) = ins [1; 0] (id_seq (n - 2)) 0). { cbn [cupD dseq]. rewrite Nat.sub_0_r. f_equal. }
  assert (K1 : e_seq (j + 2) n = ins (id_seq 2) (e_seq j (n - 2)) 2).
  { pose proof (pad_e 2 (n - 2) 0 j ltac:(lia)) as P. replace (2 + j) with (j + 2) in P by lia. replace (2 + (n - 2) + 0) with n in P by lia. rewrite <- P. unfold pad. apply ins_nil_r. rewrite ins_length by (rewrite id_seq_length; lia). rewrite id_seq_length. lia. }
  assert (E1 : compose (e_seq (j + 2) n) (dseq (cupD 0 n)) n = Ok (ins [1; 0] (e_seq j (n - 2)) 0, 0)).
  { rewrite K0, K1. destruct (compose_ins (id_seq 2) (e_seq j (n - 2)) [1; 0] (id_seq (n - 2)) 2 (n - 2)) as [ac [n1 [bd [n2 [H1 [H2 H3]]]]]]; auto using crossingless_id; try (rewrite ?Le, ?id_seq_length; cbn [length]; lia).
    vm_compute in H1. injection H1 as <- <-. rewrite compose_id_r in H2 by (auto; lia). injection H2 as <- <-. cbn [length] in H3. replace (2 - 2) with 0 in H3 by lia. replace (2 + (n - 2)) with n in H3 by lia. exact H3. }
  assert (E2 : compose (dseq (cupD 0 n)) (e_seq j (n - 2)) (n - 2) = Ok (ins [1; 0] (e_seq j (n - 2)) 0, 0)).
  { rewrite K0. destruct (compose_ins [1; 0] (id_seq (n - 2)) [] (e_seq j (n - 2)) 0 (n - 2)) as [ac [n1 [bd [n2 [H1 [H2 H3]]]]]]; auto using crossingless_id; try (rewrite ?Le, ?id_seq_length; cbn [length]; lia).
    { split; [intros i Hi; cbn in Hi; lia|intros i k Hk; cbn in Hk; lia]. }
    vm_compute in H1. injection H1 as <- <-. rewrite compose_id_l in H2 by (auto; lia). injection H2 as <- <-. cbn [length] in H3. rewrite ins_nil_l in H3. exact H3. }
  exists (mkD n (n - 2) (ins [1; 0] (e_seq j (n - 2)) 0)). split; [|split].
  - split; [split; cbn [dseq dtop dbot]; [apply crossingless_ins; auto; cbn; lia|rewrite ins_length by (cbn; lia); rewrite Le; cbn [length]; lia]|split; reflexivity].
  - unfold dprod. rewrite (tld_mul_ok (de (j + 2) n) (cupD 0 n) _ 0 (diagram_e (j + 2) n ltac:(lia)) T1 ltac:(cbn; lia) E1). reflexivity.
  - unfold dprod. rewrite (tld_mul_ok (cupD 0 n) (de j (n - 2)) _ 0 T1 (diagram_e j (n - 2) ltac:(lia)) ltac:(cbn; lia) E2). reflexivity.
Qed.
