(** TLBurau.v – the cell module with one cup: its basis, and the action of e_j. *)
From Verif Require Import Base ModelPoly SpecPoly PolyTheory PolyDiv EvalTheory PropsPoly ModelTL SpecTL TLTheory TLAlg TLAlg2 TLBasis TLCells TLRel PropsTL ModelMatrix SpecMatrix MatrixTheory PropsMatrix ModelTLMor TLMorTheory TLGens TLFlip PropsTLMor PropsTLMor2 JonesTheory TLTrace PropsTLMor3 MarkovTheory PropsTLMor4 TLCup.
From Coq Require Import Ring Setoid Morphisms Sorted.
Local Open Scope nat_scope.

Lemma nth_cup_low k n x : k + 1 < n -> x < k -> nth x (dseq (cupD k n)) 0 = 2 * n - 3 - x.
Proof.
  intros Hk Hx. cbn [cupD dseq]. set (o := ins (id_seq k) [1; 0] k). assert (Lo : length o = 2 * k + 2) by (unfold o; rewrite ins_length by (rewrite id_seq_length; lia); rewrite id_seq_length; cbn [length]; lia).
  assert (Q : nth x o 0 = 2 * k + 1 - x). { unfold o. pose proof (ins_eo (id_seq k) [1; 0] k ltac:(rewrite id_seq_length; lia) x ltac:(rewrite id_seq_length; lia)) as K. rewrite nth_id in K by lia. unfold eo in K. cbn [length] in K. destruct (Nat.ltb_spec x k); [|lia]. destruct (Nat.ltb_spec (2 * k - 1 - x) k); [lia|]. lia. }
  pose proof (ins_eo o (id_seq (n - 2 - k)) k ltac:(lia) x ltac:(lia)) as K. rewrite Q in K. unfold eo in K. rewrite id_seq_length in K. destruct (Nat.ltb_spec x k); [|lia]. destruct (Nat.ltb_spec (2 * k + 1 - x) k); [lia|]. lia.
Qed.
Lemma nth_cup_high k n x : k + 1 < n -> k <= x < n - 2 -> nth x (dseq (cupD k n)) 0 = 2 * n - 5 - x.
Proof.
  intros Hk Hx. cbn [cupD dseq]. set (o := ins (id_seq k) [1; 0] k). assert (Lo : length o = 2 * k + 2) by (unfold o; rewrite ins_length by (rewrite id_seq_length; lia); rewrite id_seq_length; cbn [length]; lia).
  pose proof (ins_ei o (id_seq (n - 2 - k)) k ltac:(lia) (x - k) ltac:(rewrite id_seq_length; lia)) as K. rewrite nth_id in K by lia. replace (x - k + k) with x in K by lia. lia.
Qed.
Lemma nth_cup_cup k n : k + 1 < n -> nth (2 * n - 3 - k) (dseq (cupD k n)) 0 = 2 * n - 4 - k.
Proof.
  intros Hk. cbn [cupD dseq]. set (o := ins (id_seq k) [1; 0] k). assert (Lo : length o = 2 * k + 2) by (unfold o; rewrite ins_length by (rewrite id_seq_length; lia); rewrite id_seq_length; cbn [length]; lia).
  assert (Q : nth (1 + k) o 0 = 0 + k). { unfold o. apply (ins_ei (id_seq k) [1; 0] k ltac:(rewrite id_seq_length; lia) 1). cbn; lia. }
  pose proof (ins_eo o (id_seq (n - 2 - k)) k ltac:(lia) (1 + k) ltac:(lia)) as K. rewrite Q in K. unfold eo in K. rewrite id_seq_length in K. destruct (Nat.ltb_spec (1 + k) k); [lia|]. destruct (Nat.ltb_spec (0 + k) k); [lia|]. replace (2 * n - 3 - k) with (1 + k + 2 * (n - 2 - k)) by lia. lia.
Qed.
Lemma cup_through k n : k + 1 < n -> through_all (n - 2) (dseq (cupD k n)).
Proof. intros Hk i Hi. destruct (Nat.lt_ge_cases i k) as [Q|Q]; [rewrite nth_cup_low by lia|rewrite nth_cup_high by lia]; lia. Qed.
Lemma cup_typed k n : k + 1 < n -> typed n (n - 2) (cupD k n). Proof. intros H. apply (cupcap k n H). Qed.
Lemma cup_length k n : k + 1 < n -> length (dseq (cupD k n)) = n + (n - 2).
Proof. intros H. destruct (cup_typed k n H) as [[_ L] [T B]]. rewrite T, B in L. exact L. Qed.
Lemma cup_lex k l n : k < l -> l + 1 < n -> lex_lt (dseq (cupD k n)) (dseq (cupD l n)).
Proof.
  intros H Hl. exists k. rewrite !cup_length by lia. split; [lia|]. split; [lia|]. split.
  - apply (nth_ext _ _ 0 0); [rewrite !firstn_length, !cup_length by lia; lia|]. intros i Hi. rewrite firstn_length, cup_length in Hi by lia. rewrite !nth_firstn_lt by lia. rewrite !nth_cup_low by lia. reflexivity.
  - rewrite nth_cup_high, nth_cup_low by lia. lia.
Qed.
Lemma lex_lt_asym a b : lex_lt a b -> lex_lt b a -> False.
Proof.
  intros (k & A1 & A2 & A3 & A4) (l & B1 & B2 & B3 & B4). assert (F : forall (u v : list nat) x y, firstn x u = firstn x v -> y < x -> nth y u 0 = nth y v 0) by (intros u v x y Q Hy; rewrite <- (nth_firstn_lt u x y), <- (nth_firstn_lt v x y), Q by lia; reflexivity).
  destruct (Nat.lt_trichotomy k l) as [Q|[Q|Q]]; [rewrite (F _ _ _ _ B3 Q) in A4; lia|subst; lia|rewrite (F _ _ _ _ A3 Q) in B4; lia].
Qed.
Lemma sorted_unique {A} (lt : A -> A -> Prop) (asym : forall a b, lt a b -> lt b a -> False) l : forall m, StronglySorted lt l -> StronglySorted lt m -> (forall x, In x l <-> In x m) -> l = m.
Proof.
  induction l as [|x l IH]; intros m Sl Sm Q.
  - destruct m as [|y m]; [reflexivity|]. destruct (proj2 (Q y) (or_introl eq_refl)).
  - destruct m as [|y m]; [destruct (proj1 (Q x) (or_introl eq_refl))|]. inversion Sl as [|? ? S1 F1]; subst. inversion Sm as [|? ? S2 F2]; subst. rewrite Forall_forall in F1, F2.
    assert (x = y). { destruct (proj1 (Q x) (or_introl eq_refl)) as [E|E]; [auto|]. destruct (proj2 (Q y) (or_introl eq_refl)) as [E'|E']; [auto|]. destruct (asym x y (F1 y E') (F2 x E)). }
    subst y. f_equal. apply IH; auto. intros z. split; intros Hz.
    + destruct (proj1 (Q z) (or_intror Hz)) as [E|E]; [|exact E]. subst z. destruct (asym x x (F1 x Hz) (F1 x Hz)).
    + destruct (proj2 (Q z) (or_intror Hz)) as [E|E]; [|exact E]. subst z. destruct (asym x x (F2 x Hz) (F2 x Hz)).
Qed.
Lemma comb_1 n : comb n 1 = n.
Proof. induction n as [|n IH]; [reflexivity|]. cbn [comb]. destruct n; [reflexivity|]. cbn [comb] in *. lia. Qed.
(** the basis with one cup, in order of the position of the cup *)
Theorem cell_basis_1 n : 2 <= n -> cell_basis n 1 = Ok (map (fun k => cupD k n) (seq 0 (n - 1))).
Proof.
  intros Hn. destruct (C32_cell_basis n 1 ltac:(lia)) as (l & E & I & S & N & D). rewrite E. f_equal.
  assert (SC : forall a c, a + c = n - 1 -> StronglySorted lex_lt (map dseq (map (fun k => cupD k n) (seq a c)))).
  { intros a c. revert a. induction c as [|c IH]; intros a H; cbn [seq map]; constructor; [apply IH; lia|]. rewrite Forall_forall. intros s Hs. rewrite map_map in Hs. apply in_map_iff in Hs. destruct Hs as (k & <- & Hk). apply in_seq in Hk. apply cup_lex; lia. }
  assert (IN : forall k, k < n - 1 -> In (cupD k n) l). { intros k Hk. apply I. destruct (cup_typed k n ltac:(lia)) as (T1 & T2 & T3). replace (n - 2 * 1) with (n - 2) by lia. auto using (cup_through k n ltac:(lia)). }
  assert (NC : NoDup (map (fun k => cupD k n) (seq 0 (n - 1)))).
  { apply NoDup_map_inj_in; [|apply seq_NoDup]. intros x y Hx Hy Q. apply in_seq in Hx, Hy. destruct (Nat.lt_trichotomy x y) as [K|[K|K]]; [|exact K|]; exfalso; [pose proof (cup_lex x y n K ltac:(lia)) as L|pose proof (cup_lex y x n K ltac:(lia)) as L]; rewrite Q in L; exact (lex_lt_asym _ _ L L). }
  assert (LL : length l = n - 1).
  { rewrite cell_dimension_eq in D. destruct (Nat.leb_spec (2 * 1) n); [|lia]. injection D as D. clear - D Hn. unfold dimZ in D. cbn [Nat.eqb] in D. rewrite comb_1 in D. replace (1 - 1) with 0 in D by lia. replace (comb n 0) with 1 in D by (destruct n; reflexivity). lia. }
  assert (Q : map dseq l = map dseq (map (fun k => cupD k n) (seq 0 (n - 1)))).
  { apply (sorted_unique lex_lt lex_lt_asym); [exact S|apply SC; lia|]. intros s. rewrite !in_map_iff. split; intros (d & <- & Hd); exists d; (split; [reflexivity|]).
    - assert (P : incl l (map (fun k => cupD k n) (seq 0 (n - 1)))); [|now apply P]. apply NoDup_length_incl; [exact NC|rewrite map_length, seq_length; lia|]. intros x Hx. apply in_map_iff in Hx. destruct Hx as (k & <- & Hk). apply in_seq in Hk. apply IN. lia.
    - apply in_map_iff in Hd. destruct Hd as (k & <- & Hk). apply in_seq in Hk. apply IN. lia. }
  assert (P : forall a b, Forall (fun d => dtop d = n /\ dbot d = n - 2) a -> Forall (fun d => dtop d = n /\ dbot d = n - 2) b -> map dseq a = map dseq b -> a = b).
  { induction a as [|[t m s] a IH]; intros [|[t' m' s'] b] Fa Fb K; try discriminate; [reflexivity|]. inversion Fa as [|? ? [A1 A2] Fa']; subst. inversion Fb as [|? ? [B1 B2] Fb']; subst. cbn [map dseq dtop dbot] in *. injection K as K1 K2. subst. f_equal. now apply IH. }
  apply P; [| |exact Q]; rewrite Forall_forall; intros d Hd.
  - apply I in Hd. destruct Hd as (_ & T & B & _). split; [exact T|]. rewrite B. lia.
  - apply in_map_iff in Hd. destruct Hd as (k & <- & _). split; reflexivity.
Qed.

(** ** the action of e_j *)
Lemma cup_self k n : k + 1 < n -> dprod (de k n) (cupD k n) = (cupD k n, 1).
Proof.
  intros H. apply (absorb_top _ n (n - 2) k (cup_typed k n H) H). replace (n + (n - 2) - 1 - k) with (2 * n - 3 - k) by lia. replace (n + (n - 2) - 2 - k) with (2 * n - 4 - k) by lia. now apply nth_cup_cup.
Qed.
Lemma compose_10 : compose (e_seq 0 3) (ins (id_seq 1) [1; 0] 1) 3 = Ok (ins [1; 0] (id_seq 1) 0, 0).
Proof. reflexivity. Qed.
Lemma cup_back k n : k + 2 < n -> dprod (de k n) (cupD (k + 1) n) = (cupD k n, 0).
Proof.
  intros H. set (c := n - 3 - k).
  assert (K1 : dseq (cupD k n) = rpad k 1 c (ins [1; 0] (id_seq 1) 0)).
  { cbn [cupD dseq]. replace (n - 2 - k) with (1 + c) by (unfold c; lia). rewrite <- ins_id. rewrite <- (ins_assoc _ (id_seq 1)) by (rewrite ?ins_length, ?id_seq_length; rewrite ?id_seq_length; cbn; lia). unfold rpad. f_equal.
    rewrite <- (ins_assoc (id_seq k) [1; 0] (id_seq 1) k 0) by (rewrite ?id_seq_length; cbn; lia). now rewrite Nat.add_0_r. }
  assert (K2 : dseq (cupD (k + 1) n) = rpad k 1 c (ins (id_seq 1) [1; 0] 1)).
  { cbn [cupD dseq]. replace (n - 2 - (k + 1)) with c by (unfold c; lia). unfold rpad. f_equal.
    rewrite <- (ins_id k 1). apply (ins_assoc (id_seq k) (id_seq 1) [1; 0] k 1); rewrite ?id_seq_length; cbn; lia. }
  assert (K3 : e_seq k n = rpad k 3 c (e_seq 0 3)).
  { pose proof (pad_e k 3 c 0 ltac:(lia)) as P. unfold pad in P. unfold rpad. rewrite P. f_equal; unfold c; lia. }
  assert (E : compose (dseq (de k n)) (dseq (cupD (k + 1) n)) n = Ok (dseq (cupD k n), 0)).
  { cbn [de dseq]. rewrite K1, K2, K3. replace n with (k + 3 + c) at 1 by (unfold c; lia).
    apply (rpad_compose k 3 1 c); [rewrite e_seq_length; lia|reflexivity| | |apply compose_10]; apply is_cm_Ok; vm_compute; reflexivity. }
  destruct (cup_typed (k + 1) n ltac:(lia)) as [T1 [T2 T3]].
  unfold dprod. rewrite (tld_mul_ok (de k n) (cupD (k + 1) n) _ 0 (diagram_e k n ltac:(lia)) T1 ltac:(cbn; lia) E). reflexivity.
Qed.
(** e_j with j far from the cup leaves the cell module *)
Lemma e_not_through j m : j + 1 < m -> ~ through_all m (e_seq j m).
Proof. intros H T. specialize (T j ltac:(lia)). pose proof (e_cases j m j H ltac:(lia)) as K. cbv zeta in K. lia. Qed.
Lemma cup_far_above j k n : k + 2 <= j -> j + 1 < n -> ~ through_all (n - 2) (dseq (fst (dprod (de j n) (cupD k n)))).
Proof.
  intros H Hj. assert (C10 : crossingless [1; 0]) by (apply is_cm_Ok; vm_compute; reflexivity). set (q := j - k - 2). set (c := n - 2 - k).
  assert (Ik : k <= length (id_seq k)) by (rewrite id_seq_length; lia).
  assert (Lo : length (ins (id_seq k) [1; 0] k) = 2 * k + 2) by (rewrite ins_length by exact Ik; rewrite id_seq_length; cbn [length]; lia).
  assert (Co : crossingless (ins (id_seq k) [1; 0] k)) by (apply crossingless_ins; auto using crossingless_id).
  assert (Ce : crossingless (e_seq q c)) by (apply crossingless_e; unfold q, c; lia).
  assert (K : e_seq j n = ins (id_seq (k + 2)) (e_seq q c) (k + 2)).
  { pose proof (pad_e (k + 2) c 0 q ltac:(unfold q, c; lia)) as P. replace (k + 2 + q) with j in P by (unfold q; lia). replace (k + 2 + c + 0) with n in P by (unfold c; lia). rewrite <- P. unfold pad. apply ins_nil_r. rewrite ins_length by (rewrite id_seq_length; lia). rewrite id_seq_length, e_seq_length. lia. }
  assert (E : compose (dseq (de j n)) (dseq (cupD k n)) n = Ok (ins (ins (id_seq k) [1; 0] k) (e_seq q c) k, 0)).
  { cbn [de cupD dseq]. fold c. rewrite K. destruct (compose_ins (id_seq (k + 2)) (e_seq q c) (ins (id_seq k) [1; 0] k) (id_seq c) (k + 2) c) as [ac [n1 [bd [n2 [H1 [H2 H3]]]]]]; auto using crossingless_id; try (rewrite ?id_seq_length, ?e_seq_length; lia).
    rewrite compose_id_l in H1 by (auto; lia). injection H1 as <- <-. rewrite compose_id_r in H2 by (auto; rewrite e_seq_length; lia). injection H2 as <- <-. rewrite Lo in H3. replace (2 * k + 2 - (k + 2)) with k in H3 by lia. replace (k + 2 + c) with n in H3 by (unfold c; lia). exact H3. }
  destruct (cup_typed k n ltac:(lia)) as [T1 [T2 T3]]. unfold dprod. rewrite (tld_mul_ok (de j n) (cupD k n) _ 0 (diagram_e j n ltac:(lia)) T1 ltac:(cbn; lia) E). cbn [fst dseq].
  intros T. specialize (T (q + k) ltac:(unfold q; lia)). rewrite ins_ei in T by (try lia; rewrite e_seq_length; unfold q, c; lia). pose proof (e_cases q c q ltac:(unfold q, c; lia) ltac:(unfold q, c; lia)) as Q. cbv zeta in Q. unfold q, c in *. lia.
Qed.
Lemma cup_far_below j k n : j + 2 <= k -> k + 1 < n -> ~ through_all (n - 2) (dseq (fst (dprod (de j n) (cupD k n)))).
Proof.
  intros H Hk. assert (C10 : crossingless [1; 0]) by (apply is_cm_Ok; vm_compute; reflexivity). set (c := n - 2 - k).
  assert (Ik : k <= length (id_seq k)) by (rewrite id_seq_length; lia).
  assert (Ce : crossingless (e_seq j k)) by (apply crossingless_e; lia).
  assert (Ci : crossingless (ins [1; 0] (id_seq c) 0)) by (apply crossingless_ins; auto using crossingless_id; cbn; lia).
  assert (Li : length (ins [1; 0] (id_seq c) 0) = 2 * c + 2) by (rewrite ins_length by (cbn; lia); rewrite id_seq_length; cbn [length]; lia).
  assert (K0 : dseq (cupD k n) = ins (id_seq k) (ins [1; 0] (id_seq c) 0) k).
  { cbn [cupD dseq]. fold c. rewrite <- (ins_assoc (id_seq k) [1; 0] (id_seq c) k 0) by (rewrite ?id_seq_length; cbn; lia). now rewrite Nat.add_0_r. }
  assert (K : e_seq j n = ins (e_seq j k) (id_seq (c + 2)) k).
  { pose proof (pad_e 0 k (c + 2) j ltac:(lia)) as P. replace (0 + j) with j in P by lia. replace (0 + k + (c + 2)) with n in P by (unfold c; lia). rewrite <- P. unfold pad. replace (0 + k) with k by lia. change (id_seq 0) with (@nil nat). now rewrite ins_nil_l. }
  assert (E : compose (dseq (de j n)) (dseq (cupD k n)) n = Ok (ins (e_seq j k) (ins [1; 0] (id_seq c) 0) k, 0)).
  { rewrite K0. cbn [de dseq]. rewrite K. destruct (compose_ins (e_seq j k) (id_seq (c + 2)) (id_seq k) (ins [1; 0] (id_seq c) 0) k (c + 2)) as [ac [n1 [bd [n2 [H1 [H2 H3]]]]]]; auto using crossingless_id; try (rewrite ?id_seq_length, ?e_seq_length, ?Li; lia).
    rewrite compose_id_r in H1 by (auto; rewrite e_seq_length; lia). injection H1 as <- <-. rewrite compose_id_l in H2 by (auto; lia). injection H2 as <- <-. rewrite id_seq_length in H3. replace (2 * k - k) with k in H3 by lia. replace (k + (c + 2)) with n in H3 by (unfold c; lia). exact H3. }
  destruct (cup_typed k n ltac:(lia)) as [T1 [T2 T3]]. unfold dprod. rewrite (tld_mul_ok (de j n) (cupD k n) _ 0 (diagram_e j n ltac:(lia)) T1 ltac:(cbn; lia) E). cbn [fst dseq].
  intros T. specialize (T j ltac:(lia)). pose proof (e_cases j k j ltac:(lia) ltac:(lia)) as Q. cbv zeta in Q.
  pose proof (ins_eo (e_seq j k) (ins [1; 0] (id_seq c) 0) k ltac:(rewrite e_seq_length; lia) j ltac:(rewrite e_seq_length; lia)) as P. assert (QJ : nth j (e_seq j k) 0 = j + 1) by lia. rewrite QJ in P. unfold eo in P. destruct (Nat.ltb_spec j k); [|lia]. destruct (Nat.ltb_spec (j + 1) k); [|lia]. rewrite P in T. unfold c in *. lia.
Qed.
