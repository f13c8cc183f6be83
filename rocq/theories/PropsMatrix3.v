(** PropsMatrix3.v – C112: vectors, scalar matrices, entries and indices. *)
From Verif Require Import Base ModelPoly SpecPoly PolyTheory ModelMatrix SpecMatrix MatrixTheory NumTheory PropsMatrix ModelText.
From Coq Require Import Ring Setoid Morphisms.

Section Any.
Context {R : Type} (O I : R).
Theorem C112_vectors (l : list R) : (exists m, mat_row_vector l = Ok m /\ is_matrix m /\ mrows m = 1 /\ mcols m = length l /\ forall j, j < length l -> entry O (mcols m) (mdata m) 0 j = nth j l O) /\
  (exists m, mat_col_vector l = Ok m /\ is_matrix m /\ mrows m = length l /\ mcols m = 1 /\ forall i, i < length l -> entry O 1 (mdata m) i 0 = nth i l O).
Proof.
  split.
  - exists (mkM 1 (length l) l). assert (L : length l = 1 * length l) by lia. split; [unfold mat_row_vector; change 1%Z with (Z.of_nat 1); now rewrite mat_make_ok|]. split; [now apply is_matrix_wf|]. split; [reflexivity|]. split; [reflexivity|]. intros j _. unfold entry. cbn [mcols mdata]. now replace (length l * 0 + j) with j by lia.
  - exists (mkM (length l) 1 l). assert (L : length l = length l * 1) by lia. split; [unfold mat_col_vector; change 1%Z with (Z.of_nat 1); now rewrite mat_make_ok|]. split; [now apply is_matrix_wf|]. split; [reflexivity|]. split; [reflexivity|]. intros i _. unfold entry. cbn [mcols mdata]. now replace (1 * i + 0) with i by lia.
Qed.
(** the transposes of each other *)
Theorem C112_transposed (l : list R) : exists r c, mat_row_vector l = Ok r /\ mat_col_vector l = Ok c /\ mat_transpose r = Ok c /\ mat_transpose c = Ok r.
Proof.
  destruct (C112_vectors l) as [(r & Er & Wr & R1 & R2 & R3) (c & Ec & Wc & C1 & C2 & C3)]. exists r, c. split; [exact Er|]. split; [exact Ec|]. apply is_matrix_wf in Wr, Wc.
  destruct (transpose_ok O r Wr) as (t & Et & Wt & T1 & T2 & T3), (transpose_ok O c Wc) as (u & Eu & Wu & U1 & U2 & U3). rewrite Et, Eu.
  split; f_equal; apply (mat_ext O); auto; try congruence.
  - intros i j Hi Hj. rewrite T3 by lia. assert (j = 0) as -> by lia. unfold ent. rewrite R2, C2. rewrite R2 in R3. rewrite R3, C3 by lia. reflexivity.
  - intros i j Hi Hj. rewrite U3 by lia. assert (i = 0) as -> by lia. unfold ent. rewrite R2, C2. rewrite R2 in R3. rewrite R3, C3 by lia. reflexivity.
Qed.
(** col_coord_vector(n, i): 1 at i, and all zero if i is not in range *)
Theorem C112_coord n i : ((0 <= n)%Z -> exists m, mat_coord O I n i = Ok m /\ is_matrix m /\ mrows m = Z.to_nat n /\ mcols m = 1 /\ forall j, j < Z.to_nat n -> entry O 1 (mdata m) j 0 = if (i =? Z.of_nat j)%Z then I else O) /\
  ((n < 0)%Z -> mat_coord O I n i = Err ValueError).
Proof.
  split; intros H.
  - destruct (Z_of_nat_complete_inf n H) as [k ->]. unfold mat_coord. rewrite Nat2Z.id. change 1%Z with (Z.of_nat 1). set (d := map _ _). assert (L : length d = k * 1) by (unfold d; rewrite map_length, seq_length; lia). rewrite mat_make_ok by exact L.
    eexists. split; [reflexivity|]. split; [now apply is_matrix_wf|]. split; [reflexivity|]. split; [reflexivity|]. intros j Hj. unfold entry. cbn [mdata]. replace (1 * j + 0) with j by lia. unfold d. exact (nth_map_seq (fun j => if (i =? Z.of_nat j)%Z then I else O) k j O Hj).
  - unfold mat_coord, mat_make. destruct (Z.leb_spec 0 n); [lia|]. reflexivity.
Qed.
(** indices() lists every position once, and M[i, j] over it is entries() *)
Theorem C112_entries (m : mat R) : is_matrix m -> NoDup (mat_indices m) /\ (forall i j, In (i, j) (mat_indices m) <-> i < mrows m /\ j < mcols m) /\
  mapM (fun '(i, j) => mat_get m (Z.of_nat i) (Z.of_nat j)) (mat_indices m) = Ok (mat_entries m).
Proof.
  intros W. apply is_matrix_wf in W. split; [|split; [intros i j; apply in_pairs|]].
  - apply (NoDup_map_inv (fun '(i, j) => mcols m * i + j)). unfold mat_indices. rewrite pairs_positions. apply seq_NoDup.
  - rewrite (mapM_ok _ (fun '(i, j) => ent O m i j)); [|intros [i j] Hij; apply in_pairs in Hij; apply mat_get_ok; tauto]. f_equal. unfold mat_entries, ent, entry.
    transitivity (map (fun q => nth q (mdata m) O) (map (fun '(i, j) => mcols m * i + j) (mat_indices m))); [rewrite map_map; apply map_ext; intros [i j]; reflexivity|].
    unfold mat_indices. rewrite pairs_positions, <- W. apply (nth_ext_len _ _ (length (mdata m)) O); [now rewrite map_length, seq_length|reflexivity|]. intros q Hq. exact (nth_map_seq (fun q => nth q (mdata m) O) _ q O Hq).
Qed.
(** is_square() is what trace and powers ask for *)
Theorem C112_square (m : mat R) radd rmul : is_matrix m -> (mat_is_square m = true <-> mrows m = mcols m) /\
  (mat_is_square m = false -> mat_trace O radd m = Err ValueError /\ forall k, mat_pow O I radd rmul m k = Err ValueError) /\
  (mat_is_square m = true -> exists x, mat_trace O radd m = Ok x).
Proof.
  intros W. apply is_matrix_wf in W. unfold mat_is_square. split; [apply Nat.eqb_eq|]. split; intros E.
  - unfold mat_trace, mat_pow. now rewrite E.
  - unfold mat_trace. rewrite E. cbn [negb]. apply Nat.eqb_eq in E. rewrite (mapM_ok _ (fun i => ent O m i i)); [cbn [bind]; eauto|]. intros i Hi. apply in_seq in Hi. apply get_ok. unfold mwf in W. rewrite W. apply pos_lt; lia.
Qed.
End Any.

Section Ring.
Context {R : Type} (O I : R) (radd rmul rsub : R -> R -> R) (ropp : R -> R) (req : R -> R -> Prop).
Context (Req : Equivalence req) (Rext : ring_eq_ext radd rmul ropp req) (Rth : ring_theory O I radd rmul rsub ropp req).
Add Ring Rr2 : Rth (setoid Req Rext).
#[local] Instance radd_p2 : Proper (req ==> req ==> req) radd. Proof. apply Rext. Qed.
#[local] Instance rmul_p2 : Proper (req ==> req ==> req) rmul. Proof. apply Rext. Qed.
Local Notation mmul := (mat_mul O radd rmul).
Infix "==" := req (at level 70).
(** M times the j-th coordinate vector is the j-th column *)
Theorem C112_column (m : mat R) j : is_matrix m -> j < mcols m -> exists e x c, mat_coord O I (Z.of_nat (mcols m)) (Z.of_nat j) = Ok e /\ mmul m e = Ok x /\ mat_column m (Z.of_nat j) = Ok c /\ same req x c.
Proof.
  intros W Hj. destruct (proj1 (C112_coord O I (Z.of_nat (mcols m)) (Z.of_nat j)) ltac:(lia)) as (e & Ee & We & E1 & E2 & E3). rewrite Nat2Z.id in E1, E3. destruct (proj1 (C25_column O m (Z.of_nat j) W) ltac:(lia)) as (c & Ec & Wc & C1 & C2 & C3). rewrite Nat2Z.id in C3.
  exists e, (prod O radd rmul m e), c. split; [exact Ee|]. split; [apply mul_ok; congruence|]. split; [exact Ec|]. apply is_matrix_wf in Wc. change (meq req (prod O radd rmul m e) c). apply (meq_ent O req); [apply prod_wf|exact Wc|]. split; [now rewrite C1|]. split; [cbn [prod mcols]; congruence|].
  intros i k Hi Hk. cbn [prod mrows mcols] in Hi, Hk. rewrite E2 in Hk. assert (k = 0) as -> by lia. rewrite prod_e by lia. unfold ent at 3. rewrite C2, C3 by exact Hi.
  etransitivity; [|apply (rsum_delta O I radd rmul rsub ropp req Req Rext Rth (mcols m) j (fun q => ent O m i q) Hj)]. apply (rsum_ext O radd rmul ropp req Req Rext). intros q Hq. unfold ent at 2. rewrite E2, E3 by exact Hq.
  replace (Z.of_nat j =? Z.of_nat q)%Z with (j =? q) by (destruct (Nat.eqb_spec j q), (Z.eqb_spec (Z.of_nat j) (Z.of_nat q)); auto; lia). ring.
Qed.
(** scalar(nrows, x) * M, M * scalar(ncols, x) and M * x agree *)
Theorem C112_scalar (m : mat R) x : is_matrix m -> exists l r a b, mat_scalar O (Z.of_nat (mrows m)) x = Ok l /\ mat_scalar O (Z.of_nat (mcols m)) x = Ok r /\ mmul l m = Ok a /\ mmul m r = Ok b /\
  same req a (mat_scale rmul m x) /\ same req b (mat_scale rmul m x).
Proof.
  intros W. apply is_matrix_wf in W. destruct (scalar_ok O (mrows m) x) as (l & El & Wl & L1 & L2 & L3), (scalar_ok O (mcols m) x) as (r & Er & Wr & R1 & R2 & R3).
  assert (WS : mwf (mat_scale rmul m x)) by (unfold mwf; cbn; rewrite map_length; exact W).
  assert (SE : forall i j, i < mrows m -> j < mcols m -> ent O (mat_scale rmul m x) i j = rmul (ent O m i j) x).
  { intros i j Hi Hj. unfold ent, entry. cbn [mat_scale mcols mdata]. rewrite (nth_indep _ O (rmul O x)) by (rewrite map_length; unfold mwf in W; rewrite W; now apply pos_lt). exact (map_nth (fun y => rmul y x) _ _ _). }
  exists l, r, (prod O radd rmul l m), (prod O radd rmul m r). split; [exact El|]. split; [exact Er|]. split; [apply mul_ok; congruence|]. split; [apply mul_ok; congruence|]. split.
  - change (meq req (prod O radd rmul l m) (mat_scale rmul m x)). apply (meq_ent O req); [apply prod_wf|exact WS|]. split; [exact L1|]. split; [reflexivity|]. intros i j Hi Hj. cbn [prod mrows mcols] in Hi, Hj. rewrite L1 in Hi. rewrite prod_e by lia. rewrite SE by assumption. rewrite L2.
    etransitivity; [|etransitivity; [apply (rsum_delta O I radd rmul rsub ropp req Req Rext Rth (mrows m) i (fun q => rmul x (ent O m q j)) Hi)|ring]]. apply (rsum_ext O radd rmul ropp req Req Rext). intros q Hq. rewrite L3 by assumption. destruct (i =? q); ring.
  - change (meq req (prod O radd rmul m r) (mat_scale rmul m x)). apply (meq_ent O req); [apply prod_wf|exact WS|]. split; [reflexivity|]. split; [exact R2|]. intros i j Hi Hj. cbn [prod mrows mcols] in Hi, Hj. rewrite R2 in Hj. rewrite prod_e by lia. rewrite SE by assumption.
    etransitivity; [|etransitivity; [apply (rsum_delta O I radd rmul rsub ropp req Req Rext Rth (mcols m) j (fun q => rmul x (ent O m i q)) Hj)|ring]]. apply (rsum_ext O radd rmul ropp req Req Rext). intros q Hq. rewrite R3 by assumption. rewrite (Nat.eqb_sym q j). destruct (j =? q); ring.
Qed.
End Ring.
(** is_integral(): every entry is an int; products and differences of such matrices are integral *)
Theorem C112_integral (a b : mat num) : (mat_is_integral a = true <-> forall x, In x (mdata a) -> exists n, x = NI n) /\
  (forall c, mat_is_integral a = true -> mat_is_integral b = true -> mat_mul (NI 0) nadd nmul a b = Ok c -> mat_is_integral c = true) /\
  (forall c, mat_is_integral a = true -> mat_is_integral b = true -> mat_sub nsub a b = Ok c -> mat_is_integral c = true).
Proof.
  assert (K : forall a : mat num, mat_is_integral a = true <-> forall x, In x (mdata a) -> exists n, x = NI n).
  { intros m. unfold mat_is_integral. rewrite forallb_forall. split; intros H x Hx; specialize (H x Hx); destruct x; [eauto|discriminate|reflexivity|destruct H; discriminate]. }
  split; [apply K|]. split; intros c Ha Hb E.
  - destruct (Nat.eq_dec (mcols a) (mrows b)) as [Q|Q]; [|rewrite mat_mul_shape in E by exact Q; discriminate]. rewrite mul_ok in E by exact Q. injection E as <-. apply K. intros x Hx. pose proof (proj1 (K a) Ha) as Ka. pose proof (proj1 (K b) Hb) as Kb.
    assert (ND : forall (l : list num) q, (forall x, In x l -> exists n, x = NI n) -> exists n, nth q l (NI 0) = NI n). { intros l q Hl. destruct (nth_in_or_default q l (NI 0)) as [H|H]; [now apply Hl|rewrite H; eauto]. }
    pose proof (prod_wf (NI 0) nadd nmul a b) as WP. unfold mwf in WP. apply (In_nth _ _ (NI 0)) in Hx. destruct Hx as (q & Hq & Ex). rewrite WP in Hq. cbn [prod mrows mcols] in Hq. destruct (pos_split _ _ _ Hq) as (Q1 & Q2 & Q3).
    assert (EE : x = ent (NI 0) (prod (NI 0) nadd nmul a b) (q / mcols b) (q mod mcols b)) by (unfold ent, entry; cbn [prod mcols]; rewrite <- Q3; exact (eq_sym Ex)). rewrite prod_e in EE by assumption. subst x.
    rewrite EE. generalize (mcols a) as c. induction c as [|c IH]; [cbn; eauto|]. cbn [rsum]. destruct IH as [n1 ->]. unfold ent, entry. destruct (ND (mdata a) (mcols a * (q / mcols b) + c) Ka) as [n2 ->], (ND (mdata b) (mcols b * c + q mod mcols b) Kb) as [n3 ->]. cbn. eauto.
  - unfold mat_sub in E. destruct (negb _); [discriminate|]. unfold mat_make in E. destruct (negb _); [discriminate|]. destruct (negb _); [discriminate|]. injection E as <-. apply K. cbn [mdata]. intros x Hx. apply in_map_iff in Hx. destruct Hx as ([u v] & <- & Hin). pose proof (in_combine_l _ _ _ _ Hin) as Hu. pose proof (in_combine_r _ _ _ _ Hin) as Hv.
    destruct (proj1 (K a) Ha u Hu) as [n1 ->], (proj1 (K b) Hb v Hv) as [n2 ->]. cbn. eauto.
Qed.
(** for ints *)
Example C112_case : is_matrix (mkM 2 3 [1; 2; 3; 4; 5; 6]%Z) /\ mat_coord 0%Z 1%Z 3 1 = Ok (mkM 3 1 [0; 1; 0]%Z) /\ mat_mul 0%Z Z.add Z.mul (mkM 2 3 [1; 2; 3; 4; 5; 6]%Z) (mkM 3 1 [0; 1; 0]%Z) = Ok (mkM 2 1 [2; 5]%Z) /\
  mat_column (mkM 2 3 [1; 2; 3; 4; 5; 6]%Z) 1 = Ok (mkM 2 1 [2; 5]%Z) /\ mat_indices (mkM 2 2 [1; 2; 3; 4]%Z) = [(0, 0); (0, 1); (1, 0); (1, 1)] /\ mat_coord 0%Z 1%Z 2 5 = Ok (mkM 2 1 [0; 0]%Z) /\ mat_is_integral (mkM 1 2 [NI 3; NL (mkL 0 [1%Z])]) = false.
Proof. split; [apply is_matrix_wf; reflexivity|]. repeat split; reflexivity. Qed.
