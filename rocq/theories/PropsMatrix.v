(** PropsMatrix.v – properties C23 to C26, C82 and C83: matrices. *)
From Verif Require Import Base ModelPoly SpecPoly PolyTheory ModelMatrix SpecMatrix MatrixTheory NumTheory.
From Coq Require Import Ring Setoid Morphisms.

(** A Matrix object: something the constructor returned. *)
Definition is_matrix {R} (m : mat R) : Prop := exists nr nc d, mat_make nr nc d = Ok m.
Lemma is_matrix_wf {R} (m : mat R) : is_matrix m <-> mwf m.
Proof.
  split.
  - intros [nr [nc [d E]]]. rewrite mat_make_spec in E. destruct (Z.leb_spec 0 nr); [|discriminate]. destruct (Z.leb_spec 0 nc); [|discriminate].
    destruct (Z.eqb_spec (nr * nc) (Z.of_nat (length d))); [|discriminate]. cbn in E. injection E as <-. unfold mwf. cbn [mrows mcols mdata]. lia.
  - intros W. exists (Z.of_nat (mrows m)), (Z.of_nat (mcols m)), (mdata m). rewrite mat_make_ok by exact W. now destruct m.
Qed.

(** ** C23, for entries in any commutative ring (with + and * as the code calls
    them, and any notion of equality for which the ring laws hold) *)
Section Ring.
Context {R : Type} (O I : R) (radd rmul rsub : R -> R -> R) (ropp : R -> R) (req : R -> R -> Prop).
Context (Req : Equivalence req) (Rext : ring_eq_ext radd rmul ropp req) (Rth : ring_theory O I radd rmul rsub ropp req).
Local Notation mmul := (mat_mul O radd rmul).
(** same shape, entries pairwise equal *)
Definition same (a b : mat R) : Prop := mrows a = mrows b /\ mcols a = mcols b /\ Forall2 req (mdata a) (mdata b).

(** The shape test and the entries: (ab)_ij = sum_k a_ik b_kj, literally. *)
Theorem C23_entries a b :
  (mcols a <> mrows b -> mmul a b = Err ValueError) /\
  (mcols a = mrows b -> exists c, mmul a b = Ok c /\ is_matrix c /\ mrows c = mrows a /\ mcols c = mcols b /\
     forall i j, i < mrows a -> j < mcols b ->
       entry O (mcols c) (mdata c) i j =
       rsum O radd (mcols a) (fun k => rmul (entry O (mcols a) (mdata a) i k) (entry O (mcols b) (mdata b) k j))).
Proof.
  split; [apply mat_mul_shape|]. intros H. exists (prod O radd rmul a b). split; [now apply mul_ok|].
  split; [apply is_matrix_wf, prod_wf|]. split; [reflexivity|]. split; [reflexivity|]. intros i j Hi Hj. now apply (prod_e O radd rmul a b).
Qed.
Theorem C23_associative a b c ab bc : is_matrix a -> is_matrix b -> is_matrix c -> mmul a b = Ok ab -> mmul b c = Ok bc ->
  exists x y, mmul ab c = Ok x /\ mmul a bc = Ok y /\ same x y.
Proof.
  intros Wa Wb Wc E1 E2.
  destruct (Nat.eq_dec (mcols a) (mrows b)) as [H1|H1]; [|rewrite mat_mul_shape in E1 by exact H1; discriminate].
  destruct (Nat.eq_dec (mcols b) (mrows c)) as [H2|H2]; [|rewrite mat_mul_shape in E2 by exact H2; discriminate].
  rewrite mul_ok in E1, E2 by assumption. injection E1 as <-. injection E2 as <-.
  exists (prod O radd rmul (prod O radd rmul a b) c), (prod O radd rmul a (prod O radd rmul b c)).
  split; [now apply mul_ok|]. split; [now apply mul_ok|]. now apply (prod_assoc O I radd rmul rsub ropp req).
Qed.
Theorem C23_identity a : is_matrix a -> exists l r x y,
  mat_identity O I (Z.of_nat (mrows a)) = Ok l /\ mat_identity O I (Z.of_nat (mcols a)) = Ok r /\
  mmul l a = Ok x /\ mmul a r = Ok y /\ same x a /\ same y a.
Proof.
  intros W. apply is_matrix_wf in W. destruct (identity_ok O I (mrows a)) as [l [El Il]], (identity_ok O I (mcols a)) as [r [Er Ir]].
  exists l, r, (prod O radd rmul l a), (prod O radd rmul a r). pose proof Il as [_ [L1 [L2 _]]]. pose proof Ir as [_ [R1 [R2 _]]].
  split; [exact El|]. split; [exact Er|]. split; [now apply mul_ok|]. split; [now apply mul_ok|].
  split; [now apply (prod_id_l O I radd rmul rsub ropp req Req Rext Rth (mrows a))|now apply (prod_id_r O I radd rmul rsub ropp req Req Rext Rth (mcols a))].
Qed.
(** what [Matrix.identity] is *)
Theorem C23_identity_entries n : exists m, mat_identity O I (Z.of_nat n) = Ok m /\ is_matrix m /\ mrows m = n /\ mcols m = n /\
  forall i j, i < n -> j < n -> entry O n (mdata m) i j = if i =? j then I else O.
Proof.
  destruct (identity_ok O I n) as [m [E [W [E1 [E2 E3]]]]]. exists m. split; [exact E|]. split; [now apply is_matrix_wf|]. split; [exact E1|]. split; [exact E2|].
  intros i j Hi Hj. rewrite <- (E3 i j Hi Hj). unfold ent. now rewrite E2.
Qed.

(** ** C24 *)
(** [mprod m k] : m * (m * (... * identity)), k factors *)
Fixpoint mprod (m : mat R) (k : nat) : res (mat R) :=
  match k with 0 => mat_identity O I (Z.of_nat (mrows m)) | S k' => r <- mprod m k' ;; mmul m r end.
Theorem C24_power m k : is_matrix m ->
  (mrows m <> mcols m -> mat_pow O I radd rmul m k = Err ValueError) /\
  (mrows m = mcols m -> (k < 0)%Z -> mat_pow O I radd rmul m k = Err NotImplementedError) /\
  (mrows m = mcols m -> (0 <= k)%Z -> exists r p, mat_pow O I radd rmul m k = Ok r /\ mprod m (Z.to_nat k) = Ok p /\ same r p).
Proof.
  intros W. apply is_matrix_wf in W. split; [|split].
  - intros H. unfold mat_pow. apply Nat.eqb_neq in H. now rewrite H.
  - intros H Hk. unfold mat_pow. rewrite (proj2 (Nat.eqb_eq _ _) H). cbn [negb]. destruct (Z.ltb_spec k 0); [reflexivity|lia].
  - intros H Hk. unfold mat_pow. rewrite (proj2 (Nat.eqb_eq _ _) H). cbn [negb]. destruct (Z.ltb_spec k 0); [lia|].
    destruct (identity_ok O I (mrows m)) as [e [Ee Ie]]. rewrite Ee. cbn [bind]. pose proof Ie as [We [E1 [E2 _]]].
    set (n := mrows m) in *.
    destruct (pow_loop_ok O I radd rmul rsub ropp req Req Rext Rth n e m Ie W eq_refl (eq_sym H) (S (S (Z.to_nat (Z.log2 k)))) k e m 0 1) as [r [E [A [B [C D]]]]]; auto.
    + lia.
    + reflexivity.
    + symmetry. cbn [mpow_nat]. apply (prod_id_r O I radd rmul rsub ropp req Req Rext Rth n e m Ie W (eq_sym H)).
    + exists r, (mpow_nat O radd rmul e m (Z.to_nat k)). split; [exact E|].
      assert (P : forall j, mprod m j = Ok (mpow_nat O radd rmul e m j)).
      { induction j as [|j IH]; [exact Ee|]. cbn [mprod mpow_nat]. rewrite IH. cbn [bind]. apply mul_ok.
        rewrite (proj1 (proj2 (mpow_shape O I radd rmul n e m Ie eq_refl j))). now symmetry. }
      split; [apply P|]. replace (Z.to_nat k) with (0 + 1 * Z.to_nat k) by lia. exact D.
Qed.
End Ring.

(** *** Instances: int matrices (equality of objects) ... *)
Lemma Zext : ring_eq_ext Z.add Z.mul Z.opp (@eq Z).
Proof. split; [intros ? ? -> ? ? -> |intros ? ? -> ? ? -> |intros ? ? ->]; reflexivity. Qed.
Lemma same_eq {R} (a b : mat R) : same eq a b -> a = b.
Proof. intros [A [B C]]. destruct a, b. cbn in *. subst. f_equal. clear -C. induction C; congruence. Qed.
Theorem C23_int_associative (a b c ab bc : mat Z) : is_matrix a -> is_matrix b -> is_matrix c ->
  mat_mul 0%Z Z.add Z.mul a b = Ok ab -> mat_mul 0%Z Z.add Z.mul b c = Ok bc ->
  exists x, mat_mul 0%Z Z.add Z.mul ab c = Ok x /\ mat_mul 0%Z Z.add Z.mul a bc = Ok x.
Proof.
  intros Ha Hb Hc E1 E2.
  destruct (C23_associative 0%Z 1%Z Z.add Z.mul Z.sub Z.opp eq _ Zext InitialRing.Zth a b c ab bc Ha Hb Hc E1 E2) as [x [y [X [Y S]]]].
  apply same_eq in S. subst y. now exists x.
Qed.
(** ... and matrices of ints and LPolys in any mix (equality of values). *)
Theorem C23_num_associative (a b c ab bc : mat num) : is_matrix a -> is_matrix b -> is_matrix c ->
  mat_mul (NI 0) nadd nmul a b = Ok ab -> mat_mul (NI 0) nadd nmul b c = Ok bc ->
  exists x y, mat_mul (NI 0) nadd nmul ab c = Ok x /\ mat_mul (NI 0) nadd nmul a bc = Ok y /\ same neq x y.
Proof. apply (C23_associative (NI 0) (NI 1) nadd nmul nsub nneg neq _ nring_ext nring). Qed.
Theorem C24_num_power (m : mat num) k : is_matrix m -> mrows m = mcols m -> (0 <= k)%Z ->
  exists r p, mat_pow (NI 0) (NI 1) nadd nmul m k = Ok r /\ mprod (NI 0) (NI 1) nadd nmul m (Z.to_nat k) = Ok p /\ same neq r p.
Proof. intros H. apply (C24_power (NI 0) (NI 1) nadd nmul nsub nneg neq _ nring_ext nring m k H). Qed.
Theorem C24_int_power (m : mat Z) k : is_matrix m -> mrows m = mcols m -> (0 <= k)%Z ->
  mat_pow 0%Z 1%Z Z.add Z.mul m k = mprod 0%Z 1%Z Z.add Z.mul m (Z.to_nat k).
Proof.
  intros H Hs Hk. destruct (C24_power 0%Z 1%Z Z.add Z.mul Z.sub Z.opp eq _ Zext InitialRing.Zth m k H) as [_ [_ P]].
  destruct (P Hs Hk) as [r [p [-> [-> S]]]]. now rewrite (same_eq _ _ S).
Qed.
Example C24_example : mat_pow 0%Z 1%Z Z.add Z.mul (mkM 2 2 [1; 1; 1; 0]%Z) 6 = Ok (mkM 2 2 [13; 8; 8; 5]%Z)
  /\ is_matrix (mkM 2 2 [1; 1; 1; 0]%Z) /\ mat_mul 0%Z Z.add Z.mul (mkM 1 2 [3; 4]%Z) (mkM 2 3 [1; 2; 3; 4; 5; 6]%Z) = Ok (mkM 1 3 [19; 26; 33]%Z).
Proof. repeat split. exists 2%Z, 2%Z, [1; 1; 1; 0]%Z. reflexivity. Qed.
(** Python's [==] sees the difference between the int identity and LPoly
    entries: M**0 is never equal to an LPoly matrix, even the identity. *)
Theorem C24_zeroth_power_is_int (m : mat num) : mrows m = mcols m ->
  exists r, mat_pow (NI 0) (NI 1) nadd nmul m 0 = Ok r /\ Forall (fun x => x = NI 0 \/ x = NI 1) (mdata r).
Proof.
  intros H. unfold mat_pow. rewrite (proj2 (Nat.eqb_eq _ _) H). cbn [negb Z.ltb Z.compare].
  unfold mat_identity, mat_scalar. rewrite Nat2Z.id. rewrite mat_make_ok by (rewrite map_length; unfold pairs; now rewrite prod_length, seq_length).
  cbn [bind]. change (Z.to_nat (Z.log2 0)) with 0. cbn [mat_pow_loop Z.eqb]. eexists. split; [reflexivity|]. cbn [mdata].
  apply Forall_forall. intros x Hx. apply in_map_iff in Hx. destruct Hx as [[i j] [<- _]]. destruct (i =? j); auto.
Qed.

(** ** C25 *)
Section Access.
Context {R : Type} (O : R).
Theorem C25_getitem (m : mat R) i j : is_matrix m ->
  mat_get m i j = if ((0 <=? i) && (i <? Z.of_nat (mrows m)) && (0 <=? j) && (j <? Z.of_nat (mcols m)))%Z
                  then Ok (entry O (mcols m) (mdata m) (Z.to_nat i) (Z.to_nat j)) else Err IndexError.
Proof.
  intros W. apply is_matrix_wf in W.
  destruct (Z.leb_spec 0 i), (Z.ltb_spec i (Z.of_nat (mrows m))), (Z.leb_spec 0 j), (Z.ltb_spec j (Z.of_nat (mcols m))); cbn [andb];
    try (apply mat_get_bad; lia).
  change (mat_get m i j = Ok (ent O m (Z.to_nat i) (Z.to_nat j))). rewrite <- (mat_get_ok O m (Z.to_nat i) (Z.to_nat j)) by (auto; lia). now rewrite !Z2Nat.id by lia.
Qed.
Theorem C25_column (m : mat R) j : is_matrix m ->
  ((0 <= j < Z.of_nat (mcols m))%Z -> exists c, mat_column m j = Ok c /\ is_matrix c /\ mrows c = mrows m /\ mcols c = 1 /\
      forall i, i < mrows m -> entry O 1 (mdata c) i 0 = entry O (mcols m) (mdata m) i (Z.to_nat j)) /\
  (~ (0 <= j < Z.of_nat (mcols m))%Z -> mat_column m j = Err IndexError).
Proof.
  intros W. apply is_matrix_wf in W. unfold mat_column. split; intros H.
  - destruct (Z.leb_spec 0 j); [|lia]. destruct (Z.ltb_spec j (Z.of_nat (mcols m))); [|lia]. cbn [andb negb].
    rewrite (mapM_ok _ (fun i => ent O m i (Z.to_nat j))).
    2: { intros i Hi. apply in_seq in Hi. rewrite <- (Z2Nat.id j) at 1 by lia. apply mat_get_ok; auto; lia. }
    cbn [bind]. assert (L : length (map (fun i => ent O m i (Z.to_nat j)) (seq 0 (mrows m))) = mrows m * 1) by (rewrite map_length, seq_length; lia).
    change 1%Z with (Z.of_nat 1). rewrite mat_make_ok by exact L. eexists. split; [reflexivity|]. split; [apply is_matrix_wf; exact L|].
    split; [reflexivity|]. split; [reflexivity|]. intros i Hi. cbn [mdata]. unfold entry at 1.
    replace (1 * i + 0) with i by lia. now apply nth_map_seq with (f := fun i => ent O m i (Z.to_nat j)).
  - destruct (Z.leb_spec 0 j); [|reflexivity]. destruct (Z.ltb_spec j (Z.of_nat (mcols m))); [lia|reflexivity].
Qed.
(** [row] is right exactly for 0 <= i < min(nrows, ncols), because its bounds
    test compares with ncols ... *)
Theorem C25_row_partial (m : mat R) i : is_matrix m ->
  ((0 <= i < Z.of_nat (mrows m))%Z -> (i < Z.of_nat (mcols m))%Z ->
     exists c, mat_row m i = Ok c /\ is_matrix c /\ mrows c = 1 /\ mcols c = mcols m /\
       forall j, j < mcols m -> entry O (mcols m) (mdata c) 0 j = entry O (mcols m) (mdata m) (Z.to_nat i) j) /\
  (~ (0 <= i < Z.of_nat (mrows m))%Z -> mat_row m i = Err IndexError) /\
  ((Z.of_nat (mcols m) <= i)%Z -> mat_row m i = Err IndexError).
Proof.
  intros W. apply is_matrix_wf in W. unfold mat_row. split; [|split].
  - intros H K. destruct (Z.leb_spec 0 i); [|lia]. destruct (Z.ltb_spec i (Z.of_nat (mcols m))); [|lia]. cbn [andb negb].
    rewrite (mapM_ok _ (fun j => ent O m (Z.to_nat i) j)).
    2: { intros j Hj. apply in_seq in Hj. rewrite <- (Z2Nat.id i) at 1 by lia. apply mat_get_ok; auto; lia. }
    cbn [bind]. assert (L : length (map (fun j => ent O m (Z.to_nat i) j) (seq 0 (mcols m))) = 1 * mcols m) by (rewrite map_length, seq_length; lia).
    change 1%Z with (Z.of_nat 1). rewrite mat_make_ok by exact L. eexists. split; [reflexivity|]. split; [apply is_matrix_wf; exact L|].
    split; [reflexivity|]. split; [reflexivity|]. intros j Hj. cbn [mdata]. unfold entry at 1.
    replace (mcols m * 0 + j) with j by lia. now apply nth_map_seq with (f := fun j => ent O m (Z.to_nat i) j).
  - intros H. destruct (Z.leb_spec 0 i); [|reflexivity]. destruct (Z.ltb_spec i (Z.of_nat (mcols m))); [|reflexivity]. cbn [andb negb].
    destruct (mcols m) as [|c] eqn:Ec; [lia|]. cbn [seq mapM]. rewrite mat_get_bad by lia. reflexivity.
  - intros H. destruct (Z.leb_spec 0 i); [|reflexivity]. destruct (Z.ltb_spec i (Z.of_nat (mcols m))); [lia|reflexivity].
Qed.
(** ... so the property as stated fails for every matrix with more rows than columns. *)
Theorem C25_row_refuted (m : mat R) : is_matrix m -> mcols m < mrows m ->
  exists i, (0 <= i < Z.of_nat (mrows m))%Z /\ mat_row m i = Err IndexError.
Proof.
  intros W H. exists (Z.of_nat (mcols m)). split; [lia|]. apply (C25_row_partial m _ W). lia.
Qed.
Theorem C25_transpose (m : mat R) : is_matrix m -> exists t, mat_transpose m = Ok t /\ is_matrix t /\ mrows t = mcols m /\ mcols t = mrows m /\
  (forall i j, i < mcols m -> j < mrows m -> entry O (mcols t) (mdata t) i j = entry O (mcols m) (mdata m) j i) /\ mat_transpose t = Ok m.
Proof.
  intros W. apply is_matrix_wf in W. destruct (transpose_ok O m W) as [t [E [Wt [R1 [C1 H]]]]]. exists t. split; [exact E|]. split; [now apply is_matrix_wf|].
  split; [exact R1|]. split; [exact C1|]. split; [exact H|]. destruct (transpose_ok O t Wt) as [u [E' [Wu [R2 [C2 H']]]]]. rewrite E'. f_equal.
  apply (mat_ext O); auto; try congruence. intros i j Hi Hj. rewrite H' by congruence. apply H; congruence.
Qed.

(** ** C26 *)
(** The [zip] pairs each i with itself, so the answer is always True ... *)
Theorem C26_partial (reqb : R -> R -> bool) (m : mat R) : (forall x, reqb x x = true) -> is_matrix m ->
  mat_is_symmetric reqb m = Ok true.
Proof.
  intros Hr W. apply is_matrix_wf in W. unfold mat_is_symmetric.
  assert (K : forall r c s, s + r <= mrows m -> s + c <= mcols m ->
     foldM (fun (acc : bool) '(i, j) => if acc then x <- mat_get m (Z.of_nat i) (Z.of_nat j) ;; y <- mat_get m (Z.of_nat j) (Z.of_nat i) ;; Ok (reqb x y) else Ok false)
       (combine (seq s r) (seq s c)) true = Ok true).
  { induction r as [|r IH]; intros c s Hr' Hc'; [reflexivity|]. destruct c as [|c]; [reflexivity|]. cbn [seq combine foldM].
    rewrite (mat_get_ok O m s s) by (auto; lia). cbn [bind]. rewrite Hr. apply IH; lia. }
  apply K; lia.
Qed.
(** ... hence symmetric matrices are accepted, but so is every other matrix. *)
Theorem C26_refuted (reqb : R -> R -> bool) (x y : R) : (forall x, reqb x x = true) -> x <> y ->
  exists m, is_matrix m /\ mrows m = 2 /\ mcols m = 2 /\ mat_get m 0 1 <> mat_get m 1 0 /\ mat_is_symmetric reqb m = Ok true.
Proof.
  intros Hr N. exists (mkM 2 2 [x; x; y; x]). assert (W : is_matrix (mkM 2 2 [x; x; y; x])) by (exists 2%Z, 2%Z, [x; x; y; x]; reflexivity).
  split; [exact W|]. split; [reflexivity|]. split; [reflexivity|]. split; [|now apply C26_partial]. cbn. intros E. injection E as E. contradiction.
Qed.
End Access.

(** ** C82: rows() and from_rows() *)
Lemma firstn_skipn_concat {A} (c : nat) (rows : list (list A)) i : Forall (fun r => length r = c) rows -> i < length rows ->
  firstn c (skipn (c * i) (concat rows)) = nth i rows [].
Proof.
  intros F. revert i. induction F as [|r rows Hr F IH]; intros i Hi; [cbn in Hi; lia|]. destruct i as [|i].
  - rewrite Nat.mul_0_r. cbn [skipn concat nth]. rewrite <- Hr. rewrite firstn_app, Nat.sub_diag, firstn_all. cbn. apply app_nil_r.
  - cbn [concat nth]. replace (c * S i) with (c + c * i) by lia. rewrite <- Hr at 2. rewrite skipn_app.
    rewrite skipn_all2 by lia. replace (length r + c * i - length r) with (c * i) by lia. cbn [app]. apply IH. cbn in Hi. lia.
Qed.
Theorem C82_from_rows {R} (rows : list (list R)) c : rows <> [] -> Forall (fun r => length r = c) rows ->
  exists m, mat_from_rows rows = Ok m /\ is_matrix m /\ mrows m = length rows /\ mcols m = c /\ mat_rows m = rows.
Proof.
  intros N F. destruct rows as [|r0 rows]; [contradiction|]. unfold mat_from_rows. cbn [get nth_error bind].
  assert (C0 : length r0 = c) by (now inversion F).
  assert (A : forallb (fun row => length row =? length r0) (r0 :: rows) = true).
  { apply forallb_forall. intros r Hr. apply Nat.eqb_eq. rewrite C0. now apply (proj1 (Forall_forall _ _) F). }
  change (get (r0 :: rows) 0) with (Ok r0). cbn [bind].
  rewrite A. cbn [assert_ bind]. assert (L : length (concat (r0 :: rows)) = length (r0 :: rows) * length r0).
  { clear -F C0. rewrite C0. clear C0. induction F as [|r l H F IH]; [reflexivity|]. cbn [concat length]. rewrite app_length, IH. lia. }
  rewrite mat_make_ok by exact L. eexists. split; [reflexivity|]. split; [apply is_matrix_wf; exact L|]. split; [reflexivity|]. split; [exact C0|].
  unfold mat_rows. cbn [mrows mcols mdata]. apply (nth_ext_len _ _ (length (r0 :: rows)) []); [now rewrite map_length, seq_length|reflexivity|].
  intros i Hi. rewrite (nth_map_seq (fun i => firstn (length r0) (skipn (length r0 * i) (concat (r0 :: rows))))) by exact Hi. apply firstn_skipn_concat; [now rewrite C0|exact Hi].
Qed.
Theorem C82_rows {R} (m : mat R) : is_matrix m -> 0 < mrows m ->
  length (mat_rows m) = mrows m /\ Forall (fun r => length r = mcols m) (mat_rows m) /\ mat_from_rows (mat_rows m) = Ok m.
Proof.
  intros W H. apply is_matrix_wf in W. assert (L : length (mat_rows m) = mrows m) by (unfold mat_rows; now rewrite map_length, seq_length).
  assert (F : Forall (fun r => length r = mcols m) (mat_rows m)).
  { apply Forall_forall. intros r Hr. apply in_map_iff in Hr. destruct Hr as [i [<- Hi]]. apply in_seq in Hi. rewrite firstn_length, skipn_length, W. nia. }
  split; [exact L|]. split; [exact F|]. destruct (C82_from_rows (mat_rows m) (mcols m)) as [m' [E [W' [R1 [C1 R2]]]]]; auto.
  { intros E. rewrite E in L. cbn in L. lia. }
  rewrite E. f_equal. apply is_matrix_wf in W'. destruct m as [r c d], m' as [r' c' d']. cbn [mrows mcols] in *. subst c'.
  rewrite L in R1. subst r'. f_equal.
  assert (K : forall d1 : list R, length d1 = r * c -> concat (mat_rows (mkM r c d1)) = d1).
  { intros d1 L1. unfold mat_rows. cbn [mrows mcols mdata].
    assert (G : forall n k, length d1 = (k + n) * c -> concat (map (fun i => firstn c (skipn (c * i) d1)) (seq k n)) = skipn (c * k) d1).
    { induction n as [|n IH]; intros k Lk; cbn [seq map concat]; [symmetry; apply skipn_all2; nia|].
      rewrite IH by lia. replace (c * S k) with (c * k + c) by lia. rewrite <- (firstn_skipn c (skipn (c * k) d1)) at 2. f_equal.
      replace (c * k + c) with (c + c * k) by lia. clear. revert d1. generalize (c * k) as a. intros a d1. revert c. induction a as [|a IHa] in d1 |- *; intros c.
      - now rewrite Nat.add_0_r.
      - destruct d1 as [|x d1]; [now rewrite !skipn_nil|]. rewrite Nat.add_succ_r. cbn [skipn]. apply IHa. }
    rewrite (G r 0) by exact L1. rewrite Nat.mul_0_r. reflexivity. }
  unfold mwf in *. cbn [mrows mcols mdata] in *. rewrite <- (K d' W'), <- (K d W). now rewrite R2.
Qed.
Theorem C82_empty {R} : mat_from_rows (@nil (list R)) = Err IndexError.
Proof. reflexivity. Qed.
Example C82_example : mat_from_rows [[1; 2; 3]; [4; 5; 6]]%Z = Ok (mkM 2 3 [1; 2; 3; 4; 5; 6]%Z) /\ mat_rows (mkM 2 3 [1; 2; 3; 4; 5; 6]%Z) = [[1; 2; 3]; [4; 5; 6]]%Z
  /\ mat_row (mkM 3 2 [1; 2; 3; 4; 5; 6]%Z) 2 = Err IndexError /\ mat_column (mkM 3 2 [1; 2; 3; 4; 5; 6]%Z) 1 = Ok (mkM 3 1 [2; 4; 6]%Z).
Proof. repeat split. Qed.

(** ** C83: trace and transpose of a product *)
Section Trace.
Context {R : Type} (O I : R) (radd rmul rsub : R -> R -> R) (ropp : R -> R) (req : R -> R -> Prop).
Context (Req : Equivalence req) (Rext : ring_eq_ext radd rmul ropp req) (Rth : ring_theory O I radd rmul rsub ropp req).
Add Ring Rr2 : Rth (setoid Req Rext).
Theorem C83_trace (m : mat R) : is_matrix m ->
  mat_trace O radd m = if mrows m =? mcols m then Ok (rsum O radd (mrows m) (fun i => entry O (mcols m) (mdata m) i i)) else Err ValueError.
Proof.
  intros W. apply is_matrix_wf in W. unfold mat_trace. destruct (Nat.eqb_spec (mrows m) (mcols m)) as [H|H]; [|reflexivity]. cbn [negb].
  rewrite (mapM_ok _ (fun i => entry O (mcols m) (mdata m) i i)).
  2: { intros i Hi. apply in_seq in Hi. apply get_ok. rewrite W. apply pos_lt; lia. }
  cbn [bind]. f_equal. rewrite fold_left_map. apply rsum_fold.
Qed.
Theorem C83_trace_cyclic a b : is_matrix a -> is_matrix b -> mcols a = mrows b -> mcols b = mrows a -> exists ab ba x y,
  mat_mul O radd rmul a b = Ok ab /\ mat_mul O radd rmul b a = Ok ba /\ mat_trace O radd ab = Ok x /\ mat_trace O radd ba = Ok y /\ req x y.
Proof.
  intros Ha Hb H1 H2. exists (prod O radd rmul a b), (prod O radd rmul b a).
  eexists _, _. split; [now apply mul_ok|]. split; [now apply mul_ok|].
  rewrite !C83_trace by apply is_matrix_wf, prod_wf. cbn [prod mrows mcols]. rewrite H2, <- H1, !Nat.eqb_refl.
  split; [reflexivity|]. split; [reflexivity|].
  transitivity (rsum O radd (mrows a) (fun i => rsum O radd (mcols a) (fun k => rmul (ent O a i k) (ent O b k i)))).
  - apply (rsum_ext O radd rmul ropp req Req Rext). intros i Hi. rewrite <- (prod_e O radd rmul a b i i) by lia. unfold ent. cbn [prod mcols mdata]. rewrite H2. reflexivity.
  - etransitivity; [apply (rsum_swap O I radd rmul rsub ropp req Req Rext Rth)|]. apply (rsum_ext O radd rmul ropp req Req Rext). intros k Hk.
    transitivity (ent O (prod O radd rmul b a) k k); [|unfold ent; cbn [prod mcols mdata]; reflexivity].
    rewrite prod_e by lia. rewrite H2. apply (rsum_ext O radd rmul ropp req Req Rext). intros i Hi. ring.
Qed.
Theorem C83_transpose_product a b : is_matrix a -> is_matrix b -> mcols a = mrows b -> exists ab ta tb tab x,
  mat_mul O radd rmul a b = Ok ab /\ mat_transpose a = Ok ta /\ mat_transpose b = Ok tb /\ mat_transpose ab = Ok tab /\
  mat_mul O radd rmul tb ta = Ok x /\ same req tab x.
Proof.
  intros Wa Wb H. apply is_matrix_wf in Wa, Wb. destruct (transpose_ok O a Wa) as [ta [Ea [Wta [Ra [Ca Na]]]]].
  destruct (transpose_ok O b Wb) as [tb [Eb [Wtb [Rb [Cb Nb]]]]]. destruct (transpose_ok O (prod O radd rmul a b) (prod_wf _ _ _ _ _)) as [tab [E [W [R1 [C1 N]]]]].
  exists (prod O radd rmul a b), ta, tb, tab, (prod O radd rmul tb ta). split; [now apply mul_ok|]. repeat (split; [assumption|]).
  split; [apply mul_ok; congruence|]. apply (meq_ent O req _ _ W (prod_wf _ _ _ _ _)). cbn [prod mrows mcols] in *. split; [congruence|]. split; [congruence|].
  intros i j Hi Hj. rewrite N by congruence. rewrite prod_e by congruence. rewrite prod_e by congruence. replace (mcols tb) with (mcols a) by congruence.
  apply (rsum_ext O radd rmul ropp req Req Rext). intros k Hk. rewrite Na, Nb by congruence. ring.
Qed.
End Trace.
Example C83_example : mat_trace 0%Z Z.add (mkM 3 3 [1; 2; 3; 4; 5; 6; 7; 8; 9]%Z) = Ok 15%Z.
Proof. reflexivity. Qed.
