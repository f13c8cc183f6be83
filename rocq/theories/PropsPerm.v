(** PropsPerm.v – properties C01 to C11: permutations. *)
From Verif Require Import Base ModelPerm PermTheory WeakOrder PermWords CycleTheory SpecBraid SpecPerm SpecPermTheory.
From Coq Require Import Permutation Sorted.

(** ** C01 *)
Section C01.
Open Scope Z_scope.
Notation zmask := (fold_left (fun acc x => Z.lor acc (Z.shiftl 1 x))).
Lemma zmask_bit l : forall acc i, 0 <= i -> Forall (fun x => 0 <= x) l ->
  Z.testbit (zmask l acc) i = Z.testbit acc i || existsb (Z.eqb i) l.
Proof.
  induction l as [|x l IH]; intros acc i Hi H; cbn [fold_left existsb]; [now rewrite orb_false_r|].
  inversion H; subst. rewrite IH by assumption. rewrite Z.lor_spec, Z.shiftl_spec by exact Hi.
  rewrite <- orb_assoc. f_equal. f_equal.
  destruct (Z.eqb_spec i x) as [->|N]; [now rewrite Z.sub_diag|].
  destruct (Z.lt_trichotomy i x) as [L|[L|L]]; [|lia|].
  - apply Z.testbit_neg_r. lia.
  - change 1 with (2 ^ 0). rewrite Z.pow2_bits_false; [reflexivity|lia].
Qed.
Lemma zmin_spec l : forall x, (zmin x l <= x) /\ Forall (fun y => zmin x l <= y) l /\ In (zmin x l) (x :: l).
Proof.
  unfold zmin. induction l as [|y l IH]; intros x; cbn [fold_left]; [repeat split; [lia|constructor|now left]|].
  destruct (IH (Z.min x y)) as [A [B C]]. repeat split.
  - lia.
  - constructor; [lia|exact B].
  - destruct C as [C|C]; [|now right; right]. rewrite <- C.
    destruct (Z.min_spec x y) as [[_ E]|[_ E]]; rewrite E; cbn; auto.
Qed.
Lemma zmax_spec l : forall x, (x <= zmax x l) /\ Forall (fun y => y <= zmax x l) l /\ In (zmax x l) (x :: l).
Proof.
  unfold zmax. induction l as [|y l IH]; intros x; cbn [fold_left]; [repeat split; [lia|constructor|now left]|].
  destruct (IH (Z.max x y)) as [A [B C]]. repeat split.
  - lia.
  - constructor; [lia|exact B].
  - destruct C as [C|C]; [|now right; right]. rewrite <- C.
    destruct (Z.max_spec x y) as [[_ E]|[_ E]]; rewrite E; cbn; auto.
Qed.
Lemma zin_iff i l : existsb (Z.eqb i) l = true <-> In i l.
Proof.
  rewrite existsb_exists. split; [intros [y [H E]]; apply Z.eqb_eq in E; now subst|].
  intros H. exists i. split; [exact H|apply Z.eqb_refl].
Qed.

Theorem C01_is_permutation (word : list Z) :
  is_permutation word = true <-> Permutation word (map Z.of_nat (seq 0 (length word))).
Proof.
  destruct word as [|x r]; [split; [intros _; constructor|reflexivity]|].
  unfold is_permutation. set (w := x :: r). set (n := length w).
  destruct (zmin_spec r x) as [A1 [A2 A3]]. destruct (zmax_spec r x) as [B1 [B2 B3]].
  fold w in A3, B3.
  assert (A : Forall (fun y => zmin x r <= y) w) by (constructor; assumption).
  assert (B : Forall (fun y => y <= zmax x r) w) by (constructor; assumption).
  rewrite Forall_forall in A, B. clear A1 A2 B1 B2.
  assert (ON : 2 ^ Z.of_nat n - 1 = Z.ones (Z.of_nat n)) by (rewrite Z.ones_equiv; lia).
  rewrite ON. assert (LS : length (map Z.of_nat (seq 0 n)) = n) by now rewrite map_length, seq_length.
  assert (IS : forall i, In i (map Z.of_nat (seq 0 n)) <-> 0 <= i < Z.of_nat n).
  { intros i. rewrite in_map_iff. split.
    - intros [k [<- H]]. apply in_seq in H. lia.
    - intros H. exists (Z.to_nat i). split; [lia|]. apply in_seq. lia. }
  split.
  - destruct (Z.eqb_spec (zmin x r) 0) as [E0|]; [|discriminate].
    destruct (Z.eqb_spec (zmax x r) (Z.of_nat n - 1)) as [E1|]; [|discriminate]. cbn [negb orb].
    intros E. apply Z.eqb_eq in E. symmetry. apply NoDup_Permutation_bis.
    + apply FinFun.Injective_map_NoDup; [intros a b; lia|apply seq_NoDup].
    + rewrite LS. reflexivity.
    + intros i Hi. apply IS in Hi. apply zin_iff.
      assert (T : Z.testbit (zmask w 0) i = true) by (rewrite E; apply Z.ones_spec_low; lia).
      rewrite zmask_bit in T; [|lia|].
      * rewrite Z.bits_0 in T. exact T.
      * apply Forall_forall. intros y Hy. rewrite <- E0. now apply A.
  - intros PM.
    assert (IW : forall i, In i w <-> 0 <= i < Z.of_nat n).
    { intros i. rewrite <- IS. split; apply Permutation_in; [exact PM|now symmetry]. }
    assert (n0 : (0 < n)%nat) by (unfold n, w; cbn; lia).
    assert (E0 : zmin x r = 0).
    { apply IW in A3. assert (K : In 0 w) by (apply IW; lia). apply A in K. lia. }
    assert (E1 : zmax x r = Z.of_nat n - 1).
    { apply IW in B3. assert (K : In (Z.of_nat n - 1) w) by (apply IW; lia). apply B in K. lia. }
    rewrite E0, E1, !Z.eqb_refl. cbn [negb orb]. apply Z.eqb_eq. apply Z.bits_inj'. intros i Hi.
    rewrite zmask_bit; [|exact Hi|apply Forall_forall; intros y Hy; apply IW in Hy; lia].
    rewrite Z.bits_0, orb_false_l. apply Bool.eq_iff_eq_true. rewrite (zin_iff i w), IW.
    rewrite Z.testbit_ones_nonneg by lia. rewrite Z.ltb_lt. lia.
Qed.
End C01.
Example C01_case_yes : is_permutation [2; 0; 3; 1]%Z = true. Proof. reflexivity. Qed.
Example C01_case_dup : is_permutation [0; 3; 3; 1]%Z = false. Proof. reflexivity. Qed.
Example C01_case_neg : is_permutation [0; -1; 3; 1]%Z = false. Proof. reflexivity. Qed.

(** ** C02 *)
Theorem C02_compose n x y : is_perm_word n x -> is_perm_word n y ->
  exists z, compose x y = Ok z /\ is_perm_word n z /\ forall i, i < n -> nth i z 0 = nth (nth i y 0) x 0.
Proof.
  intros Hx Hy. exists (pcomp x y). split; [now apply (compose_ok n)|]. split; [now apply isperm_pcomp|].
  intros i Hi. now apply (app_pcomp n).
Qed.
Theorem C02_assoc n x y z : is_perm_word n x -> is_perm_word n y -> is_perm_word n z ->
  exists xy yz w, compose x y = Ok xy /\ compose y z = Ok yz /\ compose xy z = Ok w /\ compose x yz = Ok w.
Proof.
  intros Hx Hy Hz. exists (pcomp x y), (pcomp y z), (pcomp (pcomp x y) z).
  rewrite !(compose_ok n) by auto using isperm_pcomp. repeat split. now rewrite (pcomp_assoc n) by assumption.
Qed.
Theorem C02_identity n x : is_perm_word n x ->
  is_perm_word n (identity n) /\ (forall i, i < n -> nth i (identity n) 0 = i) /\
  compose (identity n) x = Ok x /\ compose x (identity n) = Ok x.
Proof.
  intros Hx. split; [apply isperm_id|]. split; [apply app_id|].
  rewrite !(compose_ok n) by (try exact Hx; apply isperm_id). rewrite (pcomp_id_l n), (pcomp_id_r n) by exact Hx. auto.
Qed.
Theorem C02_inverse n x : is_perm_word n x ->
  exists y, inverse x = Ok y /\ is_perm_word n y /\ compose x y = Ok (seq 0 n) /\ compose y x = Ok (seq 0 n).
Proof.
  intros Hx. exists (pinv x). split; [now apply (inverse_ok n)|]. split; [now apply isperm_pinv|].
  rewrite !(compose_ok n) by auto using isperm_pinv. rewrite (pcomp_pinv_r n), (pcomp_pinv_l n) by exact Hx. auto.
Qed.
Theorem C02_size_mismatch x y : length x <> length y -> compose x y = Err ValueError.
Proof. apply compose_err. Qed.
Example C02_case : compose [1; 2; 0] [1; 0; 2] = Ok [2; 1; 0] /\ inverse [1; 2; 0] = Ok [2; 0; 1].
Proof. split; reflexivity. Qed.

(** ** C03 *)
Theorem C03_least_word n x : is_perm_word n x ->
  (exists u, expresses n u x /\ length u = plength x) /\
  (forall u, expresses n u x -> plength x <= length u).
Proof.
  intros Hx. split.
  - destruct (redw_ex n x Hx) as [u Hu]. exists u. split; [now apply shortest_redw|].
    rewrite (redw_len n u x Hu). now apply (llen_plength n).
  - intros u Hu. apply expresses_iff in Hu. destruct Hu as [H <-]. now apply (plength_prodw n).
Qed.
Theorem C03_zero n x : is_perm_word n x -> (plength x = 0 <-> x = identity n).
Proof.
  intros Hx. split; [|intros ->; apply plength_id].
  intros E. destruct (list_eq_dec Nat.eq_dec x (identity n)) as [K|K]; [exact K|exfalso].
  destruct (ex_Rdes n x Hx K) as [i [Hi D]].
  pose proof (plength_swap x i) as S. rewrite (isperm_length n x Hx) in S. specialize (S Hi D). lia.
Qed.
Theorem C03_inverse n x : is_perm_word n x -> exists y, inverse x = Ok y /\ plength y = plength x.
Proof. intros Hx. exists (pinv x). split; [now apply (inverse_ok n)|]. now apply (plength_pinv n). Qed.

Lemma filter_len_all {A} (f : A -> bool) l : length (filter f l) <= length l.
Proof. induction l as [|x l IH]; [auto|]. cbn. destruct (f x); cbn; lia. Qed.
Lemma filter_len_eq {A} (f : A -> bool) l : length (filter f l) = length l -> forall x, In x l -> f x = true.
Proof.
  induction l as [|x l IH]; intros E y Hy; [destruct Hy|]. cbn in E. pose proof (filter_len_all f l).
  destruct (f x) eqn:K; cbn in E; [|lia]. destruct Hy as [<-|Hy]; [exact K|]. apply IH; [lia|exact Hy].
Qed.
Lemma invs_max l : 2 * invs l = length l * (length l - 1) -> forall i j, i < j -> j < length l -> nth j l 0 < nth i l 0.
Proof.
  induction l as [|x l IH]; intros E i j Hij Hj; [cbn in Hj; lia|].
  change (invs (x :: l)) with (length (filter (fun y => y <? x) l) + invs l) in E.
  pose proof (invs_bound l). pose proof (filter_len_all (fun y => y <? x) l). cbn [length] in *.
  assert (E1 : length (filter (fun y => y <? x) l) = length l) by nia.
  assert (E2 : 2 * invs l = length l * (length l - 1)) by nia.
  destruct j as [|j]; [lia|]. destruct i as [|i]; cbn [nth].
  - assert (K := filter_len_eq _ _ E1 (nth j l 0)). apply Nat.ltb_lt. apply K. apply nth_In. lia.
  - apply IH; [exact E2|lia|lia].
Qed.
Lemma decr_longest n w : isperm n w -> (forall i, i + 1 < n -> ap w (i + 1) < ap w i) -> w = longest_element n.
Proof.
  intros Hw H. apply (pcomp_cancel_l n (longest_element n)); auto using isperm_longest.
  rewrite longest_invol. apply incr_id; [apply isperm_pcomp; auto using isperm_longest|].
  intros i Hi. rewrite !(app_pcomp n) by (auto using isperm_longest; lia).
  pose proof (isperm_app_lt n w i Hw ltac:(lia)). pose proof (isperm_app_lt n w (i + 1) Hw ltac:(lia)).
  rewrite !app_longest by assumption. specialize (H i Hi). lia.
Qed.
Lemma invs_longest_aux k : forall l, length l = k -> (forall i j, i < j -> j < length l -> nth j l 0 < nth i l 0) -> 2 * invs l = length l * (length l - 1).
Proof.
  induction k as [|k IH]; intros [|x l] L H; try discriminate; [reflexivity|].
  change (invs (x :: l)) with (length (filter (fun y => y <? x) l) + invs l). cbn [length] in *.
  assert (E : filter (fun y => y <? x) l = l).
  { assert (K : forall y, In y l -> y < x).
    { intros y Hy. apply (In_nth _ _ 0) in Hy. destruct Hy as [j [Hj <-]]. apply (H 0 (S j)); lia. }
    clear - K. induction l as [|y l IH]; [reflexivity|]. cbn [filter]. destruct (Nat.ltb_spec y x) as [_|N].
    - f_equal. apply IH. intros z Hz. apply K. now right.
    - specialize (K y (or_introl eq_refl)). lia. }
  rewrite E. assert (2 * invs l = length l * (length l - 1)); [|nia].
  apply IH; [lia|]. intros i j Hi Hj. apply (H (S i) (S j)); lia.
Qed.
Theorem C03_maximum n x : is_perm_word n x ->
  2 * plength x <= n * (n - 1) /\ (2 * plength x = n * (n - 1) <-> x = longest_element n).
Proof.
  intros Hx. pose proof (isperm_length n x Hx) as L.
  split; [rewrite <- L; apply plength_bound|]. rewrite plength_invs. split.
  - rewrite <- L at 1 2. intros E. apply decr_longest; [exact Hx|].
    intros i Hi. apply (invs_max x E); lia.
  - intros ->. pose proof (invs_longest_aux n (longest_element n) (longest_length n)) as K. rewrite longest_length in K.
    apply K. intros i j Hi Hj. rewrite !app_longest by lia. lia.
Qed.
Example C03_case : plength [3; 1; 0; 2] = 4 /\ is_perm_word 4 [3; 1; 0; 2].
Proof.
  split; [reflexivity|]. apply NoDup_Permutation_bis; [repeat constructor; cbn; lia|cbn; lia|].
  intros x Hx. cbn in *. lia.
Qed.

(** ** C04 *)
Lemma llen_flip n w i : isperm n w -> i + 1 < n -> plength (pcomp (sg n i) w) = plength (swap (pinv w) i (i + 1)).
Proof.
  intros Hw Hi. rewrite <- (plength_pinv n) by (apply isperm_pcomp; auto using isperm_sg).
  now rewrite pinv_sgl.
Qed.
Theorem C04_right n x i : is_perm_word n x -> i + 1 < n ->
  exists y, compose x (swap (seq 0 n) i (i + 1)) = Ok y /\
  (In i (right_descent_set x) -> plength y + 1 = plength x) /\
  (~ In i (right_descent_set x) -> plength y = plength x + 1).
Proof.
  intros Hx Hi. pose proof (isperm_length n x Hx) as L.
  change (swap (seq 0 n) i (i + 1)) with (sg n i). exists (pcomp x (sg n i)).
  split; [apply (compose_ok n); auto using isperm_sg|].
  replace (pcomp x (sg n i)) with (swap x i (i + 1)) by (symmetry; apply (pcomp_ptrans n); auto; lia).
  unfold right_descent_set. rewrite filter_In, in_seq, L. split.
  - intros [_ K]. apply Nat.ltb_lt in K. pose proof (plength_swap x i ltac:(lia) K). lia.
  - intros K. assert (ap x i < ap x (i + 1)) as K'.
    { apply (nRdes n); auto. intros D. apply K. split; [lia|]. now apply Nat.ltb_lt. }
    pose proof (plength_swap_up x i ltac:(lia) K'). lia.
Qed.
Theorem C04_left n x i : is_perm_word n x -> i + 1 < n ->
  exists y D, compose (swap (seq 0 n) i (i + 1)) x = Ok y /\ left_descent_set x = Ok D /\
  (In i D -> plength y + 1 = plength x) /\
  (~ In i D -> plength y = plength x + 1).
Proof.
  intros Hx Hi. pose proof (isperm_length n x Hx) as L. pose proof (isperm_pinv n x Hx) as Hp.
  change (swap (seq 0 n) i (i + 1)) with (sg n i). exists (pcomp (sg n i) x), (right_descent_set (pinv x)).
  split; [apply (compose_ok n); auto using isperm_sg|].
  split; [unfold left_descent_set; rewrite (inverse_ok n) by exact Hx; reflexivity|].
  rewrite (llen_flip n) by assumption. rewrite <- (plength_pinv n x Hx).
  destruct (C04_right n (pinv x) i Hp Hi) as [y [E K]].
  change (swap (seq 0 n) i (i + 1)) with (sg n i) in E. rewrite (compose_ok n) in E by auto using isperm_sg.
  injection E as <-. replace (pcomp (pinv x) (sg n i)) with (swap (pinv x) i (i + 1)) in K by (symmetry; apply (pcomp_ptrans n); auto; lia).
  exact K.
Qed.
Lemma list_index_nth n x i : isperm n x -> i < n -> list_index x i = Ok (ap (pinv x) i).
Proof.
  intros Hx Hi. pose proof (isperm_NoDup n x Hx) as ND.
  assert (K : forall l p, NoDup l -> nth_error l p = Some i -> list_index l i = Ok p).
  { clear. induction l as [|y l IH]; intros p ND E; [destruct p; discriminate|]. cbn [list_index].
    inversion ND; subst. destruct p as [|p]; cbn in E.
    - injection E as ->. now rewrite Nat.eqb_refl.
    - destruct (Nat.eqb_spec y i) as [->|N]; [exfalso; apply nth_error_In in E; contradiction|].
      now rewrite (IH p). }
  apply K; [exact ND|]. pose proof (isperm_app_lt n (pinv x) i (isperm_pinv n x Hx) Hi).
  rewrite (nth_error_nth' _ 0) by (rewrite (isperm_length n x Hx); lia).
  f_equal. now apply (app_pinv n).
Qed.
Theorem C04_predicates n x i : is_perm_word n x -> i + 1 < n ->
  exists D bl br, left_descent_set x = Ok D /\ is_left_descent x i = Ok bl /\ is_right_descent x i = Ok br /\
  (bl = true <-> In i D) /\ (br = true <-> In i (right_descent_set x)).
Proof.
  intros Hx Hi. pose proof (isperm_length n x Hx) as L. pose proof (isperm_pinv n x Hx) as Hp.
  unfold left_descent_set, is_left_descent, is_right_descent.
  rewrite (inverse_ok n), !(list_index_nth n), L by (auto; lia). destruct (Nat.ltb_spec i (n - 1)); [|lia].
  cbn [assert_ bind]. eexists _, _, _. split; [reflexivity|]. split; [reflexivity|]. split; [reflexivity|].
  unfold right_descent_set. rewrite !filter_In, !in_seq, L, (isperm_length n _ Hp).
  rewrite !Nat.ltb_lt. split; (split; [intros K; split; [lia|exact K]|intros [_ K]; exact K]).
Qed.
Theorem C04_range n x i : is_perm_word n x ->
  (In i (right_descent_set x) -> i + 1 < n) /\ (forall D, left_descent_set x = Ok D -> In i D -> i + 1 < n) /\
  (n <= i + 1 -> is_left_descent x i = Err AssertionError /\ is_right_descent x i = Err AssertionError).
Proof.
  intros Hx. pose proof (isperm_length n x Hx) as L. pose proof (isperm_pinv n x Hx) as Hp.
  unfold right_descent_set, left_descent_set, is_left_descent, is_right_descent. rewrite (inverse_ok n) by exact Hx.
  split; [|split].
  - rewrite filter_In, in_seq. lia.
  - intros D E. injection E as <-. unfold right_descent_set. rewrite filter_In, in_seq, (isperm_length n _ Hp). lia.
  - intros H. rewrite L. destruct (Nat.ltb_spec i (n - 1)); [lia|]. split; reflexivity.
Qed.
Example C04_case : right_descent_set [3; 1; 0; 2] = [0; 1] /\ left_descent_set [3; 1; 0; 2] = Ok [0; 2].
Proof. split; reflexivity. Qed.
