(** PropsMatrix2.v – property C86: entrywise operations, constructors and equality
    of matrices, observed through [M[i, j]] (C25_getitem). *)
From Verif Require Import Base ModelPoly ModelMatrix SpecMatrix MatrixTheory PropsMatrix.

Section Ops.
Context {R : Type} (O I : R) (radd rmul rsub : R -> R -> R).
Lemma get_in (m : mat R) i j : mwf m -> i < mrows m -> j < mcols m -> mat_get m (Z.of_nat i) (Z.of_nat j) = get (mdata m) (mcols m * i + j) /\ mcols m * i + j < length (mdata m).
Proof.
  intros W Hi Hj. unfold mat_get. destruct (Z.leb_spec 0 (Z.of_nat i)); [|lia]. destruct (Z.ltb_spec (Z.of_nat i) (Z.of_nat (mrows m))); [|lia].
  destruct (Z.leb_spec 0 (Z.of_nat j)); [|lia]. destruct (Z.ltb_spec (Z.of_nat j) (Z.of_nat (mcols m))); [|lia]. cbn [andb negb].
  rewrite !Nat2Z.id. split; [reflexivity|]. rewrite W. nia.
Qed.
Lemma get_nth {A} (l : list A) k d : k < length l -> get l k = Ok (nth k l d).
Proof. intros H. unfold get. now rewrite (nth_error_nth' l d H). Qed.

Theorem C86_sub (a b : mat R) : is_matrix a -> is_matrix b ->
  (mrows a = mrows b /\ mcols a = mcols b ->
     exists c, mat_sub rsub a b = Ok c /\ is_matrix c /\ mrows c = mrows a /\ mcols c = mcols a /\
       forall i j x y, mat_get a i j = Ok x -> mat_get b i j = Ok y -> mat_get c i j = Ok (rsub x y)) /\
  (mrows a <> mrows b \/ mcols a <> mcols b -> mat_sub rsub a b = Err ValueError).
Proof.
  intros Wa Wb. apply is_matrix_wf in Wa, Wb. unfold mat_sub. split.
  - intros [Er Ec]. rewrite <- Er, <- Ec, !Nat.eqb_refl. cbn [andb negb].
    set (d := map _ _). assert (L : length d = mrows a * mcols a).
    { unfold d. rewrite map_length, combine_length, Wa, Wb, Er, Ec. apply Nat.min_id. }
    rewrite mat_make_ok by exact L. eexists. split; [reflexivity|]. split; [apply is_matrix_wf; exact L|]. split; [reflexivity|]. split; [reflexivity|].
    intros i j x y. unfold mat_get. cbn [mrows mcols mdata]. rewrite <- Er, <- Ec. destruct (negb _); [discriminate|].
    unfold get, d. clear. revert x y. generalize (mcols a * Z.to_nat i + Z.to_nat j) as k. generalize (mdata a), (mdata b). clear.
    induction l as [|x0 l IH]; intros [|y0 l'] [|k] x y; cbn; try discriminate; [congruence|]. apply IH.
  - intros H. assert (E : (mrows a =? mrows b) && (mcols a =? mcols b) = false); [|now rewrite E].
    apply andb_false_iff. rewrite !Nat.eqb_neq. exact H.
Qed.
Theorem C86_scale (a : mat R) x : is_matrix a ->
  let c := mat_scale rmul a x in is_matrix c /\ mrows c = mrows a /\ mcols c = mcols a /\
    forall i j, mat_get c i j = (y <- mat_get a i j ;; Ok (rmul y x)).
Proof.
  intros W. apply is_matrix_wf in W. cbn. split; [apply is_matrix_wf; unfold mwf; cbn; now rewrite map_length|]. split; [reflexivity|]. split; [reflexivity|].
  intros i j. unfold mat_get. cbn [mat_scale mrows mcols mdata]. destruct (negb _); [reflexivity|]. unfold get. rewrite nth_error_map.
  now destruct (nth_error _ _).
Qed.
Theorem C86_map {S} (f : R -> S) (a : mat R) : is_matrix a ->
  let c := mat_map f a in is_matrix c /\ mrows c = mrows a /\ mcols c = mcols a /\
    forall i j, mat_get c i j = (y <- mat_get a i j ;; Ok (f y)).
Proof.
  intros W. apply is_matrix_wf in W. cbn. split; [apply is_matrix_wf; unfold mwf; cbn; now rewrite map_length|]. split; [reflexivity|]. split; [reflexivity|].
  intros i j. unfold mat_get. cbn [mat_map mrows mcols mdata]. destruct (negb _); [reflexivity|]. unfold get. rewrite nth_error_map.
  now destruct (nth_error _ _).
Qed.
Theorem C86_zero nr nc :
  ((0 <= nr)%Z /\ (0 <= nc)%Z -> exists m, mat_zero O nr nc = Ok m /\ is_matrix m /\ Z.of_nat (mrows m) = nr /\ Z.of_nat (mcols m) = nc /\
     forall i j, (0 <= i < nr)%Z -> (0 <= j < nc)%Z -> mat_get m i j = Ok O) /\
  (~ ((0 <= nr)%Z /\ (0 <= nc)%Z) -> mat_zero O nr nc = Err ValueError).
Proof.
  split.
  - intros [A B]. unfold mat_zero.
    rewrite <- (Z2Nat.id nr A), <- (Z2Nat.id nc B). set (r := Z.to_nat nr). set (c := Z.to_nat nc).
    rewrite <- Nat2Z.inj_mul, Nat2Z.id.
    rewrite mat_make_ok by apply repeat_length. eexists. split; [reflexivity|]. split; [apply is_matrix_wf; unfold mwf; cbn; apply repeat_length|].
    split; [reflexivity|]. split; [reflexivity|]. intros i j Hi Hj.
    pose proof (get_in (mkM r c (repeat O (r * c))) (Z.to_nat i) (Z.to_nat j)) as G. cbn [mrows mcols mdata] in G. rewrite !Z2Nat.id in G by lia.
    destruct G as [-> H]; [unfold mwf; cbn; apply repeat_length|lia|lia|].
    rewrite (get_nth _ _ O) by exact H. now rewrite nth_repeat.
  - intros H. unfold mat_zero, mat_make. destruct (Z.leb_spec 0 nr); [|reflexivity]. destruct (Z.leb_spec 0 nc); [lia|reflexivity].
Qed.
Theorem C86_scalar n x :
  ((0 <= n)%Z -> exists m, mat_scalar O n x = Ok m /\ is_matrix m /\ Z.of_nat (mrows m) = n /\ Z.of_nat (mcols m) = n /\
     forall i j, (0 <= i < n)%Z -> (0 <= j < n)%Z -> mat_get m i j = Ok (if (i =? j)%Z then x else O)) /\
  ((n < 0)%Z -> mat_scalar O n x = Err ValueError).
Proof.
  split.
  - intros A. unfold mat_scalar. rewrite <- (Z2Nat.id n A). set (k := Z.to_nat n). rewrite !Nat2Z.id.
    assert (PE : forall a b s, list_prod (seq s a) (seq 0 b) = map (fun q => (s + q / b, q mod b)) (seq 0 (a * b))).
    { clear. induction a as [|a IH]; intros b s; [reflexivity|]. cbn [seq list_prod]. rewrite IH.
      replace (S a * b) with (b + a * b) by lia. rewrite seq_app, map_app. f_equal.
      - apply map_ext_in. intros q Hq. apply in_seq in Hq. rewrite Nat.div_small, Nat.mod_small by lia. f_equal. lia.
      - cbn [Nat.add].
        assert (Z : map (fun q => q + b) (seq 0 (a * b)) = seq b (a * b)).
        { clear. generalize (a * b) as m. intros m. change b with (0 + b) at 2. generalize 0 as z. induction m as [|m IHm]; intros z; cbn; [reflexivity|]. f_equal. apply (IHm (S z)). }
        rewrite <- Z, map_map. apply map_ext_in. intros q Hq. apply in_seq in Hq. destruct b as [|b]; [lia|].
        replace (q + S b) with (q + 1 * S b) by lia. rewrite Nat.div_add, Nat.mod_add by lia. f_equal. lia. }
    unfold pairs. rewrite PE, map_map. cbn [Nat.add].
    rewrite mat_make_ok by now rewrite map_length, seq_length. eexists. split; [reflexivity|]. split; [apply is_matrix_wf; unfold mwf; cbn; now rewrite map_length, seq_length|].
    split; [reflexivity|]. split; [reflexivity|]. intros i j Hi Hj. set (d := map _ _).
    pose proof (get_in (mkM k k d) (Z.to_nat i) (Z.to_nat j)) as G. cbn [mrows mcols mdata] in G. rewrite !Z2Nat.id in G by lia.
    destruct G as [-> H]; [unfold mwf, d; cbn; now rewrite map_length, seq_length|lia|lia|].
    rewrite (get_nth _ _ O) by exact H. unfold d in *. rewrite map_length, seq_length in H. rewrite nth_map_seq by exact H. f_equal.
    rewrite (Nat.mul_comm k), Nat.div_add_l, Nat.div_small, Nat.add_0_r by lia. rewrite (Nat.add_comm (_ * k)), Nat.mod_add, Nat.mod_small by lia.
    destruct (Z.eqb_spec i j) as [->|N]; [now rewrite Nat.eqb_refl|]. destruct (Nat.eqb_spec (Z.to_nat i) (Z.to_nat j)); [lia|reflexivity].
  - intros H. unfold mat_scalar, mat_make. destruct (Z.leb_spec 0 n); [lia|reflexivity].
Qed.
(** [==] holds exactly for matrices of the same shape with equal entries *)
Theorem C86_equality (reqb : R -> R -> bool) (a b : mat R) : is_matrix a -> is_matrix b ->
  mat_eqb reqb a b = true <->
  mrows a = mrows b /\ mcols a = mcols b /\
  forall i j x y, mat_get a i j = Ok x -> mat_get b i j = Ok y -> reqb x y = true.
Proof.
  intros Wa Wb. apply is_matrix_wf in Wa, Wb. unfold mat_eqb. rewrite !andb_true_iff, !Nat.eqb_eq.
  assert (L : forall l l' : list R, ModelMatrix.list_eqb reqb l l' = true <-> length l = length l' /\ forall k x y, nth_error l k = Some x -> nth_error l' k = Some y -> reqb x y = true).
  { clear. induction l as [|x l IH]; intros [|y l']; cbn [ModelMatrix.list_eqb length].
    - split; [|reflexivity]. intros _. split; [reflexivity|]. intros [|k]; discriminate.
    - split; [discriminate|]. intros [[=] _].
    - split; [discriminate|]. intros [[=] _].
    - rewrite andb_true_iff, IH. split.
      + intros [A [B C]]. split; [now f_equal|]. intros [|k] u v; cbn; [congruence|apply C].
      + intros [[= B] C]. split; [now apply (C 0)|]. split; [exact B|]. intros k. apply (C (S k)). }
  rewrite L. split.
  - intros [[Er Ec] [El H]]. split; [exact Er|]. split; [exact Ec|]. intros i j x y. unfold mat_get. rewrite <- Er, <- Ec. destruct (negb _); [discriminate|].
    unfold get. destruct (nth_error (mdata a) _) eqn:Ea; [|discriminate]. destruct (nth_error (mdata b) _) eqn:Eb; [|discriminate].
    intros [= <-] [= <-]. eapply H; eassumption.
  - intros [Er [Ec H]]. split; [tauto|]. split; [now rewrite Wa, Wb, Er, Ec|]. intros k x y Ea Eb.
    assert (Hk : k < mrows a * mcols a) by (rewrite <- Wa; apply nth_error_Some; congruence).
    assert (Hc : mcols a <> 0) by nia.
    assert (Hi : k / mcols a < mrows a) by (apply Nat.div_lt_upper_bound; lia).
    pose proof (Nat.mod_upper_bound k (mcols a) Hc) as Hj.
    assert (Ek : mcols a * (k / mcols a) + k mod mcols a = k) by (symmetry; apply Nat.div_mod; exact Hc).
    apply (H (Z.of_nat (k / mcols a)) (Z.of_nat (k mod mcols a))).
    + destruct (get_in a (k / mcols a) (k mod mcols a)) as [-> _]; auto. rewrite Ek. unfold get. now rewrite Ea.
    + destruct (get_in b (k / mcols a) (k mod mcols a)) as [-> _]; [exact Wb|lia|lia|]. rewrite <- Ec, Ek. unfold get. now rewrite Eb.
Qed.
End Ops.
Example C86_case : exists a b c, mat_from_rows [[1; 2]; [3; 4]; [5; 6]]%Z = Ok a /\ mat_from_rows [[6; 5]; [4; 3]; [2; 1]]%Z = Ok b /\
  mat_sub Z.sub a b = Ok c /\ mat_get c 2 1 = Ok 5%Z /\ mat_eqb Z.eqb a b = false /\ mat_eqb Z.eqb a a = true.
Proof. do 3 eexists. repeat split; vm_compute; reflexivity. Qed.
