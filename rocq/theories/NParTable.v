(** NParTable.v – the table built by [npar_table] tabulates the germ of
    noncrossing partitions, so everything in TableTheory applies to it. *)
From Verif Require Import Base SpecTL ModelTL TLTheory TLBasis TLCells ModelPerm PermTheory NCTheory NCGerm SpecBraid BraidTheory
  Germ GermNF GermAct GermBraid ModelBraid TableTheory PermTable BKL NCLift ModelNPar NParMatch NParOrbit NParBlocks NParBuild.
From Coq Require Import Permutation Setoid.

Lemma npar_eqb_ok p q : npar_eqb p q = true <-> p = q.
Proof.
  destruct p as [a s], q as [b t]. unfold npar_eqb. cbn [np_n np_inv]. rewrite andb_true_iff, Nat.eqb_eq, list_eqb_ok.
  split; [intros [-> ->]; reflexivity|intros [= -> ->]; auto].
Qed.
Lemma edge_eqb_ok e f : edge_eqb e f = true <-> e = f.
Proof.
  destruct e as [a b], f as [c d]. unfold edge_eqb. cbn [fst snd]. rewrite andb_true_iff, !Nat.eqb_eq.
  split; [intros [-> ->]; reflexivity|intros [= -> ->]; auto].
Qed.

Section NTab.
Variable n : nat.
Notation P := (isperm n).
Notation Q := (NCTheory.Q n).
Notation ed := (NCTheory.ed n).
Notation NG := (NG n).
Notation NT := (NT n).
Notation nval := (nval n).
Notation mkN := (mkN n).
Notation NE := (NE n).
Notation "u ** v" := (pcomp u v) (at level 40, left associativity).

Definition en (x : NT) : npar := NPar n (inv_of n (nval x)).
Definition de (p : npar) : NT := mkN (map (fun i => nth (2 * i) (np_inv p) 0 / 2) (seq 0 n)).
Lemma de_en x : de (en x) = x.
Proof.
  unfold de, en. cbn [np_inv]. transitivity (mkN (nval x)); [|apply mkN_nval]. f_equal.
  apply (nth_ext_len _ _ n 0).
  - now rewrite map_length, seq_length.
  - apply isperm_length, nval_P.
  - intros i Hi. rewrite nth_map_seq by exact Hi. rewrite inv_even by exact Hi. apply div_2'.
Qed.
Lemma en_inj x y : en x = en y -> x = y.
Proof. intros E. rewrite <- (de_en x), <- (de_en y). now rewrite E. Qed.
Lemma en_in x : In (en x) NE.
Proof. apply NE_in. exists (nval x). split; [apply nval_Q|reflexivity]. Qed.
Lemma in_en p : In p NE -> exists x, p = en x.
Proof. intros H. apply NE_in in H. destruct H as [w [Hw ->]]. exists (mkN w). unfold en. now rewrite nval_mkN. Qed.
Lemma en_de p : In p NE -> en (de p) = p.
Proof. intros H. destruct (in_en p H) as [x ->]. now rewrite de_en. Qed.
Lemma en_mkN w : Q w -> en (mkN w) = NPar n (inv_of n w).
Proof. intros H. unfold en. now rewrite nval_mkN. Qed.

Lemma to_perm_en x : to_permutation (en x) = Ok (nval x).
Proof. unfold en. apply to_permutation_ok, nval_P. Qed.

(** ** renormalisation *)
Lemma compatible_edges_ok w z : exists l, compatible_edges (en w) (en z) = Ok l /\
  forall p q, In (p, q) l <-> ed (nval (nrc n w)) p q /\ ed (nval z) p q.
Proof.
  unfold compatible_edges, en. rewrite right_complement_ok by apply nval_P. cbn [bind]. rewrite <- nval_rc.
  destruct (edges_ok n _ (nval_Q n (nrc n w))) as [es [E1 H1]]. destruct (edges_ok n _ (nval_Q n z)) as [fs [E2 H2]].
  rewrite E1, E2. cbn [bind]. eexists. split; [reflexivity|]. intros p q. rewrite filter_In, H2, existsb_exists. rewrite <- H1. split.
  - intros [A [e [B C]]]. apply edge_eqb_ok in C. subst e. auto.
  - intros [A B]. split; [exact B|]. exists (p, q). split; [exact A|]. now apply edge_eqb_ok.
Qed.
Lemma from_permutation_N w : Q w -> from_permutation w = Ok (en (mkN w)).
Proof. intros [A B]. rewrite en_mkN by (split; assumption). destruct (from_permutation_ok n w A) as [[_ E]|[K _]]; [exact E|contradiction]. Qed.
Lemma exc_le w : exc n w <= n.
Proof.
  unfold exc, cnt. enough (K : forall l, length (filter (fun i => ap w i <? i) l) <= length l) by (specialize (K (seq 0 n)); now rewrite seq_length in K). intros l.
  induction l as [|x l IH]; [apply le_n|]. cbn [filter length]. destruct (ap w x <? x); cbn [length]; lia.
Qed.

Lemma nrenorm_loop_ok pick x y : epicker_ok pick -> forall fuel k w z c,
  red NG x c -> w = mul NG x c -> red NG c z -> y = mul NG c z -> exc n (nval z) < fuel ->
  exists w' z', npar_renorm_loop pick n (en x) (en y) fuel k (en w) (en z) = Ok (en w', en z') /\ rnspec NG x y w' z'.
Proof.
  intros Hp. induction fuel as [|fuel IH]; intros k w z c R1 E1 R2 E2 HF; [lia|]. cbn [npar_renorm_loop].
  destruct (compatible_edges_ok w z) as [l [El Hl]]. rewrite El. cbn [bind]. destruct l as [|e0 l].
  - exists w, z. split; [reflexivity|]. exists c. split; [exact R1|]. split; [now symmetry|]. split; [exact R2|]. split; [now symmetry|].
    apply nrm_edges. intros a b K. now apply Hl in K.
  - pose proof (Hp (en x) (en y) k (e0 :: l) ltac:(discriminate)) as Hin.
    set (e := pick (en x) (en y) k (e0 :: l)) in *. destruct e as [a b]. cbn [fst snd]. apply Hl in Hin. destruct Hin as [K1 K2].
    pose proof K1 as [L [B _]]. set (t := nat2 n a b).
    rewrite to_perm_en. cbn [bind].
    rewrite from_components_edge by assumption. cbn [bind]. rewrite to_permutation_ok by (apply isperm_ptrans; lia). cbn [bind].
    rewrite to_perm_en. cbn [bind].
    assert (Pt : P (ptrans n a b)) by (apply isperm_ptrans; lia).
    rewrite !(compose_ok n) by auto using nval_P. cbn [bind].
    assert (Vt : nval t = ptrans n a b) by (now apply nval_nat2).
    assert (Rw : red NG w t).
    { apply nred_sub. rewrite Vt. intros p q M. apply ptrans_ed in M; auto. now destruct M as [-> ->]. }
    assert (Qz' : Q (ptrans n a b ** nval z)) by (apply NC_split; auto; apply nval_Q).
    set (z' := mkN (ptrans n a b ** nval z)). assert (Vz' : nval z' = ptrans n a b ** nval z) by (now apply nval_mkN).
    assert (Mz : nval t ** nval z' = nval z) by (rewrite Vt, Vz'; apply tr_tr; try lia; apply nval_P).
    assert (Rz : red NG t z').
    { split; rewrite Mz; [apply nval_Q|]. rewrite Vt. intros p q M. apply ptrans_ed in M; auto. now destruct M as [-> ->]. }
    assert (Ez : z = mul NG t z').
    { apply nval_inj. cbn. rewrite nval_mul by exact Rz. now symmetry. }
    rewrite (from_permutation_N (nval w ** ptrans n a b)).
    2:{ rewrite <- Vt. apply Rw. }
    cbn [bind]. rewrite (from_permutation_N _ Qz'). cbn [bind].
    assert (Ew : mkN (nval w ** ptrans n a b) = mul NG w t) by (cbn; unfold nmul; now rewrite Vt).
    rewrite Ew. fold z'. rewrite Ez in R2, E2.
    destruct (assoc_l NG c t z' Rz R2) as [A1 [A2 A3]]. rewrite E1 in Rw. destruct (assoc_r NG x c t R1 Rw) as [B1 [B2 B3]].
    apply (IH (S k) (mul NG w t) z' (mul NG c t)).
    + exact B2.
    + now rewrite E1.
    + exact A2.
    + now rewrite A3.
    + rewrite (exc_split n (nval z) a b (nval_P n z) K2) in HF. rewrite Vz'. lia.
Qed.
Theorem nrenorm_ok pick x y : epicker_ok pick ->
  exists w z, npar_renorm pick n (en x) (en y) = Ok (en w, en z) /\ rnspec NG x y w z.
Proof.
  intros Hp. unfold npar_renorm. apply (nrenorm_loop_ok pick x y Hp _ _ _ _ (one NG)).
  - apply red_1r.
  - symmetry. apply mul_1r.
  - apply red_1l.
  - symmetry. apply mul_1l.
  - pose proof (exc_le (nval y)). lia.
Qed.
Definition ehd : epicker := fun _ _ _ l => hd (0, 0) l.
Lemma ehd_ok : epicker_ok ehd.
Proof. intros x y k [|a l] H; [contradiction|]. now left. Qed.
Definition nrn (x y : NT) : NT * NT :=
  match npar_renorm ehd n (en x) (en y) with Ok p => (de (fst p), de (snd p)) | Err _ => (x, y) end.
Lemma nrn_ok x y : rnspec NG x y (fst (nrn x y)) (snd (nrn x y)).
Proof.
  unfold nrn. destruct (nrenorm_ok ehd x y ehd_ok) as [w [z [E S]]]. rewrite E. cbn [fst snd]. rewrite !de_en. exact S.
Qed.
Lemma nrenorm_any pick x y : epicker_ok pick ->
  npar_renorm pick n (en x) (en y) = Ok (en (fst (nrn x y)), en (snd (nrn x y))).
Proof.
  intros Hp. destruct (nrenorm_ok pick x y Hp) as [w [z [E S]]]. rewrite E.
  destruct (rn_unique NG _ _ _ _ _ _ S (nrn_ok x y)) as [<- <-]. reflexivity.
Qed.

(** ** positions *)
Definition npos (p : npar) : nat := match dict_index npar_eqb NE p with Ok k => k | Err _ => 0 end.
Definition nidx (x : NT) : Z := Z.of_nat (npos (en x)).
Lemma npos_ok x : dict_index npar_eqb NE (en x) = Ok (npos (en x)) /\ nth_error NE (npos (en x)) = Some (en x).
Proof.
  pose proof (en_in x) as H. apply In_nth_error in H. destruct H as [i Hi].
  pose proof (dict_index_ok npar_eqb npar_eqb_ok NE (en x) i (NE_NoDup n) Hi) as D.
  unfold npos. rewrite D. split; [reflexivity|exact Hi].
Qed.
Lemma nidx_ok x : (k <- dict_index npar_eqb NE (en x) ;; Ok (Z.of_nat k)) = Ok (nidx x).
Proof. destruct (npos_ok x) as [D _]. rewrite D. reflexivity. Qed.
Lemma nidx_inj x y : nidx x = nidx y -> x = y.
Proof.
  intros H. apply Nat2Z.inj in H. destruct (npos_ok x) as [_ A]. destruct (npos_ok y) as [_ B].
  rewrite H in A. apply en_inj. congruence.
Qed.
Lemma npos_lt x : npos (en x) < length NE.
Proof. apply nth_error_Some. destruct (npos_ok x) as [_ A]. congruence. Qed.
Lemma ntab_get {B} (f : npar -> B) x : pyget (map f NE) (nidx x) = Ok (f (en x)).
Proof. unfold nidx. rewrite pyget_nat, get_map. unfold get. destruct (npos_ok x) as [_ ->]. reflexivity. Qed.

Definition nwd (x : NT) : list (Z * Z) := match npar_artin_word (en x) with Ok w => w | Err _ => [] end.
Lemma nwd_ok x : exists l, npar_artin_word (en x) = Ok (nwd x) /\ fac n (nval x) l /\ expand (nwd x) = lw l /\
  word_ok n (nwd x) /\ Forall (fun l => Z.abs (snd l) = 1%Z) (nwd x).
Proof.
  unfold nwd, en. destruct (npar_artin_word_ok n (nval x) (nval_Q n x)) as [ws [l [E K]]]. rewrite E. eauto.
Qed.

Definition nrow (f : NT -> NT) : list Z := map (fun p => nidx (f (de p))) NE.
Lemma nrow_get f x : pyget (nrow f) (nidx x) = Ok (nidx (f x)).
Proof. unfold nrow. rewrite ntab_get. now rewrite de_en. Qed.
Lemma nrow_id : map Z.of_nat (seq 0 (length NE)) = nrow (fun x => x).
Proof.
  apply (nth_ext_len _ _ (length NE) 0%Z).
  - now rewrite map_length, seq_length.
  - unfold nrow. now rewrite map_length.
  - intros i Hi. rewrite nth_map_seq by exact Hi. unfold nrow. destruct (nth_error NE i) as [p|] eqn:Ep.
    2:{ apply nth_error_None in Ep. lia. }
    erewrite nth_error_nth by (now rewrite nth_error_map, Ep). assert (Ip : In p NE) by (eapply nth_error_In; eauto).
    unfold nidx. rewrite (en_de p Ip). unfold npos. rewrite (dict_index_ok npar_eqb npar_eqb_ok NE p i (NE_NoDup n) Ep). reflexivity.
Qed.
Lemma mapM_NE {B} (f : npar -> res B) (g : NT -> B) : (forall x, f (en x) = Ok (g x)) -> mapM f NE = Ok (map (fun p => g (de p)) NE).
Proof. intros H. apply mapM_ok. intros p Hp. destruct (in_en p Hp) as [x ->]. rewrite de_en. apply H. Qed.

Definition tau' (x : NT) : NT := nlc n (nlc n x).
Definition rowsk (t : NT -> NT) (k : nat) : list (list Z) := map (fun i => nrow (Nat.iter i t)) (seq 0 k) ++ repeat [] (n - k).
Lemma rowsk_length t k : k <= n -> length (rowsk t k) = n.
Proof. intros H. unfold rowsk. rewrite app_length, map_length, seq_length, repeat_length. lia. Qed.
Lemma rowsk_get t k i : i < k -> k <= n -> get (rowsk t k) i = Ok (nrow (Nat.iter i t)).
Proof.
  intros Hi Hk. rewrite (get_ok _ _ []) by (rewrite rowsk_length; lia). f_equal. unfold rowsk.
  rewrite app_nth1 by (rewrite map_length, seq_length; lia). now rewrite (nth_map_seq (fun i => nrow (Nat.iter i t))) by exact Hi.
Qed.
Lemma rowsk_set t k : k < n -> set_ (rowsk t k) k (nrow (Nat.iter k t)) = Ok (rowsk t (S k)).
Proof.
  intros Hk. rewrite set_ok by (rewrite rowsk_length; lia). f_equal. unfold rowsk. rewrite seq_S, map_app. cbn [Nat.add map].
  replace (n - k) with (S (n - S k)) by lia. cbn [repeat]. rewrite <- app_assoc. cbn [List.app].
  assert (G : forall {A} (l : list A) a b r, upd (l ++ a :: r) (length l) b = l ++ b :: r).
  { intros A l a b r. induction l as [|y l IH]; [reflexivity|]. cbn. now rewrite IH. }
  pose proof (G _ (map (fun i => nrow (Nat.iter i t)) (seq 0 k)) [] (nrow (Nat.iter k t)) (repeat [] (n - S k))) as Z.
  rewrite map_length, seq_length in Z. exact Z.
Qed.

Definition nb (x y : NT) : bool := npar_eqb (en (fst (nrn x y))) (en x) && npar_eqb (en (snd (nrn x y))) (en y).
Definition nfol (x y : NT) : bool := nb x y && negb (nidx y =? nidx (none n))%Z && negb (nidx y =? nidx (nD n))%Z.

Definition ntab : nftable npar :=
  {| t_n := n; t_order := length NE; t_divs := NE; t_eqb := npar_eqb;
     t_id := nidx (none n); t_D := nidx (nD n);
     t_gens := map (fun i => nidx (natom n i)) (seq 0 (n - 1));
     t_lc := nrow (nlc n);
     t_rc := nrow (nrc n);
     t_tau_order := Z.of_nat n;
     t_tau_left := rowsk tau' n;
     t_tau_right := rowsk (tau NG) n;
     t_renorm := map (fun p => map (fun q => (nidx (fst (nrn (de p) (de q))), nidx (snd (nrn (de p) (de q))))) NE) NE;
     t_isnorm := map (fun p => map (fun q => nb (de p) (de q)) NE) NE;
     t_follows := map (fun p => map (fun q => nidx (de q)) (filter (fun q => nfol (de p) (de q)) NE)) NE;
     t_word := map (fun p => nwd (de p)) NE |}.
Definition nbkl : list ((nat * nat) * Z) := map (fun e : nat * nat => (e, nidx (nat2 n (fst e) (snd e)))) (combinations2 (seq 0 n)).

Lemma comb2_seq e : In e (combinations2 (seq 0 n)) <-> fst e < snd e /\ snd e < n.
Proof.
  destruct e as [a b]. cbn [fst snd]. rewrite combinations2_in.
  - rewrite !in_seq. lia.
  - generalize 0 at 1. clear. induction n as [|m IH]; intros a; cbn [seq]; constructor; [apply IH|].
    apply Forall_forall. intros x Hx. apply in_seq in Hx. lia.
Qed.
Lemma en_nat2 a b : a < b -> b < n -> en (nat2 n a b) = NPar n (inv_of n (ptrans n a b)).
Proof. intros. unfold en. now rewrite nval_nat2. Qed.

Theorem npar_table_ok pick : epicker_ok pick -> 2 <= n -> npar_table_body pick n = Ok (ntab, nbkl).
Proof.
  intros Hp n2. unfold npar_table_body. cbv zeta.
  rewrite <- (NE_length n), all_of_size_ok. cbn [bind].
  rewrite (mapM_ok _ (fun i => nidx (natom n i))).
  2:{ intros i Hi. apply in_seq in Hi. rewrite from_components_edge by lia. cbn [bind]. rewrite <- en_nat2 by lia. apply nidx_ok. }
  cbn [bind].
  rewrite (mapM_ok _ (fun e : nat * nat => (e, nidx (nat2 n (fst e) (snd e))))).
  2:{ intros [i j] Hi. apply comb2_seq in Hi. cbn [fst snd] in *. rewrite from_components_edge by lia. cbn [bind].
      rewrite <- en_nat2 by lia. rewrite nidx_ok. reflexivity. }
  cbn [bind]. fold nbkl.
  replace (finest n) with (en (none n)) by (unfold en; now rewrite finest_ok, nval_one).
  replace (coarsest n) with (en (nD n)) by (unfold en; now rewrite coarsest_ok, nval_D).
  rewrite !nidx_ok. cbn [bind].
  assert (LC : forall x, left_complement (en x) = Ok (en (nlc n x))).
  { intros x. unfold en. rewrite left_complement_ok by apply nval_P. now rewrite nval_lc. }
  assert (RC : forall x, right_complement (en x) = Ok (en (nrc n x))).
  { intros x. unfold en. rewrite right_complement_ok by apply nval_P. now rewrite nval_rc. }
  rewrite (mapM_NE _ (fun x => nidx (nlc n x))) by (intros x; rewrite LC; apply nidx_ok). cbn [bind].
  rewrite (mapM_NE _ (fun x => nidx (nrc n x))) by (intros x; rewrite RC; apply nidx_ok). cbn [bind].
  rewrite (mapM_NE _ nwd) by (intros x; now destruct (nwd_ok x) as [l [E _]]). cbn [bind].
  rewrite nrow_id.
  assert (S0 : forall t, set_ (repeat [] n) 0 (nrow (fun x => x)) = Ok (rowsk t 1)).
  { intros t. change (nrow (fun x => x)) with (nrow (Nat.iter 0 t)). rewrite <- (rowsk_set t 0) by lia. f_equal. unfold rowsk. cbn. now rewrite Nat.sub_0_r. }
  rewrite (S0 tau') at 1. cbn [bind]. rewrite (S0 (tau NG)). cbn [bind].
  rewrite (mapM_NE _ (fun x => nidx (tau' x))) by (intros x; rewrite LC; cbn [bind]; rewrite LC; apply nidx_ok). cbn [bind].
  change (map (fun p => nidx (tau' (de p))) NE) with (nrow (Nat.iter 1 tau')). rewrite rowsk_set by lia. cbn [bind].
  rewrite (mapM_NE _ (fun x => nidx (tau NG x))) by (intros x; rewrite RC; cbn [bind]; rewrite RC; apply nidx_ok). cbn [bind].
  change (map (fun p => nidx (tau NG (de p))) NE) with (nrow (Nat.iter 1 (tau NG))). rewrite rowsk_set by lia. cbn [bind].
  assert (RowS : forall t k, 2 <= k -> k < n ->
    (pl <- get (rowsk t k) (k - 1) ;; mapM (fun x => y <- get pl x ;; one <- get (rowsk t k) 1 ;; pyget one y) (seq 0 (length NE))) = Ok (nrow (Nat.iter k t))).
  { intros t k K2 Kn. rewrite rowsk_get by lia. cbn [bind].
    assert (E : forall x, In x (seq 0 (length NE)) ->
       (y <- get (nrow (Nat.iter (k - 1) t)) x ;; one <- get (rowsk t k) 1 ;; pyget one y) = Ok (nth x (nrow (Nat.iter k t)) 0%Z)).
    { intros i Hi. apply in_seq in Hi. unfold nrow at 1. rewrite get_map. destruct (nth_error NE i) as [p|] eqn:Ep; [|apply nth_error_None in Ep; lia].
      unfold get at 1. rewrite Ep. cbn [bind]. rewrite rowsk_get by lia. cbn [bind]. rewrite nrow_get. f_equal.
      unfold nrow. erewrite nth_error_nth by (now rewrite nth_error_map, Ep). f_equal.
      destruct k as [|k']; [lia|]. change (S k' - 1) with (k' - 0). rewrite Nat.sub_0_r. reflexivity. }
    rewrite (mapM_ok _ _ _ E). f_equal. apply (nth_ext_len _ _ (length NE) 0%Z).
    - now rewrite map_length, seq_length.
    - unfold nrow. now rewrite map_length.
    - intros i Hi. now rewrite nth_map_seq. }
  assert (Loop : forall k, k <= n - 2 -> foldM (fun '(tls, trs) i =>
        pl <- get tls (i - 1) ;;
        row <- mapM (fun x => y <- get pl x ;; one <- get tls 1 ;; pyget one y) (seq 0 (length NE)) ;;
        tls <- set_ tls i row ;;
        pr <- get trs (i - 1) ;;
        row <- mapM (fun x => y <- get pr x ;; one <- get trs 1 ;; pyget one y) (seq 0 (length NE)) ;;
        trs <- set_ trs i row ;;
        Ok (tls, trs)) (seq 2 k) (rowsk tau' 2, rowsk (tau NG) 2) = Ok (rowsk tau' (2 + k), rowsk (tau NG) (2 + k))).
  { induction k as [|k IH]; intros Hk; [reflexivity|]. rewrite seq_S, foldM_app, IH by lia. cbn [bind foldM].
    pose proof (RowS tau' (2 + k) ltac:(lia) ltac:(lia)) as R1. pose proof (RowS (tau NG) (2 + k) ltac:(lia) ltac:(lia)) as R2.
    destruct (get (rowsk tau' (2 + k)) (2 + k - 1)) as [pl|]; [|discriminate]. cbn [bind] in *. rewrite R1. cbn [bind].
    rewrite rowsk_set by lia. cbn [bind].
    destruct (get (rowsk (tau NG) (2 + k)) (2 + k - 1)) as [pr|]; [|discriminate]. cbn [bind] in *. rewrite R2. cbn [bind].
    rewrite rowsk_set by lia. cbn [bind]. do 2 f_equal; f_equal; lia. }
  rewrite Loop by lia. cbn [bind]. replace (2 + (n - 2)) with n by lia. clear Loop RowS S0.
  rewrite (mapM_NE _ (fun x => map (fun q => (en (fst (nrn x (de q))), en (snd (nrn x (de q))))) NE)).
  2:{ intros x. apply (mapM_NE _ (fun y => (en (fst (nrn x y)), en (snd (nrn x y))))). intros y. now apply nrenorm_any. }
  cbn [bind].
  rewrite (mapM_ok _ (map (fun p : npar * npar => (nidx (de (fst p)), nidx (de (snd p)))))).
  2:{ intros row Hr. apply in_map_iff in Hr. destruct Hr as [p [<- Hpp]]. apply mapM_ok.
      intros [w z] Hwz. apply in_map_iff in Hwz. destruct Hwz as [q [Eq _]]. injection Eq as <- <-.
      rewrite !nidx_ok. cbn [bind fst snd]. now rewrite !de_en. }
  cbn [bind]. rewrite combine_map_r.
  set (isn := map (fun '(x, row) => map (fun '(y, (w, z)) => npar_eqb w x && npar_eqb z y) (combine NE row))
    (map (fun x => (x, map (fun q => (en (fst (nrn (de x) (de q))), en (snd (nrn (de x) (de q))))) NE)) NE)).
  assert (Ei : isn = map (fun p => map (fun q => nb (de p) (de q)) NE) NE).
  { unfold isn. rewrite map_map. apply map_ext_in. intros p Hpp. rewrite combine_map_r, map_map. apply map_ext_in. intros q Hq.
    unfold nb. now rewrite !en_de. }
  rewrite Ei. clear isn Ei.
  rewrite (mapM_ok _ (fun row => map (fun q => nidx (de q)) (map fst (filter (fun yb : npar * bool => snd yb && negb (nidx (de (fst yb)) =? nidx (none n))%Z && negb (nidx (de (fst yb)) =? nidx (nD n))%Z) (combine NE row))))).
  2:{ intros row Hr. apply in_map_iff in Hr. destruct Hr as [p [<- _]]. rewrite combine_map_r.
      erewrite mapM_ok.
      2:{ intros [y b] Hy. apply in_map_iff in Hy. destruct Hy as [y' [Ey Hy]]. injection Ey as -> <-. rewrite <- (en_de y Hy) at 1.
          rewrite nidx_ok. cbn [bind].
          instantiate (1 := fun yb => if snd yb && negb (nidx (de (fst yb)) =? nidx (none n))%Z && negb (nidx (de (fst yb)) =? nidx (nD n))%Z then [nidx (de (fst yb))] else []).
          reflexivity. }
      cbn [bind]. rewrite concat_sel, map_map. reflexivity. }
  cbn [bind]. unfold ntab. rewrite !map_map. do 3 f_equal.
  - apply map_ext. intros p. rewrite map_map. apply map_ext. intros q. cbn [fst snd]. now rewrite !de_en.
  - apply map_ext. intros p. rewrite combine_map_r. f_equal. unfold nfol.
    assert (K : forall l, map fst (filter (fun yb : npar * bool => snd yb && negb (nidx (de (fst yb)) =? nidx (none n))%Z && negb (nidx (de (fst yb)) =? nidx (nD n))%Z) (map (fun y => (y, nb (de p) (de y))) l)) =
       filter (fun q => nb (de p) (de q) && negb (nidx (de q) =? nidx (none n))%Z && negb (nidx (de q) =? nidx (nD n))%Z) l).
    { induction l as [|y l IH]; [reflexivity|]. cbn [map filter fst snd].
      destruct (nb (de p) (de y) && _ && _); cbn [map fst]; now rewrite IH. }
    apply K.
Qed.

Lemma nb_nrm x y : nb x y = true <-> nrm NG x y.
Proof.
  unfold nb. rewrite andb_true_iff, !npar_eqb_ok. split.
  - intros [A B]. apply en_inj in A. apply en_inj in B.
    destruct (nrn_ok x y) as [c [R1 [E1 [R2 [E2 N]]]]]. now rewrite A, B in N.
  - intros N. destruct (rn_unique NG _ _ _ _ _ _ (nrn_ok x y) (rn_nrm NG x y N)) as [-> ->].
    now split.
Qed.

Hypothesis n2 : 2 <= n.

Lemma nact_mkN x : mkN (nval x) = x. Proof. apply mkN_nval. Qed.

Theorem ntab_ok : table_ok ntab NG nrn (neqd n) n nwd (natom n) nidx en.
Proof.
  constructor.
  - apply nrn_ok.
  - exact (nD_ne_one n n2).
  - intros x. unfold TableTheory.lift. destruct (nwd_ok x) as [l [_ [F [-> _]]]]. now apply (lw_range n (nval x)).
  - intros a b R. unfold TableTheory.lift. destruct (nwd_ok a) as [la [_ [Fa [-> _]]]]. destruct (nwd_ok b) as [lb [_ [Fb [-> _]]]].
    destruct (nwd_ok (mul NG a b)) as [lab [_ [Fab [-> _]]]]. rewrite <- lw_app.
    apply (fac_coherent n (nval (mul NG a b))); [exact Fab|]. cbn. rewrite nval_mul by exact R. destruct R as [R1 R2]. now apply fac_mul.
  - intros i Hi. unfold TableTheory.lift. destruct (nwd_ok (natom n i)) as [l [_ [F [-> _]]]].
    assert (V : nval (natom n i) = ptrans n i (i + 1)) by (unfold natom; apply nval_nat2; lia). rewrite V in F.
    rewrite (fac_coherent n _ _ _ F (fac_one n i (i + 1) ltac:(lia) ltac:(lia))). cbn [lw flat_map fst snd]. rewrite app_nil_r, Nat.add_1_r, aw_1. reflexivity.
  - intros i s Hi Hs. apply (nact_braid n nrn nrn_ok n2); assumption.
  - intros i j s H1 H2 Hs. apply (nact_far n nrn nrn_ok n2); assumption.
  - intros x s Hs. unfold TableTheory.lift. destruct (nwd_ok x) as [l [_ [F [-> _]]]].
    rewrite (nact_fac n nrn nrn_ok n2 _ _ F s Hs). now rewrite mkN_nval.
  - reflexivity.
  - intros x y H. now apply nidx_inj.
  - intros x. cbn [t_order ntab]. unfold nidx. pose proof (npos_lt x). lia.
  - intros k Hk. cbn [t_order ntab] in Hk. destruct (nth_error NE (Z.to_nat k)) as [p|] eqn:Ep.
    2:{ apply nth_error_None in Ep. lia. }
    assert (Ip : In p NE) by (eapply nth_error_In; eassumption). destruct (in_en p Ip) as [x ->].
    exists x. unfold nidx. destruct (npos_ok x) as [D _].
    rewrite (dict_index_ok npar_eqb npar_eqb_ok NE _ _ (NE_NoDup n) Ep) in D. injection D as <-. lia.
  - intros x. cbn [t_divs ntab]. rewrite <- (map_id NE). now rewrite ntab_get.
  - intros x. unfold index. cbn [t_eqb t_divs ntab]. apply nidx_ok.
  - reflexivity.
  - reflexivity.
  - intros i Hi. cbn [t_gens ntab]. rewrite pyget_nat, get_map. rewrite (get_ok _ _ 0) by (rewrite seq_length; lia). cbn [bind].
    now rewrite seq_nth by lia.
  - cbn [t_gens ntab]. now rewrite map_length, seq_length.
  - intros x. cbn [t_lc ntab]. apply nrow_get.
  - intros x. cbn [t_rc ntab]. apply nrow_get.
  - intros k x. unfold tau_right_at, lookup2. cbn [t_tau_right t_tau_order ntab]. rewrite (ntaupow_mod n n2 k x) by lia.
    pose proof (Z.mod_pos_bound k (Z.of_nat n) ltac:(lia)) as B. set (m := (k mod Z.of_nat n)%Z) in *.
    replace m with (Z.of_nat (Z.to_nat m)) by lia. rewrite pyget_nat, rowsk_get by lia. cbn [bind]. rewrite nrow_get. now rewrite taupow_nat.
  - intros x y. unfold lookup2. cbn [t_renorm ntab]. rewrite ntab_get. cbn [bind]. rewrite ntab_get. now rewrite !de_en.
  - intros x y. exists (nb x y). split; [|apply nb_nrm].
    unfold lookup2. cbn [t_isnorm ntab]. rewrite ntab_get. cbn [bind]. rewrite ntab_get. now rewrite !de_en.
  - intros x. exists (map de (filter (fun q => nfol x (de q)) NE)). split; [|split].
    + cbn [t_follows ntab]. rewrite ntab_get. rewrite de_en, map_map. reflexivity.
    + apply (NoDup_map_inv en). rewrite map_map. erewrite map_ext_in; [rewrite map_id; apply NoDup_filter, NE_NoDup|].
      intros q Hq. apply filter_In in Hq. now apply en_de.
    + intros y. rewrite in_map_iff. split.
      * intros [q [<- Hq]]. apply filter_In in Hq. destruct Hq as [Hq F]. unfold nfol in F.
        rewrite !andb_true_iff, !negb_true_iff, !Z.eqb_neq in F. destruct F as [[F1 F2] F3].
        apply nb_nrm in F1. split; [exact F1|]. split; intros K; [apply F2|apply F3]; now rewrite K.
      * intros [N [N1 ND]]. exists (en y). split; [apply de_en|]. apply filter_In. split; [apply en_in|]. rewrite de_en.
        unfold nfol. rewrite !andb_true_iff, !negb_true_iff, !Z.eqb_neq. split; [split|].
        -- now apply nb_nrm.
        -- intros K. apply nidx_inj in K. contradiction.
        -- intros K. apply nidx_inj in K. contradiction.
  - intros x. cbn [t_word ntab]. rewrite ntab_get. now rewrite de_en.
  - intros x. destruct (nwd_ok x) as [l [_ [_ [_ K]]]]. exact K.
Qed.

Lemma bkl_ok a b : a < b -> b < n -> edge_get nbkl (a, b) = Ok (nidx (nat2 n a b)).
Proof.
  intros L B. unfold nbkl. assert (I : In (a, b) (combinations2 (seq 0 n))) by (apply comb2_seq; cbn; lia).
  induction (combinations2 (seq 0 n)) as [|e l IH]; [destruct I|]. cbn [map edge_get].
  destruct (edge_eqb (a, b) e) eqn:E; [apply edge_eqb_ok in E; now subst e|]. destruct I as [->|I]; [|now apply IH].
  assert (K : edge_eqb (a, b) (a, b) = true) by now apply edge_eqb_ok. congruence.
Qed.
End NTab.
