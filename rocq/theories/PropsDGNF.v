(** PropsDGNF.v – properties C55, C56 and C96: dual Garside normal forms and the
    conversions between the two normal forms. *)
From Verif Require Import Base ModelTL ModelPerm ModelBraid ModelNPar PermTheory SpecPerm SpecPermTheory SpecTL SpecBraid BraidTheory
  Germ GermNF GermAct GermBraid TableTheory NFApi PermWords PermGerm PermTable PropsGNF TLTheory TLBasis TLCells
  NCTheory NCGerm BKL NCLift NParMatch NParOrbit NParBlocks NParBuild NParTable PropsNPar.
From Verif Require PropsTL.
From Coq Require Import Permutation.

(** [tab] is NParTable.create at n, for some behaviour of set.pop, with the
    size guard taken out, so that the theorems below hold for all n >= 2 and not
    only for the n <= 9 the guard admits ([C55_table_domain]). *)
Definition npar_tables (n : nat) (tab : nptab) : Prop :=
  exists pick, epicker_ok pick /\ tab n = npar_table_body pick n.

Lemma npar_tables_ok n tab : 2 <= n -> npar_tables n tab -> tab n = Ok (ntab n, nbkl n).
Proof. intros n2 [pick [H ->]]. now apply npar_table_ok. Qed.
Lemma dtb_ok n tab : 2 <= n -> npar_tables n tab -> dtb tab n = Ok (ntab n).
Proof. intros n2 Ht. unfold dtb. now rewrite (npar_tables_ok n tab n2 Ht). Qed.

(** ** C55 *)
(** which n the real table covers: exactly 2 <= n <= 9 *)
Lemma catalan_step n : catalan (S n) * (n + 2) = 2 * (2 * n + 1) * catalan n.
Proof.
  assert (K : forall m, (m + 1) * catalan m = comb (2 * m) m).
  { intros m. unfold catalan. rewrite <- dyck_catalan. rewrite Nat.div_mul by lia. lia. }
  pose proof (K n) as A. pose proof (K (S n)) as B.
  pose proof (PropsTL.comb_fact (2 * n) n ltac:(lia)) as FA. pose proof (PropsTL.comb_fact (2 * S n) (S n) ltac:(lia)) as FB.
  replace (2 * n - n) with n in FA by lia. replace (2 * S n - S n) with (S n) in FB by lia.
  assert (E : fact (2 * S n) = (2 * n + 2) * ((2 * n + 1) * fact (2 * n))).
  { replace (2 * S n) with (S (S (2 * n))) by lia. change (fact (S (S (2 * n)))) with (S (S (2 * n)) * (S (2 * n) * fact (2 * n))).
    f_equal; [lia|]. f_equal. lia. }
  assert (Es : fact (S n) = (n + 1) * fact n) by (change (fact (S n)) with (S n * fact n); lia).
  rewrite <- A in FA. rewrite <- B, E, <- FA, Es in FB. pose proof (lt_O_fact n) as P.
  assert (P2 : 0 < fact n * fact n * ((n + 1) * (n + 1))) by nia.
  apply (Nat.mul_cancel_l _ _ (fact n * fact n * ((n + 1) * (n + 1)))); [lia|].
  generalize dependent (catalan (S n)). generalize dependent (catalan n). generalize dependent (fact n). clear. intros f Pf P2 c c'. nia.
Qed.
Lemma catalan_mono n : catalan n <= catalan (S n).
Proof. pose proof (catalan_step n). nia. Qed.
Lemma catalan_big n : 10 <= n -> (5000 <= Z.of_nat (catalan n))%Z.
Proof.
  induction 1 as [|n H IH]; [apply Z.leb_le; vm_compute; reflexivity|]. pose proof (catalan_mono n). lia.
Qed.
Lemma catalan_small n : n <= 9 -> (Z.of_nat (catalan n) < 5000)%Z.
Proof.
  intros H. assert (E : forall k, catalan n <= catalan (k + n)).
  { induction k as [|k IH]; [reflexivity|]. pose proof (catalan_mono (k + n)). cbn [Nat.add]. lia. }
  specialize (E (9 - n)). replace (9 - n + n) with 9 in E by lia.
  assert (K : (Z.of_nat (catalan 9) < 5000)%Z) by (apply Z.ltb_lt; vm_compute; reflexivity). lia.
Qed.
Theorem C55_table_domain pick n : epicker_ok pick ->
  (2 <= n <= 9 -> npar_tables n (npar_table pick)) /\
  (10 <= n -> npar_table pick n = Err ValueError) /\
  (n <= 1 -> npar_table pick n = Err IndexError).
Proof.
  intros Hp. split; [|split].
  - intros H. exists pick. split; [exact Hp|]. unfold npar_table. pose proof (catalan_small n ltac:(lia)).
    destruct (Z.leb_spec 5000 (Z.of_nat (catalan n))); [lia|reflexivity].
  - intros H. unfold npar_table. pose proof (catalan_big n H).
    destruct (Z.leb_spec 5000 (Z.of_nat (catalan n))); [reflexivity|lia].
  - intros H. destruct n as [|[|n]]; [vm_compute; reflexivity|vm_compute; reflexivity|lia].
Qed.
(** from n = 10 on, and for n < 2, no DGNF can be built at all *)
Theorem C55_size_guard pick n : 10 <= n ->
  (forall p f, mk (dtb (npar_table pick)) n p f = Err ValueError) /\
  (forall w, from_artin_word (dtb (npar_table pick)) n w = Err ValueError).
Proof.
  intros H. assert (E : dtb (npar_table pick) n = Err ValueError).
  { unfold dtb, npar_table. pose proof (catalan_big n H). destruct (Z.leb_spec 5000 (Z.of_nat (catalan n))); [reflexivity|lia]. }
  split; intros; [unfold mk|unfold from_artin_word]; now rewrite E.
Qed.
(** the table does not depend on the order in which set.pop() returns elements *)
Theorem C55_table_order_independent n pick pick' : 2 <= n -> epicker_ok pick -> epicker_ok pick' ->
  exists t, npar_table_body pick n = Ok t /\ npar_table_body pick' n = Ok t.
Proof. intros n2 H1 H2. exists (ntab n, nbkl n). split; now apply npar_table_ok. Qed.

Section D.
Variable n : nat.
Variable tab : nptab.
Hypothesis n2 : 2 <= n.
Hypothesis Ht : npar_tables n tab.
Let Etb := dtb_ok n tab n2 Ht.
Notation tb := (dtb tab).

Theorem C55_dgnf_decides_braid_equality u w : word_ok n u -> word_ok n w ->
  exists a b, from_artin_word tb n u = Ok a /\ from_artin_word tb n w = Ok b /\
    (a = b <-> braid_eq n (expand u) (expand w)).
Proof using n2 Ht. apply (api_decides _ _ _ _ _ _ _ _ _ (ntab_ok n n2) tb Etb). Qed.
Theorem C55_dgnf_mul a b : nf_value tb n a -> nf_value tb n b ->
  exists c wa wb wc, nf_mul tb a b = Ok c /\ nf_value tb n c /\
    artin_word tb a = Ok wa /\ artin_word tb b = Ok wb /\ artin_word tb c = Ok wc /\
    braid_eq n (expand wc) (expand wa ++ expand wb).
Proof using n2 Ht. apply (api_mul_word _ _ _ _ _ _ _ _ _ (ntab_ok n n2) tb Etb). Qed.
Theorem C55_dgnf_assoc a b c : nf_value tb n a -> nf_value tb n b -> nf_value tb n c ->
  exists ab bc abc, nf_mul tb a b = Ok ab /\ nf_mul tb b c = Ok bc /\
    nf_mul tb ab c = Ok abc /\ nf_mul tb a bc = Ok abc.
Proof using n2 Ht. apply (api_assoc _ _ _ _ _ _ _ _ _ (ntab_ok n n2) tb Etb). Qed.
Theorem C55_dgnf_identity a : nf_value tb n a ->
  exists e, nf_identity tb n = Ok e /\ nf_value tb n e /\ nf_mul tb a e = Ok a /\ nf_mul tb e a = Ok a.
Proof using n2 Ht. apply (api_id_neutral _ _ _ _ _ _ _ _ _ (ntab_ok n n2) tb Etb). Qed.
Theorem C55_dgnf_inverse a : nf_value tb n a ->
  exists i e, nf_inv tb a = Ok i /\ nf_value tb n i /\ nf_identity tb n = Ok e /\
    nf_mul tb a i = Ok e /\ nf_mul tb i a = Ok e.
Proof using n2 Ht. apply (api_inverse _ _ _ _ _ _ _ _ _ (ntab_ok n n2) tb Etb). Qed.
Theorem C55_dgnf_pow a : nf_value tb n a ->
  exists e, nf_identity tb n = Ok e /\ nf_pow tb a 0 = Ok e /\
  (forall k, exists x, nf_pow tb a k = Ok x /\ nf_value tb n x /\
     exists y, nf_pow tb a (k + 1) = Ok y /\ nf_mul tb x a = Ok y /\ nf_mul tb a x = Ok y) /\
  nf_pow tb a (-1) = nf_inv tb a.
Proof using n2 Ht. apply (api_pow_rules _ _ _ _ _ _ _ _ _ (ntab_ok n n2) tb Etb). Qed.
Theorem C55_dgnf_artin_round_trip b : nf_value tb n b ->
  exists w, artin_word tb b = Ok w /\ from_artin_word tb n w = Ok b.
Proof using n2 Ht. apply (api_round_trip _ _ _ _ _ _ _ _ _ (ntab_ok n n2) tb Etb). Qed.
Theorem C55_dgnf_artin_round_trip_word w : word_ok n w ->
  exists b w', from_artin_word tb n w = Ok b /\ nf_value tb n b /\ artin_word tb b = Ok w' /\
    braid_eq n (expand w') (expand w).
Proof using n2 Ht. apply (api_round_trip_word _ _ _ _ _ _ _ _ _ (ntab_ok n n2) tb Etb). Qed.

(** ** C96: noncrossing partitions and BKL generators as DGNFs *)
Lemma lift_word x : npar_artin_word (en n x) = Ok (nwd n x).
Proof using. now destruct (nwd_ok n x) as [l [E _]]. Qed.
Lemma noncrossing_en p : noncrossing n p -> exists x, p = en n x.
Proof using. intros H. apply in_en. apply NE_in. now apply noncrossing_ex. Qed.

Theorem C96_from_npar_seq ps ws : Forall (noncrossing n) ps -> Forall2 (fun p w => npar_artin_word p = Ok w) ps ws ->
  exists b, dgnf_from_npar_seq tab n ps = Ok b /\ denotes tb n b (flat_map expand ws).
Proof using n2 Ht.
  intros Hps Hws. assert (X : exists xs, ps = map (en n) xs /\ flat_map expand ws = flat_map (lift (NG n) (nwd n)) xs).
  { induction Hws as [|p w ps ws E _ IH]; [now exists []|]. inversion Hps; subst. destruct IH as [xs [-> Ex]]; [assumption|].
    destruct (noncrossing_en p) as [x ->]; [assumption|]. exists (x :: xs). split; [reflexivity|]. cbn [flat_map].
    rewrite lift_word in E. injection E as <-. rewrite Ex. reflexivity. }
  destruct X as [xs [-> ->]].
  destruct (reps_from_div_seq _ _ _ _ _ _ _ _ _ (ntab_ok n n2) tb Etb np_n xs) as [b [Eb R]]; [reflexivity|].
  exists b. split; [exact Eb|]. now apply (denotes_iff _ _ _ _ _ _ _ _ _ (ntab_ok n n2) tb Etb).
Qed.
Theorem C96_from_npar p : noncrossing n p ->
  exists b c w, dgnf_from_npar tab p = Ok b /\ bg_from_npar tab n p = Ok c /\ b = c /\ npar_artin_word p = Ok w /\ denotes tb n b (expand w).
Proof using n2 Ht.
  intros Hp. destruct (noncrossing_en p Hp) as [x ->].
  destruct (C96_from_npar_seq [en n x] [nwd n x]) as [b [Eb Db]]; [now constructor|constructor; [apply lift_word|constructor]|].
  cbn [flat_map] in Db. rewrite app_nil_r in Db.
  assert (C : exists c, bg_from_npar tab n (en n x) = Ok c /\ denotes tb n c (expand (nwd n x))).
  { pose proof (ntab_ok n n2) as TK. unfold bg_from_npar. change (np_n (en n x)) with n. rewrite Nat.eqb_refl. cbn [negb]. rewrite Etb. cbn [bind].
    rewrite (tk_index _ _ _ _ _ _ _ _ _ TK). cbn [bind]. rewrite (tk_id _ _ _ _ _ _ _ _ _ TK), (tk_DD _ _ _ _ _ _ _ _ _ TK).
    assert (I : forall s, ok (NG n) (neqd n) s -> forall w, braid_eq n (word_of (NG n) (lift (NG n) (nwd n)) s) w ->
       exists c, mk tb n (fst s) (map (nidx n) (snd s)) = Ok c /\ denotes tb n c w).
    { intros [d l] Ho w Hw. eexists. split; [apply (mk_ok _ _ _ _ _ _ _ _ _ TK tb Etb d l Ho)|].
      apply (denotes_iff _ _ _ _ _ _ _ _ _ TK tb Etb). exists (d, l). auto. }
    assert (I0 : True) by exact Logic.I. assert (One : braid_eq n (lift (NG n) (nwd n) (one (NG n))) []).
    { apply (lift_one (NG n) n (lift (NG n) (nwd n))); [exact (tk_range _ _ _ _ _ _ _ _ _ TK)|exact (tk_mul _ _ _ _ _ _ _ _ _ TK)]. }
    destruct (Z.eqb_spec (nidx n x) (nidx n (one (NG n)))) as [E|N1].
    { apply (nidx_inj n) in E. subst x. apply (I (0%Z, [])); [repeat split; constructor|]. cbn. apply be_sym. exact One. }
    destruct (Z.eqb_spec (nidx n x) (nidx n (D (NG n)))) as [E|N2].
    { apply (nidx_inj n) in E. subst x. apply (I (1%Z, [])); [repeat split; constructor|]. unfold word_of. cbn [fst snd liftl flat_map]. rewrite app_nil_r, wpow_1. apply be_refl. }
    apply (I (0%Z, [x])).
    - apply (ok_proper _ _ _ _ _ _ _ _ _ TK). split; [cbn; tauto|]. constructor; [|constructor]. split; intros ->; auto.
    - cbn. rewrite app_nil_r. apply be_refl. }
  destruct C as [c [Ec Dc]]. exists b, c, (nwd n x). split; [exact Eb|]. split; [exact Ec|]. split; [|split; [apply lift_word|exact Db]].
  apply (api_eq _ _ _ _ _ _ _ _ _ (ntab_ok n n2) tb Etb _ _ _ _ Db Dc). apply be_refl.
Qed.

(** the BKL generator a_ij as a DGNF *)
Lemma bkl_val i j : 3 <= n -> i < j -> j < n ->
  exists x, mk tb n 0 [nidx n (nat2 n i j)] = Ok x /\ denotes tb n x (expand (bkl_gen_to_artin_word i j)).
Proof using n2 Ht.
  intros n3 L B. pose proof (ntab_ok n n2) as TK. set (x := nat2 n i j).
  assert (N1 : x <> one (NG n)).
  { intros E. apply (f_equal (nval n)) in E. unfold x in E. rewrite nval_nat2 in E by assumption. cbn in E. rewrite nval_one in E.
    apply (id_no_edge n i j). rewrite <- E. now apply Q_ptrans. }
  assert (N2 : x <> D (NG n)).
  { intros E. apply (f_equal (nval n)) in E. unfold x in E. rewrite nval_nat2 in E by assumption. cbn in E. rewrite nval_D in E.
    assert (Z : exists k, k < n /\ k <> i /\ k <> j).
    { destruct i as [|[|i]]; [destruct j as [|[|j]]; [lia|exists 2; lia|exists 1; lia]|exists 0; lia|exists 0; lia]. }
    destruct Z as [k [Hk [Ni Nj]]]. assert (K : ed n (ptrans n i j) (Nat.min i k) (Nat.max i k)) by (rewrite E; apply cox_ed; lia).
    apply ptrans_ed in K; [|exact L|exact B]. lia. }
  assert (Ho : ok (NG n) (neqd n) (0%Z, [x])).
  { apply (ok_proper _ _ _ _ _ _ _ _ _ TK). split; [cbn; tauto|]. constructor; [|constructor]. split; assumption. }
  eexists. split; [apply (mk_ok _ _ _ _ _ _ _ _ _ TK tb Etb 0 [x] Ho)|].
  apply (denotes_iff _ _ _ _ _ _ _ _ _ TK tb Etb). exists (0%Z, [x]). split; [exact Ho|]. split; [reflexivity|].
  unfold word_of. cbn [fst snd liftl flat_map]. rewrite wpow_0, app_nil_r. cbn [List.app].
  destruct (nwd_ok n x) as [l [_ [F [El _]]]]. unfold lift. rewrite El, bkl_gen_aw by exact L. rewrite <- (app_nil_r (aw i j)).
  apply (fac_coherent n (nval n x) l [(i, j)] F). unfold x. rewrite nval_nat2 by assumption. now apply fac_one.
Qed.
Lemma id_val : exists e, nf_identity tb n = Ok e /\ denotes tb n e [].
Proof using n2 Ht. apply (api_id _ _ _ _ _ _ _ _ _ (ntab_ok n n2) tb Etb). Qed.

(** DGNF.bkl_gens(n): a dictionary with exactly the keys (i, j), i, j < n *)
Theorem C96_dgnf_bkl_gens : 3 <= n -> exists d, dgnf_bkl_gens tab n = Ok d /\
  (forall i j, i < n -> j < n -> exists b, edge_get d (i, j) = Ok b /\ denotes tb n b (expand (bkl_gen_to_artin_word i j))) /\
  (forall i j, ~ (i < n /\ j < n) -> edge_get d (i, j) = Err KeyError).
Proof using n2 Ht.
  intros n3. unfold dgnf_bkl_gens. destruct id_val as [e [Ee De]]. rewrite Ee. cbn [bind]. unfold bkl_table. rewrite (npar_tables_ok n tab n2 Ht). cbn [bind snd].
  match goal with |- context[mapM ?g _] => set (f := g) end.
  assert (K : forall p, In p (list_prod (seq 0 n) (seq 0 n)) -> exists x, f p = Ok (p, x) /\ denotes tb n x (expand (bkl_gen_to_artin_word (fst p) (snd p)))).
  { intros [i j] Hp. apply in_prod_iff in Hp. rewrite !in_seq in Hp. unfold f. cbn [fst snd]. destruct (C39_symmetric i j) as [Sy Ii].
    destruct (Nat.eqb_spec i j) as [<-|N].
    - exists e. split; [reflexivity|]. rewrite Ii. exact De.
    - rewrite (bkl_ok n n2) by lia. cbn [bind].
      destruct (bkl_val (Nat.min i j) (Nat.max i j) n3 ltac:(lia) ltac:(lia)) as [x [Ex Dx]].
      rewrite Ex. exists x. split; [reflexivity|]. destruct (le_lt_dec i j).
      + replace (Nat.min i j) with i in Dx by lia. replace (Nat.max i j) with j in Dx by lia. exact Dx.
      + replace (Nat.min i j) with j in Dx by lia. replace (Nat.max i j) with i in Dx by lia. rewrite Sy. exact Dx. }
  assert (M : forall l, (forall p, In p l -> exists x, f p = Ok (p, x) /\ denotes tb n x (expand (bkl_gen_to_artin_word (fst p) (snd p)))) ->
    exists d, mapM f l = Ok d /\ (forall p, In p l -> exists b, edge_get d p = Ok b /\ denotes tb n b (expand (bkl_gen_to_artin_word (fst p) (snd p)))) /\
      (forall p, ~ In p l -> edge_get d p = Err KeyError)).
  { induction l as [|p l IH]; intros H; [exists []; split; [reflexivity|]; split; [intros p []|reflexivity]|].
    destruct (H p (or_introl eq_refl)) as [x [Ex Dx]]. destruct IH as [d [Ed [H1 H2]]]; [intros q Hq; apply H; now right|].
    exists ((p, x) :: d). cbn [mapM]. rewrite Ex. cbn [bind]. rewrite Ed. cbn [bind]. split; [reflexivity|]. split.
    - intros q Hq. cbn [edge_get]. destruct (edge_eqb q p) eqn:Eq; [apply edge_eqb_ok in Eq; subst q; eauto|].
      destruct Hq as [->|Hq]; [|now apply H1]. rewrite (proj2 (edge_eqb_ok q q) eq_refl) in Eq. discriminate.
    - intros q Hq. cbn [edge_get]. destruct (edge_eqb q p) eqn:Eq; [apply edge_eqb_ok in Eq; subst q; exfalso; apply Hq; now left|].
      apply H2. intros C. apply Hq. now right. }
  destruct (M _ K) as [d [Ed [H1 H2]]]. exists d. split; [exact Ed|]. split.
  - intros i j Hi Hj. apply (H1 (i, j)). apply in_prod_iff. rewrite !in_seq. lia.
  - intros i j H. apply (H2 (i, j)). rewrite in_prod_iff, !in_seq. lia.
Qed.

Lemma edge_get_set {X} (d : list ((nat * nat) * X)) p v q :
  edge_get (edge_set d p v) q = if edge_eqb q p then Ok v else edge_get d q.
Proof using.
  induction d as [|[r u] d IH]; cbn [edge_set edge_get]; [reflexivity|].
  destruct (edge_eqb p r) eqn:Epr.
  - apply edge_eqb_ok in Epr. subst r. cbn [edge_get]. destruct (edge_eqb q p); reflexivity.
  - cbn [edge_get]. rewrite IH. destruct (edge_eqb q r) eqn:Eqr; [|reflexivity]. apply edge_eqb_ok in Eqr. subst r.
    destruct (edge_eqb q p) eqn:Eqp; [|reflexivity]. apply edge_eqb_ok in Eqp. subst q.
    rewrite (proj2 (edge_eqb_ok p p) eq_refl) in Epr. discriminate.
Qed.
Lemma edge_fold {X} (R : nat * nat -> X -> Prop) l : forall d,
  (forall p x, In (p, x) l -> R p x) -> (forall p x, edge_get d p = Ok x -> R p x) ->
  let d' := fold_left (fun d '(p, x) => edge_set d p x) l d in
  (forall p x, edge_get d' p = Ok x -> R p x) /\
  (forall p, edge_get d' p = Err KeyError -> edge_get d p = Err KeyError /\ ~ In p (map fst l)) /\
  (forall p, edge_get d p = Err KeyError -> ~ In p (map fst l) -> edge_get d' p = Err KeyError).
Proof using.
  induction l as [|[q y] l IH]; intros d Hl Hd; cbn [fold_left map].
  - split; [exact Hd|]. split; [intros p H; split; [exact H|intros []]|auto].
  - destruct (IH (edge_set d q y)) as [A [B C]].
    + intros p x Hp. apply Hl. now right.
    + intros p x E. rewrite edge_get_set in E. destruct (edge_eqb p q) eqn:Eq; [|now apply Hd].
      apply edge_eqb_ok in Eq. subst q. injection E as <-. apply Hl. now left.
    + split; [exact A|]. split.
      * intros p E. apply B in E. rewrite edge_get_set in E. destruct (edge_eqb p q) eqn:Eq; [destruct E; discriminate|].
        destruct E as [E N]. split; [exact E|]. intros [<-|I]; [|contradiction].
        rewrite (proj2 (edge_eqb_ok _ _) eq_refl) in Eq. discriminate.
      * intros p E N. apply C; [|intros I; apply N; now right]. rewrite edge_get_set.
        destruct (edge_eqb p q) eqn:Eq; [|exact E]. apply edge_eqb_ok in Eq. subst q. exfalso. apply N. now left.
Qed.
Lemma edge_get_cases {X} (d : list ((nat * nat) * X)) p : (exists x, edge_get d p = Ok x) \/ edge_get d p = Err KeyError.
Proof using.
  induction d as [|[q y] d IH]; cbn [edge_get]; [now right|]. destruct (edge_eqb p q); [left; eauto|exact IH].
Qed.
(** BraidGroup(n).bkl_gens() *)
Theorem C96_bkl_gens : 3 <= n -> exists d, bg_bkl_gens tab n = Ok d /\
  (forall i j, i < n -> j < n -> exists b, edge_get d (i, j) = Ok b /\ denotes tb n b (expand (bkl_gen_to_artin_word i j))) /\
  (forall i j, ~ (i < n /\ j < n) -> edge_get d (i, j) = Err KeyError).
Proof using n2 Ht.
  intros n3. unfold bg_bkl_gens. unfold bkl_table. rewrite (npar_tables_ok n tab n2 Ht). cbn [bind snd].
  set (R := fun (p : nat * nat) x => denotes tb n x (expand (bkl_gen_to_artin_word (fst p) (snd p)))).
  assert (K : forall e k, In (e, k) (nbkl n) -> fst e < snd e /\ snd e < n /\ exists x, mk tb n 0 [k] = Ok x /\ R e x).
  { intros [i j] k H. unfold nbkl in H. apply in_map_iff in H. destruct H as [[i' j'] [[= <- <- <-] H]]. apply comb2_seq in H. cbn [fst snd] in *.
    split; [lia|]. split; [lia|]. apply bkl_val; lia. }
  assert (Kx : forall i j, i < j -> j < n -> exists k, In ((i, j), k) (nbkl n)).
  { intros i j L B. exists (nidx n (nat2 n i j)). unfold nbkl. apply in_map_iff. exists (i, j). split; [reflexivity|]. apply comb2_seq. cbn [fst snd]. lia. }
  assert (M : forall (g : nat * nat -> nat * nat) l, (forall e k, In (e, k) l -> exists x, mk tb n 0 [k] = Ok x /\ R (g e) x) ->
    exists d, mapM (fun '(e, k) => x <- mk tb n 0 [k] ;; Ok (g e, x)) l = Ok d /\ map fst d = map (fun ek => g (fst ek)) l /\
      forall p x, In (p, x) d -> R p x).
  { intros g. induction l as [|[e k] l IH]; intros H; [exists []; split; [reflexivity|]; split; [reflexivity|intros p x []]|].
    destruct (H e k (or_introl eq_refl)) as [x [Ex Rx]]. destruct IH as [d [Ed [H1 H2]]]; [intros; apply H; now right|].
    exists ((g e, x) :: d). cbn [mapM]. rewrite Ex. cbn [bind]. rewrite Ed. cbn [bind map fst]. split; [reflexivity|]. split; [now rewrite H1|].
    intros p y [[= <- <-]|I]; [exact Rx|now apply H2]. }
  destruct (M (fun e => e) (nbkl n)) as [d1 [E1 [M1 R1]]]. { intros e k H. now apply K. }
  destruct (M (fun e => (snd e, fst e)) (nbkl n)) as [d2 [E2 [M2 R2]]].
  { intros e k H. destruct (K e k H) as [_ [_ [x [Ex Rx]]]]. exists x. split; [exact Ex|]. unfold R in *. cbn [fst snd].
    now rewrite (proj1 (C39_symmetric (snd e) (fst e))). }
  rewrite E1. cbn [bind]. rewrite E2. cbn [bind]. destruct id_val as [e [Ee De]]. rewrite Ee. cbn [bind].
  rewrite (mapM_ok _ (fun i => ((i, i), e))) by reflexivity. cbn [bind]. eexists. split; [reflexivity|].
  set (l := d1 ++ d2 ++ map (fun i => ((i, i), e)) (seq 0 n)).
  destruct (edge_fold R l []) as [A [B C]].
  { intros p x I. unfold l in I. rewrite !in_app_iff in I. destruct I as [I|[I|I]]; [now apply R1|now apply R2|].
    apply in_map_iff in I. destruct I as [i [[= <- <-] _]]. unfold R. cbn [fst snd]. rewrite (proj2 (C39_symmetric i i)). exact De. }
  { intros p x E. discriminate. }
  assert (Keys : forall i j, In (i, j) (map fst l) <-> i < n /\ j < n).
  { intros i j. unfold l. rewrite !map_app, !in_app_iff, M1, M2, !map_map, !in_map_iff. cbn [fst]. split.
    - intros [[[p k] [E I]]|[[[p k] [E I]]|[k [[= <- <-] I]]]]; [| |rewrite in_seq in I; lia].
      + cbn [fst] in E. subst p. apply K in I. cbn [fst snd] in I. lia.
      + cbn [fst snd] in E. injection E as <- <-. apply K in I. lia.
    - intros [Hi Hj]. destruct (lt_eq_lt_dec i j) as [[L| <-]|L].
      + left. destruct (Kx i j L Hj) as [k I]. exists ((i, j), k). auto.
      + right. right. exists i. split; [reflexivity|apply in_seq; lia].
      + right. left. destruct (Kx j i L Hi) as [k I]. exists ((j, i), k). auto. }
  split.
  - intros i j Hi Hj. destruct (edge_get_cases (fold_left (fun d '(p, x) => edge_set d p x) l []) (i, j)) as [[x E]|E].
    + exists x. split; [exact E|]. exact (A _ _ E).
    + exfalso. apply B in E. destruct E as [_ N]. apply N, Keys. lia.
  - intros i j H. apply C; [reflexivity|]. now rewrite Keys.
Qed.
End D.
(** refuted for n = 2, where the only generator is Delta itself *)
Theorem C96_bkl_gens_two_refuted tab : npar_tables 2 tab ->
  dgnf_bkl_gens tab 2 = Err AssertionError /\ bg_bkl_gens tab 2 = Err AssertionError.
Proof.
  intros Ht. pose proof (npar_tables_ok 2 tab (le_n 2) Ht) as E.
  destruct (C55_table_order_independent 2 (fun _ _ _ l => hd (0, 0) l) (fun _ _ _ l => hd (0, 0) l)) as [t [Et _]]; [lia| | |].
  1-2: intros x y k [|e l] N; [contradiction|now left].
  pose proof (npar_table_ok 2 (fun _ _ _ l => hd (0, 0) l)) as E'. rewrite Et in E'.
  rewrite <- E' in E; [|intros x y k [|e l] N; [contradiction|now left]|lia]. rewrite <- Et in E.
  unfold dgnf_bkl_gens, bg_bkl_gens, nf_identity, bkl_table, mk, dtb. rewrite E. split; vm_compute; reflexivity.
Qed.

(** ** C56: conversion between the two normal forms *)
Lemma flat_map_denotes {A} (tbl : nftable A) G rn eqd n wd atom idx div (TK : table_ok tbl G rn eqd n wd atom idx div)
  (tb : nat -> res (nftable A)) (Etb : tb n = Ok tbl) : forall fs us e u, Forall2 (denotes tb n) fs us -> denotes tb n e u ->
  exists c, foldM (nf_mul tb) fs e = Ok c /\ denotes tb n c (u ++ concat us).
Proof.
  intros fs us e u H; revert e u. induction H as [|f v fs us Hf _ IH]; intros e u He; cbn [foldM concat].
  - exists e. rewrite app_nil_r. auto.
  - destruct (api_mul _ _ _ _ _ _ _ _ _ TK tb Etb e f u v He Hf) as [c [Ec Dc]]. rewrite Ec. cbn [bind].
    destruct (IH c (u ++ v) Dc) as [c' [Ec' Dc']]. exists c'. split; [exact Ec'|]. now rewrite <- app_assoc in Dc'.
Qed.

Lemma mapM_ext_in {A B} (f g : A -> res B) l : (forall x, In x l -> f x = g x) -> mapM f l = mapM g l.
Proof.
  induction l as [|x l IH]; intros H; [reflexivity|]. cbn [mapM]. rewrite (H x (or_introl eq_refl)). rewrite IH; [reflexivity|].
  intros y Hy. apply H. now right.
Qed.
Section Conv.
Context {A B : Type}.
Variable tblA : nftable A.
Variable GA : Germ.
Variable rnA : T GA -> T GA -> T GA * T GA.
Variable eqdA : forall x y : T GA, {x = y} + {x <> y}.
Variable n : nat.
Variable wdA : T GA -> list (Z * Z).
Variable atomA : nat -> T GA.
Variable idxA : T GA -> Z.
Variable divA : T GA -> A.
Hypothesis TA : table_ok tblA GA rnA eqdA n wdA atomA idxA divA.
Variable tbA : nat -> res (nftable A).
Hypothesis EA : tbA n = Ok tblA.
Hypothesis LA : length (t_divs tblA) = t_order tblA.
Variable size : A -> nat.
Hypothesis SA : forall x, size (divA x) = n.
Variable tblB : nftable B.
Variable GB : Germ.
Variable rnB : T GB -> T GB -> T GB * T GB.
Variable eqdB : forall x y : T GB, {x = y} + {x <> y}.
Variable wdB : T GB -> list (Z * Z).
Variable atomB : nat -> T GB.
Variable idxB : T GB -> Z.
Variable divB : T GB -> B.
Hypothesis TB : table_ok tblB GB rnB eqdB n wdB atomB idxB divB.
Variable tbB : nat -> res (nftable B).
Hypothesis EB : tbB n = Ok tblB.

Lemma conv_factors : exists ks,
  mapM (fun p => x <- from_div_seq tbA size n [p] ;; w <- artin_word tbA x ;; from_artin_word tbB n w) (t_divs tblA) = Ok ks /\
  forall x, exists b, pyget ks (idxA x) = Ok b /\ denotes tbB n b (lift GA wdA x).
Proof using All.
  match goal with |- context[mapM ?g _] => set (f := g) end.
  assert (K : forall x, exists b, f (divA x) = Ok b /\ denotes tbB n b (lift GA wdA x)).
  { intros x. unfold f. destruct (reps_from_div_seq _ _ _ _ _ _ _ _ _ TA tbA EA size [x] SA) as [a [Ea Ra]]. cbn [map] in Ea. rewrite Ea. cbn [bind].
    destruct (reps_artin_word _ _ _ _ _ _ _ _ _ TA tbA EA _ _ Ra) as [w [Ew [Bw [Kw _]]]]. rewrite Ew. cbn [bind].
    destruct (api_from_word _ _ _ _ _ _ _ _ _ TB tbB EB w Kw) as [b [Eb Db]]. exists b. split; [exact Eb|].
    apply (denotes_iff _ _ _ _ _ _ _ _ _ TB tbB EB) in Db. apply (denotes_iff _ _ _ _ _ _ _ _ _ TB tbB EB).
    eapply reps_mor; [|exact Db]. cbn [flat_map] in Bw. rewrite app_nil_r in Bw. exact Bw. }
  assert (Nth : forall k, k < t_order tblA -> exists x, nth_error (t_divs tblA) k = Some (divA x) /\ idxA x = Z.of_nat k).
  { intros k Hk. destruct (tk_surj _ _ _ _ _ _ _ _ _ TA (Z.of_nat k)) as [x Ex]; [lia|]. exists x. split; [|exact Ex].
    pose proof (tk_div _ _ _ _ _ _ _ _ _ TA x) as D. rewrite Ex, pyget_nat in D. unfold get in D.
    destruct (nth_error (t_divs tblA) k); [now injection D as ->|discriminate]. }
  assert (All : forall p, In p (t_divs tblA) -> exists b, f p = Ok b).
  { intros p Hp. apply In_nth_error in Hp. destruct Hp as [k Hk]. assert (Lk : k < length (t_divs tblA)) by (apply nth_error_Some; congruence).
    rewrite LA in Lk. destruct (Nth k Lk) as [x [Ex _]]. rewrite Hk in Ex. injection Ex as ->. destruct (K x) as [b [Eb _]]. eauto. }
  assert (M : exists ks, mapM f (t_divs tblA) = Ok ks).
  { clear -All. induction (t_divs tblA) as [|p l IH]; [now exists []|]. destruct (All p (or_introl eq_refl)) as [b Eb].
    destruct IH as [ks Ek]; [intros q Hq; apply All; now right|]. exists (b :: ks). cbn [mapM]. rewrite Eb. cbn [bind]. now rewrite Ek. }
  destruct M as [ks Ek]. exists ks. split; [exact Ek|]. intros x. destruct (K x) as [b [Eb Db]]. exists b. split; [|exact Db].
  pose proof (tk_bound _ _ _ _ _ _ _ _ _ TA x) as Bx. destruct (Nth (Z.to_nat (idxA x)) ltac:(lia)) as [y [Ey Iy]].
  assert (y = x) by (apply (tk_inj _ _ _ _ _ _ _ _ _ TA); lia). subst y.
  apply mapM_Ok_Forall2 in Ek. replace (idxA x) with (Z.of_nat (Z.to_nat (idxA x))) by lia. rewrite pyget_nat. unfold get.
  assert (F : forall (l : list A) ms k p, Forall2 (fun a b => f a = Ok b) l ms -> nth_error l k = Some p -> exists m, nth_error ms k = Some m /\ f p = Ok m).
  { clear. intros l ms k p H; revert k. induction H as [|a m l ms E _ IH]; intros [|k] N; try discriminate; cbn in *; [injection N as ->; eauto|eauto]. }
  destruct (F _ _ _ _ Ek Ey) as [m [Em Fm]]. rewrite Em. congruence.
Qed.

Lemma conv_ok ks b u : (forall x, exists c, pyget ks (idxA x) = Ok c /\ denotes tbB n c (lift GA wdA x)) -> denotes tbA n b u ->
  o_n b = n /\ exists fs e r, mapM (pyget ks) (o_factors b) = Ok fs /\ nf_identity tbB n = Ok e /\ foldM (nf_mul tbB) fs e = Ok r /\
    if (o_pow b =? 0)%Z then denotes tbB n r u
    else exists d dp c, pyget ks (t_D tblA) = Ok d /\ nf_pow tbB d (o_pow b) = Ok dp /\ nf_mul tbB dp r = Ok c /\ denotes tbB n c u.
Proof using TA EA TB EB.
  intros Hk Hb. apply (denotes_iff _ _ _ _ _ _ _ _ _ TA tbA EA) in Hb. destruct Hb as [[d l] [Ho [-> Hw]]]. cbn [enc o_n o_pow o_factors fst snd].
  split; [reflexivity|].
  assert (F : exists fs, mapM (pyget ks) (map idxA l) = Ok fs /\ Forall2 (denotes tbB n) fs (map (lift GA wdA) l)).
  { clear -Hk. induction l as [|x l IH]; [exists []; split; [reflexivity|constructor]|]. destruct (Hk x) as [c [Ec Dc]]. destruct IH as [fs [Ef Ff]].
    exists (c :: fs). cbn [map mapM]. rewrite Ec. cbn [bind]. rewrite Ef. cbn [bind]. split; [reflexivity|]. constructor; assumption. }
  destruct F as [fs [Ef Ff]]. destruct (api_id _ _ _ _ _ _ _ _ _ TB tbB EB) as [e [Ee De]].
  destruct (flat_map_denotes _ _ _ _ _ _ _ _ _ TB tbB EB fs _ e [] Ff De) as [r [Er Dr]]. cbn [List.app] in Dr.
  assert (Mor : forall c v w, braid_eq n v w -> denotes tbB n c v -> denotes tbB n c w).
  { intros c v w E D. apply (denotes_iff _ _ _ _ _ _ _ _ _ TB tbB EB) in D. apply (denotes_iff _ _ _ _ _ _ _ _ _ TB tbB EB). eapply reps_mor; eassumption. }
  exists fs, e, r. split; [exact Ef|]. split; [exact Ee|]. split; [exact Er|]. unfold word_of, liftl in Hw. cbn [fst snd] in Hw.
  rewrite flat_map_concat_map in Hw. destruct (Z.eqb_spec d 0) as [->|N].
  - rewrite wpow_0 in Hw. cbn [List.app] in Hw. eapply Mor; eassumption.
  - destruct (Hk (D GA)) as [dd [Ed Dd]]. rewrite (tk_DD _ _ _ _ _ _ _ _ _ TA). exists dd.
    destruct (api_pow _ _ _ _ _ _ _ _ _ TB tbB EB dd _ d Dd) as [dp [Edp Ddp]]. exists dp.
    destruct (api_mul _ _ _ _ _ _ _ _ _ TB tbB EB dp r _ _ Ddp Dr) as [c [Ec Dc]]. exists c.
    do 3 (split; [assumption|]). eapply Mor; eassumption.
Qed.
End Conv.

Section Convert.
Variable n : nat.
Variable tab : nptab.
Variable gt : nat -> res (nftable (list nat)).
Hypothesis n2 : 2 <= n.
Hypothesis Ht : npar_tables n tab.
Hypothesis Hg : gnf_table n gt.
Let EN := dtb_ok n tab n2 Ht.
Let EG := gnf_table_ptab n gt Hg.

Lemma to_DGNF_ok b u : denotes gt n b u -> exists c, to_DGNF tab gt b = Ok c /\ denotes (dtb tab) n c u.
Proof using n2 Ht Hg.
  intros Hb. destruct (conv_factors (ptab n) _ _ _ n _ _ _ _ (ptab_ok n n2) gt EG (eq_refl _) (@length nat) (fun x => isperm_length n _ (val_P n x))
    (ntab n) _ _ _ _ _ _ _ (ntab_ok n n2) (dtb tab) EN) as [ks [Ek Hk]].
  destruct (conv_ok (ptab n) _ _ _ n _ _ _ _ (ptab_ok n n2) gt EG
    (ntab n) _ _ _ _ _ _ _ (ntab_ok n n2) (dtb tab) EN ks b u Hk Hb) as [On [fs [e [r [Ef [Ee [Er K]]]]]]].
  unfold to_DGNF. rewrite On, EG. cbn [bind]. unfold factors_to_DGNF. rewrite EG. cbn [bind].
  assert (Ek' : mapM (fun p => x <- gnf_from_perm gt p ;; w <- artin_word gt x ;; from_artin_word (dtb tab) n w) (t_divs (ptab n)) = Ok ks).
  { rewrite <- Ek. cbn [t_divs ptab]. apply mapM_ext_in. intros p Hp. unfold gnf_from_perm, gnf_from_perm_seq.
    now rewrite (isperm_length n p (proj1 (elements_in n p) Hp)). }
  rewrite Ek'. cbn [bind]. rewrite Ef. cbn [bind]. rewrite Ee. cbn [bind]. rewrite Er. cbn [bind].
  destruct (o_pow b =? 0)%Z; [eauto|]. destruct K as [d [dp [c [Ed [Edp [Ec Dc]]]]]]. rewrite Ed. cbn [bind]. rewrite Edp. cbn [bind]. eauto.
Qed.
Lemma to_GNF_ok b u : denotes (dtb tab) n b u -> exists c, to_GNF tab gt b = Ok c /\ denotes gt n c u.
Proof using n2 Ht Hg.
  intros Hb. destruct (conv_factors (ntab n) _ _ _ n _ _ _ _ (ntab_ok n n2) (dtb tab) EN (eq_refl _) np_n (fun x => eq_refl)
    (ptab n) _ _ _ _ _ _ _ (ptab_ok n n2) gt EG) as [ks [Ek Hk]].
  destruct (conv_ok (ntab n) _ _ _ n _ _ _ _ (ntab_ok n n2) (dtb tab) EN
    (ptab n) _ _ _ _ _ _ _ (ptab_ok n n2) gt EG ks b u Hk Hb) as [On [fs [e [r [Ef [Ee [Er K]]]]]]].
  unfold to_GNF. rewrite On, EN. cbn [bind]. unfold factors_to_GNF. rewrite EN. cbn [bind].
  assert (Ek' : mapM (fun p => x <- dgnf_from_npar tab p ;; w <- artin_word (dtb tab) x ;; from_artin_word gt n w) (t_divs (ntab n)) = Ok ks).
  { rewrite <- Ek. cbn [t_divs ntab]. apply mapM_ext_in. intros p Hp. unfold dgnf_from_npar, dgnf_from_npar_seq.
    apply NE_in in Hp. destruct Hp as [w [_ ->]]. reflexivity. }
  rewrite Ek'. cbn [bind]. rewrite Ef. cbn [bind]. rewrite Ee. cbn [bind]. rewrite Er. cbn [bind].
  destruct (o_pow b =? 0)%Z; [eauto|]. destruct K as [d [dp [c [Ed [Edp [Ec Dc]]]]]]. rewrite Ed. cbn [bind]. rewrite Edp. cbn [bind]. eauto.
Qed.
Theorem C56_to_DGNF b : nf_value gt n b -> exists c u v, to_DGNF tab gt b = Ok c /\ nf_value (dtb tab) n c /\
  artin_word gt b = Ok u /\ artin_word (dtb tab) c = Ok v /\ braid_eq n (expand u) (expand v) /\ to_GNF tab gt c = Ok b.
Proof using n2 Ht Hg.
  intros Hb. destruct (api_word _ _ _ _ _ _ _ _ _ (ptab_ok n n2) gt EG b Hb) as [u [Eu [_ [_ Du]]]].
  destruct (to_DGNF_ok b _ Du) as [c [Ec Dc]]. pose proof Dc as [Vc [v [Ev [_ Bv]]]].
  exists c, u, v. do 4 (split; [assumption|]). split; [now apply be_sym|].
  destruct (to_GNF_ok c _ Dc) as [b' [Eb' Db']]. rewrite Eb'. f_equal.
  apply (api_eq _ _ _ _ _ _ _ _ _ (ptab_ok n n2) gt EG _ _ _ _ Db' Du). apply be_refl.
Qed.
Theorem C56_to_GNF b : nf_value (dtb tab) n b -> exists c u v, to_GNF tab gt b = Ok c /\ nf_value gt n c /\
  artin_word (dtb tab) b = Ok u /\ artin_word gt c = Ok v /\ braid_eq n (expand u) (expand v) /\ to_DGNF tab gt c = Ok b.
Proof using n2 Ht Hg.
  intros Hb. destruct (api_word _ _ _ _ _ _ _ _ _ (ntab_ok n n2) (dtb tab) EN b Hb) as [u [Eu [_ [_ Du]]]].
  destruct (to_GNF_ok b _ Du) as [c [Ec Dc]]. pose proof Dc as [Vc [v [Ev [_ Bv]]]].
  exists c, u, v. do 4 (split; [assumption|]). split; [now apply be_sym|].
  destruct (to_DGNF_ok c _ Dc) as [b' [Eb' Db']]. rewrite Eb'. f_equal.
  apply (api_eq _ _ _ _ _ _ _ _ _ (ntab_ok n n2) (dtb tab) EN _ _ _ _ Db' Du). apply be_refl.
Qed.
(** hence the conversions are group isomorphisms *)
Theorem C56_homomorphism a b : nf_value gt n a -> nf_value gt n b -> exists ab a' b' c,
  nf_mul gt a b = Ok ab /\ to_DGNF tab gt a = Ok a' /\ to_DGNF tab gt b = Ok b' /\ nf_mul (dtb tab) a' b' = Ok c /\ to_DGNF tab gt ab = Ok c.
Proof using n2 Ht Hg.
  intros Ha Hb. destruct (value_denotes _ _ _ _ _ _ _ _ _ (ptab_ok n n2) gt EG a Ha) as [u [Da _]].
  destruct (value_denotes _ _ _ _ _ _ _ _ _ (ptab_ok n n2) gt EG b Hb) as [v [Db _]].
  destruct (api_mul _ _ _ _ _ _ _ _ _ (ptab_ok n n2) gt EG a b u v Da Db) as [ab [Eab Dab]].
  destruct (to_DGNF_ok a u Da) as [a' [Ea' Da']]. destruct (to_DGNF_ok b v Db) as [b' [Eb' Db']].
  destruct (api_mul _ _ _ _ _ _ _ _ _ (ntab_ok n n2) (dtb tab) EN a' b' u v Da' Db') as [c [Ec Dc]].
  destruct (to_DGNF_ok ab _ Dab) as [c' [Ec' Dc']]. exists ab, a', b', c. do 4 (split; [assumption|]). rewrite Ec'. f_equal.
  apply (api_eq _ _ _ _ _ _ _ _ _ (ntab_ok n n2) (dtb tab) EN _ _ _ _ Dc' Dc). apply be_refl.
Qed.
End Convert.

(** The hypotheses hold for the tables the program builds. *)
Example C56_witness : exists tab gt, npar_tables 4 tab /\ gnf_table 4 gt /\
  exists b c, from_artin_word gt 4 [(0, 2); (1, -1); (2, 1)]%Z = Ok b /\ nf_value gt 4 b /\ to_DGNF tab gt b = Ok c /\ nf_value (dtb tab) 4 c.
Proof.
  exists (npar_table (fun _ _ _ l => hd (0, 0) l)), (gtb (fun _ _ _ l => hd 0 l)).
  assert (Ht : npar_tables 4 (npar_table (fun _ _ _ l => hd (0, 0) l))).
  { apply C55_table_domain; [|lia]. intros x y k [|e l] N; [contradiction|now left]. }
  assert (Hg : gnf_table 4 (gtb (fun _ _ _ l => hd 0 l))).
  { apply gtb_is_table; [|lia]. intros x y k [|e l] N; [contradiction|now left]. }
  split; [exact Ht|]. split; [exact Hg|].
  destruct (C47_artin_round_trip_word 4 _ [(0, 2); (1, -1); (2, 1)]%Z ltac:(lia) Hg) as [b [_ [Eb [Vb _]]]].
  { repeat constructor; cbn; lia. }
  destruct (C56_to_DGNF 4 _ _ ltac:(lia) Ht Hg b Vb) as [c [_ [_ [Ec [Vc _]]]]]. exists b, c. auto.
Qed.
