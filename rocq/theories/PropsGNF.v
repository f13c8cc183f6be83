(** PropsGNF.v – properties C40 to C54: Garside normal forms. *)
From Verif Require Import Base ModelPerm PermTheory WeakOrder PermWords SpecBraid BraidTheory
  SpecPerm SpecPermTheory Germ GermNF GermAct GermBraid ModelBraid TableTheory PermGerm PermTable NFApi.
From Coq Require Import Permutation FinFun.

(** [tb] is GNF._nf_table at n: the table PermTable builds, for some behaviour
    of set.pop, with the size guard taken out so that the theorems below hold
    for all n and not only for the n <= 6 the guard admits ([gtb_is_table]). *)
Definition gnf_table (n : nat) (tb : nat -> res (nftable (list nat))) : Prop :=
  exists pick, picker_ok pick /\ tb n = perm_table pick n.

Lemma gtb_is_table pick n : picker_ok pick -> n < 7 -> gnf_table n (gtb pick).
Proof.
  intros H L. exists pick. split; [exact H|]. unfold gtb, perm_table_create.
  destruct (Nat.leb_spec 7 n); [lia|reflexivity].
Qed.

Lemma gnf_table_ptab n tb : gnf_table n tb -> tb n = Ok (ptab n).
Proof. intros [pick [H ->]]. now apply perm_table_ok. Qed.

(** The guard: from n = 7 on every operation that needs the table raises ValueError. *)
Theorem C44_size_guard pick n : 7 <= n ->
  gtb pick n = Err ValueError /\
  (forall p f, mk (gtb pick) n p f = Err ValueError) /\
  (forall w, from_artin_word (gtb pick) n w = Err ValueError).
Proof.
  intros H. assert (E : gtb pick n = Err ValueError).
  { unfold gtb, perm_table_create. destruct (Nat.leb_spec 7 n); [reflexivity|lia]. }
  split; [exact E|]. split; intros; [unfold mk|unfold from_artin_word]; now rewrite E.
Qed.

Lemma chain_map {A B} (f : A -> B) (R : B -> B -> Prop) l :
  chain R (map f l) <-> chain (fun x y => R (f x) (f y)) l.
Proof. induction l as [|x [|y l] IH]; cbn in *; tauto. Qed.

Section Bridge.
Variable n : nat.
Notation P := (isperm n).
Notation val := (val n).
Notation mkT := (mkT n).

Lemma val_surj xs : Forall P xs -> map val (map mkT xs) = xs.
Proof.
  intros H. rewrite map_map. rewrite <- (map_id xs) at 2. apply map_ext_in. intros x Hx.
  rewrite Forall_forall in H. apply val_mkT. now apply H.
Qed.
Lemma nrm_weighted x y : nrm (PG n) x y <-> weighted n (val x) (val y).
Proof.
  rewrite (nrm_loc n). rewrite weighted_iff by apply val_P. reflexivity.
Qed.
Lemma nf_chain l : nf (PG n) l <-> chain (weighted n) (map val l).
Proof.
  induction l as [|x [|y l] IH]; cbn in *; [tauto|tauto|]. rewrite IH, nrm_weighted. tauto.
Qed.
Lemma proper_iff x : proper (PG n) x <-> proper_perm n (val x).
Proof.
  unfold proper, proper_perm, is_perm_word. cbn. rewrite <- longest_rev. split.
  - intros [A B]. split; [apply val_P|]. split; intros K.
    + apply A. apply val_inj. now rewrite val_one.
    + apply B. apply val_inj. now rewrite val_D.
  - intros [_ [A B]]. split; intros K; [apply A|apply B]; rewrite K; [apply val_one|apply val_D].
Qed.
Lemma lifts_lift x b : lifts n (val x) b -> braid_eq n b (lift (PG n) (pwd n) x).
Proof.
  intros H. eapply lifts_unique; [exact H|]. apply lifts_iff.
  destruct (plift n x) as [u [_ [R E]]]. exists u. rewrite E. auto.
Qed.
Lemma lift_lifts x : lifts n (val x) (lift (PG n) (pwd n) x).
Proof. apply lifts_iff. destruct (plift n x) as [u [_ [R E]]]. exists u. rewrite E. auto. Qed.
Lemma lifts_lifts xs bs : Forall2 (lifts n) (map val xs) bs ->
  braid_eq n (concat bs) (flat_map (lift (PG n) (pwd n)) xs).
Proof.
  revert bs; induction xs as [|x xs IH]; intros bs H; inversion H; subst; [apply be_refl|].
  cbn [concat flat_map]. apply be_app; [now apply lifts_lift|now apply IH].
Qed.
Lemma wpow_mor u v k : braid_eq n u v -> braid_eq n (wpow u k) (wpow v k).
Proof.
  assert (K : forall j u v, braid_eq n u v -> braid_eq n (concat (repeat u j)) (concat (repeat v j))).
  { intros j u0 v0 H; induction j; [apply be_refl|]. cbn. now apply be_app. }
  intros H. unfold wpow. destruct (0 <=? k)%Z; apply K; [exact H|now apply winv_mor].
Qed.
Lemma order_fact : t_order (ptab n) = fact n.
Proof. apply elements_length. Qed.
End Bridge.

(** ** C40 *)
Theorem C40_renorm_order_independent n gens x y pick pick' :
  cox_gens n = Ok gens -> is_perm_word n x -> is_perm_word n y -> picker_ok pick -> picker_ok pick' ->
  exists w z, perm_renorm pick n gens x y = Ok (w, z) /\ perm_renorm pick' n gens x y = Ok (w, z).
Proof.
  intros Eg Hx Hy H1 H2. rewrite cox_gens_ok in Eg. injection Eg as <-.
  eexists _, _. split; apply prn_raw_any; assumption.
Qed.
Theorem C40_table_order_independent n pick pick' : picker_ok pick -> picker_ok pick' ->
  exists t, perm_table pick n = Ok t /\ perm_table pick' n = Ok t.
Proof. intros H1 H2. exists (ptab n). split; now apply perm_table_ok. Qed.

(** ** C41 *)
Theorem C41_renorm_correct n tb x y : gnf_table n tb -> is_perm_word n x -> is_perm_word n y ->
  exists t i j k l w z nb,
    tb n = Ok t /\ index t x = Ok i /\ index t y = Ok j /\
    lookup2 (t_renorm t) i j = Ok (k, l) /\ lookup2 (t_isnorm t) i j = Ok nb /\
    pyget (t_divs t) k = Ok w /\ pyget (t_divs t) l = Ok z /\
    is_perm_word n w /\ is_perm_word n z /\
    weighted n w z /\
    (nb = true <-> weighted n x y) /\
    forall a b c d, lifts n x a -> lifts n y b -> lifts n w c -> lifts n z d -> braid_eq n (c ++ d) (a ++ b).
Proof.
  intros Ht Hx Hy. pose proof (gnf_table_ptab n tb Ht) as Etb.
  set (X := mkT n x). set (Y := mkT n y).
  assert (VX : val n X = x) by now apply val_mkT. assert (VY : val n Y = y) by now apply val_mkT.
  set (W := fst (prn n X Y)). set (Z0 := snd (prn n X Y)).
  exists (ptab n), (gi n x), (gi n y), (gi n (val n W)), (gi n (val n Z0)), (val n W), (val n Z0), (nb n x y).
  split; [exact Etb|]. unfold index. cbn [t_eqb t_divs ptab]. rewrite !gi_ok by assumption.
  split; [reflexivity|]. split; [reflexivity|]. unfold lookup2. cbn [t_renorm t_isnorm ptab].
  rewrite !tab_get by assumption. cbn [bind]. rewrite !tab_get by assumption.
  split; [reflexivity|]. split; [reflexivity|].
  split. { rewrite <- (map_id (elements n)). apply tab_get. apply val_P. }
  split. { rewrite <- (map_id (elements n)). apply tab_get. apply val_P. }
  split; [apply val_P|]. split; [apply val_P|].
  pose proof (prn_ok n X Y) as [C [R1 [E1 [R2 [E2 N]]]]]. fold W in E1, N. fold Z0 in R2, E2, N.
  split; [now apply nrm_weighted|]. split.
  { rewrite <- VX, <- VY. rewrite nb_nrm. apply nrm_weighted. }
  intros a b c d La Lb Lc Ld. rewrite lifts_iff in *.
  destruct La as [ua [Ra ->]], Lb as [ub [Rb ->]], Lc as [uc [Rc ->]], Ld as [ud [Rd ->]].
  destruct (redw_ex n (val n C) (val_P n C)) as [uC RC].
  assert (A1 : redw n (ua ++ uC) (val n W)).
  { rewrite <- E1. cbn. rewrite val_pmul, VX. apply redw_app; [exact Ra|exact RC|]. rewrite <- VX. exact R1. }
  assert (A2 : redw n (uC ++ ud) y).
  { rewrite <- VY, <- E2. cbn. rewrite val_pmul. apply redw_app; [exact RC|exact Rd|exact R2]. }
  eapply be_trans; [apply be_app; [apply (matsumoto n _ _ _ Rc A1)|apply be_refl]|].
  apply be_sym. eapply be_trans; [apply be_app; [apply be_refl|apply (matsumoto n _ _ _ Rb A2)]|].
  unfold pword. rewrite !map_app, app_assoc. apply be_refl.
Qed.

Section Two.
Variable n : nat.
Variable tb : nat -> res (nftable (list nat)).
Hypothesis n2 : 2 <= n.
Hypothesis Ht : gnf_table n tb.
Let Etb := gnf_table_ptab n tb Ht.
Let TK := ptab_ok n n2.

Lemma index_perms xs : Forall (isperm n) xs -> mapM (index (ptab n)) xs = Ok (map (idx n) (map (mkT n) xs)).
Proof.
  intros H. apply (index_map _ _ _ _ _ _ _ _ _ TK). symmetry. now apply val_surj.
Qed.
Lemma divs_perms l : mapM (pyget (t_divs (ptab n))) (map (idx n) l) = Ok (map (val n) l).
Proof.
  apply mapM_Ok_Forall2. induction l; cbn; constructor; [|assumption].
  apply (tk_div _ _ _ _ _ _ _ _ _ TK).
Qed.
Lemma ok_normal d l : ok (PG n) (peqd n) (d, l) <-> normal_seq n (map (val n) l).
Proof.
  rewrite (ok_proper _ _ _ _ _ _ _ _ _ TK). unfold normal_seq. rewrite nf_chain, Forall_map.
  assert (K : Forall (proper (PG n)) l <-> Forall (fun x => proper_perm n (val n x)) l).
  { rewrite !Forall_forall. split; intros H x Hx; apply proper_iff; now apply H. }
  tauto.
Qed.
Lemma idx_surj f : Forall (fun x => 0 <= x < Z.of_nat (fact n))%Z f -> exists l, f = map (idx n) l.
Proof.
  induction 1 as [|x f Hx H IH]; [now exists []|]. destruct IH as [l ->].
  rewrite <- (order_fact n) in Hx. destruct (tk_surj _ _ _ _ _ _ _ _ _ TK x Hx) as [y <-]. now exists (y :: l).
Qed.
Lemma reps_decomp s u : ok (PG n) (peqd n) s -> Forall2 (lifts n) (map (val n) (snd s)) u -> forall d, lifts n (rev (seq 0 n)) d ->
  reps (PG n) (peqd n) n (pwd n) (idx n) (enc (PG n) n (idx n) s) (wpow d (fst s) ++ concat u).
Proof.
  intros Ho Hu d Hd. exists s. split; [exact Ho|]. split; [reflexivity|]. unfold word_of. apply be_app.
  - apply wpow_mor. apply be_sym. apply lifts_lift. cbn. rewrite val_D, longest_rev. exact Hd.
  - apply be_sym. apply lifts_lifts. exact Hu.
Qed.
End Two.

(** ** C42 *)
Theorem C42_normalise_factors n tb t xs us d : 2 <= n -> gnf_table n tb -> tb n = Ok t ->
  Forall (is_perm_word n) xs -> Forall2 (lifts n) xs us -> lifts n (rev (seq 0 n)) d ->
  exists s k f ys b,
    mapM (index t) xs = Ok s /\ normalise_factors t s = Ok (k, f) /\
    mk tb n k f = Ok b /\
    mapM (pyget (t_divs t)) f = Ok ys /\ normal_seq n ys /\
    (forall p, exists b', mk tb n p f = Ok b') /\
    forall vs, Forall2 (lifts n) ys vs -> braid_eq n (wpow d k ++ concat vs) (concat us).
Proof.
  intros n2 Ht Et Hxs Hus Hd. pose proof (gnf_table_ptab n tb Ht) as Etb. rewrite Et in Etb. injection Etb as ->.
  pose proof (ptab_ok n n2) as TK. set (l := map (mkT n) xs).
  set (k := Z.of_nat (lead (PG n) (peqd n) (NF (PG n) (prn n) l))).
  set (ys := trim (PG n) (peqd n) (dropD (PG n) (peqd n) (NF (PG n) (prn n) l))).
  destruct (reps_normalised _ _ _ _ _ _ _ _ _ TK tb Et l 0) as [b [Eb Rb]]. fold k ys in Eb. rewrite Z.add_0_l in Eb.
  assert (OK : ok (PG n) (peqd n) (k, ys)).
  { destruct (mk_inv _ _ _ _ _ _ _ _ _ TK tb Et k (map (idx n) ys) b) as [l' [El [Ol _]]]; [|exact Eb|].
    - rewrite Forall_map. apply Forall_forall. intros x _. apply (tk_bound _ _ _ _ _ _ _ _ _ TK).
    - assert (ys = l') as ->; [|exact Ol]. clear -El TK. revert l' El. generalize ys as m. induction m as [|x m IH]; intros [|y l'] E; try discriminate; [reflexivity|].
      cbn in E. injection E as E1 E2. f_equal; [now apply (tk_inj _ _ _ _ _ _ _ _ _ TK)|now apply IH]. }
  exists (map (idx n) l), k, (map (idx n) ys), (map (val n) ys), b.
  split; [now apply index_perms|]. split; [apply (normalise_factors_ok _ _ _ _ _ _ _ _ _ TK)|].
  split; [exact Eb|]. split; [now apply divs_perms|]. split; [now apply (ok_normal n n2 k)|].
  split. { intros p. eexists. apply (mk_ok _ _ _ _ _ _ _ _ _ TK tb Et). exact OK. }
  intros vs Hvs.
  assert (b = enc (PG n) n (idx n) (k, ys)) as ->.
  { pose proof (mk_ok _ _ _ _ _ _ _ _ _ TK tb Et k ys OK) as E. congruence. }
  pose proof (reps_decomp n (k, ys) vs OK Hvs d Hd) as R2.
  pose proof (proj1 (reps_eq _ _ _ _ _ _ _ _ _ TK _ _ _ _ R2 Rb) eq_refl) as B.
  eapply be_trans; [exact B|]. rewrite wpow_0. cbn [List.app]. apply be_sym. apply lifts_lifts.
  unfold l. rewrite val_surj by exact Hxs. exact Hus.
Qed.

(** ** C43 *)
Theorem C43_product_is_normalise n tb t left right : 2 <= n -> gnf_table n tb -> tb n = Ok t ->
  Forall (fun x => 0 <= x < Z.of_nat (fact n))%Z (left ++ right) ->
  is_factors_normalised t left = Ok true -> is_factors_normalised t right = Ok true ->
  exists k f, product_normalised_factors t left right = Ok (k, f) /\ normalise_factors t (left ++ right) = Ok (k, f).
Proof.
  intros n2 Ht Et Hr HL HR. pose proof (gnf_table_ptab n tb Ht) as Etb. rewrite Et in Etb. injection Etb as ->.
  pose proof (ptab_ok n n2) as TK. apply Forall_app in Hr. destruct Hr as [H1 H2].
  destruct (idx_surj n n2 left H1) as [p ->]. destruct (idx_surj n n2 right H2) as [q ->].
  assert (Op : ok (PG n) (peqd n) (0%Z, p)).
  { destruct (isfn_ok _ _ _ _ _ _ _ _ _ TK 0%Z p) as [b [E B]]. apply B. assert (Ok b = Ok true) as [= ->] by (rewrite <- E; exact HL). reflexivity. }
  assert (Oq : ok (PG n) (peqd n) (0%Z, q)).
  { destruct (isfn_ok _ _ _ _ _ _ _ _ _ TK 0%Z q) as [b [E B]]. apply B. assert (Ok b = Ok true) as [= ->] by (rewrite <- E; exact HR). reflexivity. }
  eexists _, _. split; [apply (product_ok _ _ _ _ _ _ _ _ _ TK p q _ _ Op Oq)|].
  rewrite <- map_app. apply (normalise_factors_ok _ _ _ _ _ _ _ _ _ TK).
Qed.

(** ** C44 *)
Theorem C44_gnf_decides_braid_equality n tb u w : 2 <= n -> gnf_table n tb -> word_ok n u -> word_ok n w ->
  exists a b, from_artin_word tb n u = Ok a /\ from_artin_word tb n w = Ok b /\
    (a = b <-> braid_eq n (expand u) (expand w)).
Proof. intros n2 Ht. apply (api_decides _ _ _ _ _ _ _ _ _ (ptab_ok n n2) tb (gnf_table_ptab n tb Ht)). Qed.

(** ** C45 *)
Theorem C45_gnf_mul n tb a b : 2 <= n -> gnf_table n tb -> nf_value tb n a -> nf_value tb n b ->
  exists c wa wb wc, nf_mul tb a b = Ok c /\ nf_value tb n c /\
    artin_word tb a = Ok wa /\ artin_word tb b = Ok wb /\ artin_word tb c = Ok wc /\
    braid_eq n (expand wc) (expand wa ++ expand wb).
Proof. intros n2 Ht. apply (api_mul_word _ _ _ _ _ _ _ _ _ (ptab_ok n n2) tb (gnf_table_ptab n tb Ht)). Qed.
Theorem C45_gnf_assoc n tb a b c : 2 <= n -> gnf_table n tb -> nf_value tb n a -> nf_value tb n b -> nf_value tb n c ->
  exists ab bc abc, nf_mul tb a b = Ok ab /\ nf_mul tb b c = Ok bc /\
    nf_mul tb ab c = Ok abc /\ nf_mul tb a bc = Ok abc.
Proof. intros n2 Ht. apply (api_assoc _ _ _ _ _ _ _ _ _ (ptab_ok n n2) tb (gnf_table_ptab n tb Ht)). Qed.
Theorem C45_gnf_identity n tb a : 2 <= n -> gnf_table n tb -> nf_value tb n a ->
  exists e, nf_identity tb n = Ok e /\ nf_value tb n e /\ nf_mul tb a e = Ok a /\ nf_mul tb e a = Ok a.
Proof. intros n2 Ht. apply (api_id_neutral _ _ _ _ _ _ _ _ _ (ptab_ok n n2) tb (gnf_table_ptab n tb Ht)). Qed.
Theorem C45_gnf_inverse n tb a : 2 <= n -> gnf_table n tb -> nf_value tb n a ->
  exists i e, nf_inv tb a = Ok i /\ nf_value tb n i /\ nf_identity tb n = Ok e /\
    nf_mul tb a i = Ok e /\ nf_mul tb i a = Ok e.
Proof. intros n2 Ht. apply (api_inverse _ _ _ _ _ _ _ _ _ (ptab_ok n n2) tb (gnf_table_ptab n tb Ht)). Qed.

(** ** C46 *)
Theorem C46_gnf_pow n tb a : 2 <= n -> gnf_table n tb -> nf_value tb n a ->
  exists e, nf_identity tb n = Ok e /\ nf_pow tb a 0 = Ok e /\
  (forall k, exists x, nf_pow tb a k = Ok x /\ nf_value tb n x /\
     exists y, nf_pow tb a (k + 1) = Ok y /\ nf_mul tb x a = Ok y /\ nf_mul tb a x = Ok y) /\
  nf_pow tb a (-1) = nf_inv tb a.
Proof. intros n2 Ht. apply (api_pow_rules _ _ _ _ _ _ _ _ _ (ptab_ok n n2) tb (gnf_table_ptab n tb Ht)). Qed.

(** ** C47 *)
Theorem C47_artin_round_trip n tb b : 2 <= n -> gnf_table n tb -> nf_value tb n b ->
  exists w, artin_word tb b = Ok w /\ from_artin_word tb n w = Ok b.
Proof. intros n2 Ht. apply (api_round_trip _ _ _ _ _ _ _ _ _ (ptab_ok n n2) tb (gnf_table_ptab n tb Ht)). Qed.
Theorem C47_artin_round_trip_word n tb w : 2 <= n -> gnf_table n tb -> word_ok n w ->
  exists b w', from_artin_word tb n w = Ok b /\ nf_value tb n b /\ artin_word tb b = Ok w' /\
    braid_eq n (expand w') (expand w).
Proof. intros n2 Ht. apply (api_round_trip_word _ _ _ _ _ _ _ _ _ (ptab_ok n n2) tb (gnf_table_ptab n tb Ht)). Qed.
(** [magma_artin_word]: sigma_i becomes i+1 and its inverse -(i+1). *)
Theorem C47_magma_word n tb b : 2 <= n -> gnf_table n tb -> nf_value tb n b ->
  exists w m, artin_word tb b = Ok w /\ magma_artin_word tb b = Ok m /\
  Forall2 (fun (l : Z * Z) k => (fst l, snd l) = ((Z.abs k - 1)%Z, Z.sgn k) /\ (1 <= Z.abs k < Z.of_nat n)%Z) w m.
Proof. intros n2 Ht. apply (api_magma _ _ _ _ _ _ _ _ _ (ptab_ok n n2) tb (gnf_table_ptab n tb Ht)). Qed.
