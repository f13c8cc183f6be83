(** PropsGNF2.v – properties C48 to C54. *)
From Verif Require Import Base ModelPerm PermTheory WeakOrder PermWords SpecBraid BraidTheory
  SpecPerm SpecPermTheory Germ GermNF GermAct GermBraid ModelBraid TableTheory PermGerm PermTable NFApi PropsGNF.
From Coq Require Import Permutation FinFun.

Section Two.
Variable n : nat.
Variable tb : nat -> res (nftable (list nat)).
Hypothesis n2 : 2 <= n.
Hypothesis Ht : gnf_table n tb.
Let Etb := gnf_table_ptab n tb Ht.
Let TK := ptab_ok n n2.
Notation G := (PG n).
Notation enc := (enc G n (idx n)).
Notation ok := (ok G (peqd n)).
Notation reps := (reps G (peqd n) n (pwd n) (idx n)).

Lemma rd b w : denotes tb n b w <-> reps b w.
Proof. apply (denotes_iff _ _ _ _ _ _ _ _ _ TK tb Etb). Qed.
Lemma mkE d l : ok (d, l) -> mk tb n d (map (idx n) l) = Ok (enc (d, l)).
Proof. apply (mk_ok _ _ _ _ _ _ _ _ _ TK tb Etb). Qed.
Lemma val_enc b : nf_value tb n b -> exists s, ok s /\ b = enc s.
Proof.
  intros V. destruct (value_reps _ _ _ _ _ _ _ _ _ TK tb Etb b V) as [w [[s [H [E _]]] _]]. eauto.
Qed.
Lemma enc_val s : ok s -> nf_value tb n (enc s).
Proof. intros H. eapply (reps_value _ _ _ _ _ _ _ _ _ TK tb Etb). apply reps_word. exact H. Qed.
Lemma ok_nil d : ok (d, []).
Proof. now repeat split. Qed.
Lemma ok_one d x : proper G x -> ok (d, [x]).
Proof. intros H. apply (ok_proper _ _ _ _ _ _ _ _ _ TK). split; [cbn; tauto|]. now constructor. Qed.

Lemma flat_D_pow d u : lifts n (rev (seq 0 n)) u -> braid_eq n (wpow u d) (wpow (lift G (pwd n) (D G)) d).
Proof. intros H. apply wpow_mor. apply lifts_lift. cbn. rewrite val_D, longest_rev. exact H. Qed.

Theorem positive_lift_ok x : isperm n x ->
  exists b, positive_lift tb n x = Ok b /\ reps b (lift G (pwd n) (mkT n x)).
Proof.
  intros Hx. unfold positive_lift. rewrite (isperm_length n x Hx), Nat.eqb_refl. cbn [negb].
  destruct (is_identity x) eqn:Ei; [|destruct (is_longest_element x) eqn:El].
  - apply (is_identity_spec n x Hx) in Ei. subst x. eexists. split; [apply (mkE 0 []); apply ok_nil|].
    exists (0%Z, []). split; [apply ok_nil|]. split; [reflexivity|]. unfold word_of. cbn.
    apply be_sym. apply (lift_one G n (lift G (pwd n))).
    + intros z. apply (tk_range _ _ _ _ _ _ _ _ _ TK).
    + intros a b. apply (tk_mul _ _ _ _ _ _ _ _ _ TK).
  - apply (is_longest_spec n x Hx) in El. subst x. eexists. split; [apply (mkE 1 []); apply ok_nil|].
    exists (1%Z, []). split; [apply ok_nil|]. split; [reflexivity|]. unfold word_of. cbn [fst snd liftl flat_map].
    rewrite app_nil_r, wpow_1. apply be_refl.
  - assert (Ix : index (ptab n) x = Ok (idx n (mkT n x))).
    { pose proof (tk_index _ _ _ _ _ _ _ _ _ TK (mkT n x)) as K. now rewrite val_mkT in K. }
    rewrite Etb. cbn [bind]. rewrite Ix. cbn [bind].
    assert (Hp : proper G (mkT n x)).
    { apply proper_iff. rewrite val_mkT by exact Hx. split; [exact Hx|]. rewrite <- longest_rev. split; intros K.
      - apply (is_identity_spec n x Hx) in K. congruence.
      - apply (is_longest_spec n x Hx) in K. congruence. }
    eexists. split; [apply (mkE 0 [mkT n x]); now apply ok_one|].
    exists (0%Z, [mkT n x]). split; [now apply ok_one|]. split; [reflexivity|].
    unfold word_of. cbn [fst snd liftl flat_map]. rewrite app_nil_r. apply be_refl.
Qed.

Lemma from_gnf_pair_ok inf xs : Forall (isperm n) xs -> exists b, from_gnf_pair tb n inf xs = Ok b /\
  reps b (wpow (lift G (pwd n) (D G)) inf ++ flat_map (lift G (pwd n)) (map (mkT n) xs)).
Proof.
  intros Hxs. unfold from_gnf_pair. pose proof (mkE inf [] (ok_nil _)) as M1. pose proof (mkE 0 [] (ok_nil _)) as M2. cbn [map] in M1, M2.
  rewrite M1, M2. cbn [bind].
  assert (K : forall acc u, reps acc u -> exists b,
    foldM (fun acc w => x <- positive_lift tb n w ;; nf_mul tb acc x) xs acc = Ok b /\
    reps b (u ++ flat_map (lift G (pwd n)) (map (mkT n) xs))).
  { induction Hxs as [|x xs Hx Hxs IH]; intros acc u R; cbn [foldM map flat_map].
    - exists acc. rewrite app_nil_r. auto.
    - destruct (positive_lift_ok x Hx) as [p [Ep Rp]]. rewrite Ep. cbn [bind].
      destruct (reps_mul _ _ _ _ _ _ _ _ _ TK tb Etb _ _ _ _ R Rp) as [c [Ec Rc]]. rewrite Ec. cbn [bind].
      destruct (IH c _ Rc) as [b [Eb Rb]]. exists b. split; [exact Eb|]. now rewrite app_assoc. }
  destruct (K (enc (0%Z, [])) []) as [p [Ep Rp]].
  { exists (0%Z, []). split; [apply ok_nil|]. split; [reflexivity|]. apply be_refl. }
  rewrite Ep. cbn [bind].
  assert (Rd : reps (enc (inf, [])) (wpow (lift G (pwd n) (D G)) inf)).
  { exists (inf, []). split; [apply ok_nil|]. split; [reflexivity|]. unfold word_of. cbn [fst snd liftl flat_map].
    rewrite app_nil_r. apply be_refl. }
  destruct (reps_mul _ _ _ _ _ _ _ _ _ TK tb Etb _ _ _ _ Rd Rp) as [c [Ec Rc]]. exists c. auto.
Qed.

Lemma mk_perms p xs : normal_seq n xs -> mapM (index (ptab n)) xs = Ok (map (idx n) (map (mkT n) xs)) /\ ok (p, map (mkT n) xs).
Proof.
  intros H. assert (F : Forall (isperm n) xs).
  { destruct H as [H _]. eapply Forall_impl; [|exact H]. now intros x [A _]. }
  split; [now apply index_perms|]. apply ok_normal; [exact n2|]. now rewrite val_surj.
Qed.

Lemma index_vals (l : list (PT n)) : mapM (index (ptab n)) (map (val n) l) = Ok (map (idx n) l).
Proof.
  rewrite index_perms by (auto; rewrite Forall_map; apply Forall_forall; intros; apply val_P).
  f_equal. f_equal. rewrite map_map. transitivity (map (fun x => x) l); [apply map_ext; apply mkT_val|apply map_id].
Qed.

(** the sequences counted by [normal_forms], in terms of permutations *)
Lemma idx_perms_iff (Q : list (list nat) -> Prop) f : (forall xs, Q xs -> Forall (isperm n) xs) ->
  ((exists l, f = map (idx n) l /\ Q (map (val n) l)) <-> (exists xs, mapM (index (ptab n)) xs = Ok f /\ Q xs)).
Proof.
  intros HQ. split.
  - intros [l [-> H]]. exists (map (val n) l). split; [|exact H].
    rewrite index_perms by (auto using HQ). f_equal. f_equal. rewrite map_map.
    rewrite <- (map_id l) at 2. apply map_ext. apply mkT_val.
  - intros [xs [E H]]. rewrite index_perms in E by auto. injection E as <-. exists (map (mkT n) xs).
    split; [reflexivity|]. rewrite val_surj; auto.
Qed.

Lemma perm_proper xs : Forall (proper_perm n) xs -> Forall (isperm n) xs.
Proof. intros H. eapply Forall_impl; [|exact H]. now intros x [A _]. Qed.

Lemma liftl_taupow k l : braid_eq n (flat_map (lift G (pwd n)) l ++ wpow (lift G (pwd n) (D G)) k)
  (wpow (lift G (pwd n) (D G)) k ++ flat_map (lift G (pwd n)) (map (taupow G k) l)).
Proof.
  induction l as [|x l IH]; cbn [map flat_map].
  - rewrite app_nil_r. apply be_refl.
  - rewrite <- app_assoc. eapply be_trans; [apply be_app; [apply be_refl|exact IH]|].
    rewrite !app_assoc. apply be_app; [|apply be_refl].
    apply (lift_taupow G n (lift G (pwd n))); intros; [apply (tk_range _ _ _ _ _ _ _ _ _ TK)|now apply (tk_mul _ _ _ _ _ _ _ _ _ TK)].
Qed.
Lemma taupow_even k l : Z.Even k -> map (taupow G k) l = l.
Proof.
  intros [j ->]. rewrite <- (map_id l) at 2. apply map_ext. intros x.
  rewrite taupow_mod2 by exact n2. rewrite Z.mul_comm, Z_mod_mult. reflexivity.
Qed.
Lemma mul_even s t : Z.Even (fst t) -> ok s -> ok t -> ok (0%Z, snd s ++ snd t) ->
  nf_mul tb (enc s) (enc t) = Ok (enc ((fst s + fst t)%Z, snd s ++ snd t)).
Proof.
  intros Ev Hs Htt Ho.
  destruct (reps_mul _ _ _ _ _ _ _ _ _ TK tb Etb _ _ _ _ (reps_word G (peqd n) n (pwd n) (idx n) s Hs) (reps_word G (peqd n) n (pwd n) (idx n) t Htt)) as [c [Ec Rc]].
  rewrite Ec. f_equal. apply (reps_eq _ _ _ _ _ _ _ _ _ TK _ _ _ _ Rc (reps_word G (peqd n) n (pwd n) (idx n) ((fst s + fst t)%Z, snd s ++ snd t) Ho)).
  unfold word_of. cbn [fst snd]. unfold liftl. rewrite flat_map_app.
  rewrite <- app_assoc. eapply be_trans.
  { apply be_app; [apply be_refl|]. rewrite app_assoc. apply be_app; [apply liftl_taupow|apply be_refl]. }
  rewrite taupow_even by exact Ev. rewrite !app_assoc. apply be_app; [|apply be_refl]. apply be_app; [|apply be_refl].
  apply be_sym. apply wpow_add. apply (tk_range _ _ _ _ _ _ _ _ _ TK).
Qed.

Lemma last_factor_ok d l : last_factor (enc (d, l)) = None /\ l = [] \/
  exists p s, l = p ++ [s] /\ last_factor (enc (d, l)) = Some (idx n s).
Proof.
  destruct l as [|x l]; [now left|]. right.
  destruct (exists_last (l := x :: l) ltac:(discriminate)) as [p [s E]]. exists p, s. split; [exact E|].
  rewrite E. unfold last_factor, TableTheory.enc. cbn [o_factors snd]. rewrite map_app. cbn [map].
  assert (K : forall (q : list Z) z, match q ++ [z] with [] => None | x :: _ => Some (last (q ++ [z]) x) end = Some z).
  { intros q z. destruct q as [|y q]; [reflexivity|]. cbn [List.app]. f_equal.
    change (y :: q ++ [z]) with ((y :: q) ++ [z]). apply last_last. }
  apply K.
Qed.

Lemma suffixes_ok d l k : (0 <= k)%Z -> ok (d, l) ->
  exists ls, normal_forms (ptab n) k (last_factor (enc (d, l))) = Ok (map (map (idx n)) ls) /\ NoDup ls /\
    forall m, In m ls <-> (length m = Z.to_nat k /\ ok (0%Z, m) /\ ok (0%Z, l ++ m)).
Proof.
  intros Hk Ho. destruct (last_factor_ok d l) as [[-> ->]|[p [s [-> ->]]]].
  - destruct (normal_forms_none _ _ _ _ _ _ _ _ _ TK k Hk) as [ls [E [ND H]]]. exists ls. split; [exact E|].
    split; [exact ND|]. intros m. rewrite H. cbn [List.app]. tauto.
  - destruct (normal_forms_some _ _ _ _ _ _ _ _ _ TK s k Hk) as [ls [E [ND H]]]. exists ls. split; [exact E|].
    split; [exact ND|]. intros m. rewrite H. rewrite !(ok_proper _ _ _ _ _ _ _ _ _ TK) in *.
    rewrite <- app_assoc. cbn [List.app]. rewrite (nf_glue G p s m). rewrite !Forall_app in *.
    destruct Ho as [O1 [O2 O3]].
    assert (nf G (s :: m) -> nf G m) by (destruct m; cbn; tauto).
    inversion O3; subst. cbn [map]. split.
    + intros [A [B C]]. split; [exact A|]. split; [split; [now auto|exact C]|]. split; [split; [exact O1|exact B]|].
      split; [exact O2|]. now constructor.
    + intros [A [[B1 B2] [[C1 C2] C3]]]. split; [exact A|]. split; [exact C2|exact B2].
Qed.
End Two.

(** ** C48 *)
Theorem C48_positive_lift n tb x u : 2 <= n -> gnf_table n tb -> is_perm_word n x -> lifts n x u ->
  exists b, positive_lift tb n x = Ok b /\ denotes tb n b u.
Proof.
  intros n2 Ht Hx Hu. destruct (positive_lift_ok n tb n2 Ht x Hx) as [b [E R]]. exists b. split; [exact E|].
  apply (rd n tb n2 Ht). eapply reps_mor; [|exact R]. apply be_sym. apply lifts_lift. now rewrite val_mkT.
Qed.
Theorem C48_from_gnf_pair n tb inf xs us d : 2 <= n -> gnf_table n tb -> Forall (is_perm_word n) xs ->
  Forall2 (lifts n) xs us -> lifts n (rev (seq 0 n)) d ->
  exists b, from_gnf_pair tb n inf xs = Ok b /\ denotes tb n b (wpow d inf ++ concat us).
Proof.
  intros n2 Ht Hx Hu Hd. destruct (from_gnf_pair_ok n tb n2 Ht inf xs Hx) as [b [E R]]. exists b. split; [exact E|].
  apply (rd n tb n2 Ht). eapply reps_mor; [|exact R]. apply be_sym. apply be_app.
  - now apply flat_D_pow.
  - apply lifts_lifts. now rewrite val_surj.
Qed.
Theorem C48_from_gnf_pair_inverts n tb b : 2 <= n -> gnf_table n tb -> nf_value tb n b ->
  exists xs, canonical_decomposition tb b = Ok (inf b, xs) /\ normal_seq n xs /\
    from_gnf_pair tb n (inf b) xs = Ok b.
Proof.
  intros n2 Ht V. destruct (val_enc n tb n2 Ht b V) as [[d l] [Ho ->]].
  pose proof (gnf_table_ptab n tb Ht) as Etb. pose proof (ptab_ok n n2) as TK.
  exists (map (val n) l). split; [|split].
  - unfold canonical_decomposition, canonical_factors. cbn [o_n TableTheory.enc]. rewrite Etb. cbn [bind o_factors snd].
    change (bind (bind (Ok (ptab n)) (fun t => mapM (pyget (t_divs t)) (map (idx n) l))) (fun fs => Ok (d, fs)) = Ok (d, map (val n) l)).
    cbn [bind]. rewrite divs_perms by exact n2. reflexivity.
  - now apply (ok_normal n n2 d).
  - cbn [inf o_pow TableTheory.enc fst].
    assert (F : Forall (isperm n) (map (val n) l)) by (rewrite Forall_map; apply Forall_forall; intros; apply val_P).
    destruct (from_gnf_pair_ok n tb n2 Ht d (map (val n) l) F) as [b [E R]]. rewrite E. f_equal.
    apply (reps_eq _ _ _ _ _ _ _ _ _ TK _ _ _ _ R (reps_word (PG n) (peqd n) n (pwd n) (idx n) (d, l) Ho)).
    unfold word_of. cbn [fst snd]. rewrite map_map. erewrite map_ext; [rewrite map_id; apply be_refl|].
    intros x. apply mkT_val.
Qed.
Theorem C48_from_perm_seq n tb xs us : 2 <= n -> gnf_table n tb -> Forall (is_perm_word n) xs ->
  Forall2 (lifts n) xs us -> exists b, gnf_from_perm_seq tb n xs = Ok b /\ denotes tb n b (concat us).
Proof.
  intros n2 Ht Hx Hu. pose proof (gnf_table_ptab n tb Ht) as Etb. pose proof (ptab_ok n n2) as TK.
  destruct (reps_from_div_seq _ _ _ _ _ _ _ _ _ TK tb Etb (@length nat) (map (mkT n) xs)) as [b [E R]].
  { intros x. apply isperm_length. apply val_P. }
  change (T (PG n)) with (PT n) in E. rewrite val_surj in E by exact Hx. exists b. split; [exact E|].
  apply (rd n tb n2 Ht). eapply reps_mor; [|exact R]. apply be_sym. apply lifts_lifts. now rewrite val_surj.
Qed.
Theorem C48_positive_lift_wrong_size n tb x : length x <> n -> positive_lift tb n x = Err ValueError.
Proof. intros H. unfold positive_lift. apply Nat.eqb_neq in H. now rewrite H. Qed.

(** ** C49 *)
Theorem C49_normal_forms n tb t k : 2 <= n -> gnf_table n tb -> tb n = Ok t -> (0 <= k)%Z ->
  exists fs, normal_forms t k None = Ok fs /\ NoDup fs /\
    (forall f, In f fs <-> exists xs, mapM (index t) xs = Ok f /\ length xs = Z.to_nat k /\ normal_seq n xs) /\
    count_normal_forms t k None = Ok (Z.of_nat (length fs)).
Proof.
  intros n2 Ht Et Hk. pose proof (gnf_table_ptab n tb Ht) as Etb. rewrite Et in Etb. injection Etb as ->.
  pose proof (ptab_ok n n2) as TK.
  destruct (normal_forms_none _ _ _ _ _ _ _ _ _ TK k Hk) as [ls [E [ND H]]].
  exists (map (map (idx n)) ls). split; [exact E|]. split.
  { apply Injective_map_NoDup; [|exact ND]. intros a b. revert b. induction a as [|x a IH]; intros [|y b] K; try discriminate; [reflexivity|].
    injection K as K1 K2. f_equal; [now apply (tk_inj _ _ _ _ _ _ _ _ _ TK)|now apply IH]. }
  split.
  - intros f. rewrite in_map_iff.
    rewrite <- (idx_perms_iff n n2 (fun xs => length xs = Z.to_nat k /\ normal_seq n xs)).
    2:{ intros xs [_ [K _]]. now apply perm_proper. }
    split.
    + intros [l [<- Hl]]. apply H in Hl. destruct Hl as [L O]. exists l. split; [reflexivity|].
      rewrite map_length. split; [exact L|]. now apply (ok_normal n n2 0).
    + intros [l [-> [L O]]]. exists l. split; [reflexivity|]. apply H. rewrite map_length in L. split; [exact L|].
      now apply (ok_normal n n2 0).
  - apply (count_ok _ _ _ _ _ _ _ _ _ TK None I k); [exact Hk|exact E].
Qed.
Theorem C49_normal_forms_following n tb t k x i : 2 <= n -> gnf_table n tb -> tb n = Ok t -> (0 <= k)%Z ->
  is_perm_word n x -> index t x = Ok i ->
  exists fs, normal_forms t k (Some i) = Ok fs /\ NoDup fs /\
    (forall f, In f fs <-> exists xs, mapM (index t) xs = Ok f /\ length xs = Z.to_nat k /\
       Forall (proper_perm n) xs /\ chain (weighted n) (x :: xs)) /\
    count_normal_forms t k (Some i) = Ok (Z.of_nat (length fs)).
Proof.
  intros n2 Ht Et Hk Hx Ei. pose proof (gnf_table_ptab n tb Ht) as Etb. rewrite Et in Etb. injection Etb as ->.
  pose proof (ptab_ok n n2) as TK.
  assert (i = idx n (mkT n x)) as ->.
  { unfold index in Ei. cbn [t_eqb t_divs ptab] in Ei. rewrite gi_ok in Ei by exact Hx. unfold idx. rewrite val_mkT by exact Hx. congruence. }
  destruct (normal_forms_some _ _ _ _ _ _ _ _ _ TK (mkT n x) k Hk) as [ls [E [ND H]]].
  exists (map (map (idx n)) ls). split; [exact E|]. split.
  { apply Injective_map_NoDup; [|exact ND]. intros a b. revert b. induction a as [|y a IH]; intros [|z b] K; try discriminate; [reflexivity|].
    injection K as K1 K2. f_equal; [now apply (tk_inj _ _ _ _ _ _ _ _ _ TK)|now apply IH]. }
  split.
  - intros f. rewrite in_map_iff.
    rewrite <- (idx_perms_iff n n2 (fun xs => length xs = Z.to_nat k /\ Forall (proper_perm n) xs /\ chain (weighted n) (x :: xs))).
    2:{ intros xs [_ [K _]]. now apply perm_proper. }
    assert (K : forall l, nf (PG n) (mkT n x :: l) /\ Forall (proper (PG n)) l <-> Forall (proper_perm n) (map (val n) l) /\ chain (weighted n) (x :: map (val n) l)).
    { intros l. rewrite nf_chain, Forall_map. cbn [map]. rewrite val_mkT by exact Hx.
      assert (K : Forall (proper (PG n)) l <-> Forall (fun x => proper_perm n (val n x)) l).
      { rewrite !Forall_forall. split; intros KK y Hy; apply proper_iff; now apply KK. }
      tauto. }
    split.
    + intros [l [<- Hl]]. apply H in Hl. destruct Hl as [L O]. exists l. split; [reflexivity|].
      rewrite map_length. split; [exact L|]. now apply K.
    + intros [l [-> [L O]]]. exists l. split; [reflexivity|]. apply H. rewrite map_length in L. split; [exact L|].
      now apply K.
  - apply (count_ok _ _ _ _ _ _ _ _ _ TK (Some (idx n (mkT n x)))); [|exact Hk|exact E]. now exists (mkT n x).
Qed.
(** sampling: any draws give a normal form, every normal form can be drawn, and
    for n >= 3 no draw fails. *)
Theorem C49_sample n tb t len : 2 <= n -> gnf_table n tb -> tb n = Ok t ->
  (forall draw f, sample t draw len = Ok f ->
     exists xs, mapM (index t) xs = Ok f /\ length xs = len /\ normal_seq n xs) /\
  (forall xs, length xs = len -> normal_seq n xs -> exists draw f, mapM (index t) xs = Ok f /\ sample t draw len = Ok f) /\
  (3 <= n -> forall draw, exists f, sample t draw len = Ok f).
Proof.
  intros n2 Ht Et. pose proof (gnf_table_ptab n tb Ht) as Etb. rewrite Et in Etb. injection Etb as ->.
  pose proof (ptab_ok n n2) as TK.
  assert (K : forall l, nf (PG n) (pD n :: l) /\ Forall (proper (PG n)) l <-> normal_seq n (map (val n) l)).
  { intros l. pose proof (nf_D_l _ _ _ _ _ _ _ _ _ TK l) as K1. pose proof (ok_proper _ _ _ _ _ _ _ _ _ TK 0%Z l) as K2.
    pose proof (ok_normal n n2 0%Z l) as K3. cbn [D PG] in K1. tauto. }
  unfold sample. cbn [t_D ptab]. rewrite <- (val_D n). fold (idx n (pD n)).
  split; [|split].
  - intros draw f Hf. destruct (sample_loop_sound _ _ _ _ _ _ _ _ _ TK draw len 0 (pD n) f Hf) as [l [-> [L [N Pr]]]].
    exists (map (val n) l). rewrite map_length. split; [|split; [exact L|]].
    + exact (index_vals n n2 l).
    + apply K. auto.
  - intros xs L N. pose proof (perm_proper n xs (proj1 N)) as Pp. rewrite <- (val_surj n xs Pp) in N. apply K in N. destruct N as [N1 N2].
    destruct (sample_loop_complete _ _ _ _ _ _ _ _ _ TK (map (mkT n) xs) 0 (pD n) N1 N2) as [draw E].
    exists draw. eexists. split; [now apply index_perms|]. rewrite map_length, L in E. exact E.
  - intros n3 draw. apply (sample_loop_total _ _ _ _ _ _ _ _ _ TK (follow_total n n2 n3) draw len 0 (pD n)).
    now apply pD_ne_one.
Qed.
(** n = 2 has no proper divisors: a positive length cannot be sampled. *)
Theorem C49_sample_two t draw len : gtb hdpick 2 = Ok t -> sample t draw (S len) = Err IndexError.
Proof.
  intros E. vm_compute in E. injection E as <-. unfold sample. cbn [sample_loop t_D t_follows].
  change (pyget [[]; []] 1) with (@Ok (list Z) []). cbn [bind]. unfold choice. rewrite get_err by (cbn; lia). reflexivity.
Qed.
(** a negative length: normal_forms refuses, count_normal_forms answers as if it were 1. *)
Theorem C49_negative_length {A} (t : nftable A) k f : (k < 0)%Z ->
  normal_forms t k f = Err AssertionError /\ count_normal_forms t k f = count_normal_forms t 1 f.
Proof.
  intros H. split.
  - unfold normal_forms. destruct (Z.leb_spec 0 k); [lia|]. reflexivity.
  - unfold count_normal_forms. destruct (Z.eqb_spec k 0); [lia|].
    replace (Z.to_nat (k - 1)) with 0 by lia. reflexivity.
Qed.

(** ** C50: holds whenever the power of b is even ... *)
Theorem C50_nf_suffixes_partial n tb b k : 2 <= n -> gnf_table n tb -> nf_value tb n b -> (0 <= k)%Z ->
  exists xs, nf_suffixes tb b k = Ok xs /\ NoDup xs /\
    forall x, In x xs -> nf_value tb n x /\ length (o_factors x) = Z.to_nat k /\
      (Z.Even (o_pow b) -> exists c, nf_mul tb b x = Ok c /\ o_factors c = o_factors b ++ o_factors x /\
         o_pow c = (o_pow b + o_pow b)%Z).
Proof.
  intros n2 Ht V Hk. destruct (val_enc n tb n2 Ht b V) as [[d l] [Ho ->]].
  pose proof (gnf_table_ptab n tb Ht) as Etb. pose proof (ptab_ok n n2) as TK.
  unfold nf_suffixes. cbn [o_n TableTheory.enc]. rewrite Etb. cbn [bind].
  destruct (suffixes_ok n n2 d l k Hk Ho) as [ls [E [ND H]]].
  unfold TableTheory.enc in E at 1. cbn [fst snd] in *. unfold TableTheory.enc. cbn [fst snd o_pow]. rewrite E. cbn [bind].
  exists (map (fun m => TableTheory.enc (PG n) n (idx n) (d, m)) ls). split; [|split].
  - rewrite (mapM_ok _ (fun f => NFObj n d f)); [now rewrite map_map|].
    intros f Hf. apply in_map_iff in Hf. destruct Hf as [m [<- Hm]]. apply H in Hm. destruct Hm as [_ [Om _]].
    apply (mkE n tb n2 Ht d m). exact Om.
  - apply Injective_map_NoDup; [|exact ND]. intros a b K. apply (enc_inj _ _ _ _ _ _ _ _ _ TK) in K. congruence.
  - intros x Hx. apply in_map_iff in Hx. destruct Hx as [m [<- Hm]]. apply H in Hm. destruct Hm as [L [Om Olm]].
    split; [now apply enc_val|]. cbn [o_factors TableTheory.enc snd]. split; [now rewrite map_length|].
    intros Ev. eexists. split; [apply (mul_even n tb n2 Ht (d, l) (d, m)); auto|].
    cbn [fst snd TableTheory.enc o_factors o_pow]. now rewrite map_app.
Qed.
(** ... and fails for odd powers: b = Delta s_0 in B_3 has the suffix
    x = Delta s_0, and b*x = Delta^2 (s_1 s_0) has length 1, not 2. *)
Theorem C50_nf_suffixes_refuted : exists b xs x c, nf_value (gtb hdpick) 3 b /\
  nf_suffixes (gtb hdpick) b 1 = Ok xs /\ In x xs /\ nf_mul (gtb hdpick) b x = Ok c /\
  length (o_factors c) <> length (o_factors b) + 1.
Proof.
  exists (NFObj 3 1 [2%Z]). eexists _, (NFObj 3 1 [2%Z]), _.
  split.
  { eexists _, 1%Z, [2%Z]. split; [vm_compute; reflexivity|]. split; [repeat constructor; cbn; lia|].
    vm_compute. reflexivity. }
  split; [vm_compute; reflexivity|]. split; [cbn; auto|]. split; [vm_compute; reflexivity|]. cbn. lia.
Qed.

(** ** C51: all_of_length is right; all_of_garside_length ignores its power. *)
Theorem C51_all_of_length_partial n tb len power : 2 <= n -> gnf_table n tb -> (0 <= len)%Z ->
  exists bs, all_of_length tb n len power = Ok bs /\ NoDup bs /\
    (forall b, In b bs <-> nf_value tb n b /\ o_pow b = power /\ length (o_factors b) = Z.to_nat len) /\
    all_of_garside_length tb n len 0 = all_of_length tb n len 0 /\
    count_all_of_garside_length tb n len = Ok (Z.of_nat (length bs)).
Proof.
  intros n2 Ht Hk. pose proof (gnf_table_ptab n tb Ht) as Etb. pose proof (ptab_ok n n2) as TK.
  destruct (normal_forms_none _ _ _ _ _ _ _ _ _ TK len Hk) as [ls [E [ND H]]].
  exists (map (fun m => TableTheory.enc (PG n) n (idx n) (power, m)) ls).
  unfold all_of_length. rewrite Etb. cbn [bind]. rewrite E. cbn [bind]. split; [|split; [|split; [|split]]].
  - rewrite (mapM_ok _ (fun f => NFObj n power f)); [now rewrite map_map|].
    intros f Hf. apply in_map_iff in Hf. destruct Hf as [m [<- Hm]]. apply H in Hm. destruct Hm as [_ Om].
    apply (mkE n tb n2 Ht power m). exact Om.
  - apply Injective_map_NoDup; [|exact ND]. intros a b K. apply (enc_inj _ _ _ _ _ _ _ _ _ TK) in K. congruence.
  - intros b. rewrite in_map_iff. split.
    + intros [m [<- Hm]]. apply H in Hm. destruct Hm as [L Om]. split; [now apply enc_val|]. cbn. now rewrite map_length.
    + intros [V [Ep L]]. destruct (val_enc n tb n2 Ht b V) as [[d l] [Ho ->]]. cbn in Ep, L. subst d. rewrite map_length in L.
      exists l. split; [reflexivity|]. apply H. split; [exact L|exact Ho].
  - unfold all_of_garside_length, all_of_length. rewrite Etb. cbn [bind]. rewrite E. reflexivity.
  - unfold count_all_of_garside_length, count_all_of_length. rewrite Etb. cbn [bind]. rewrite map_length.
    pose proof (count_ok _ _ _ _ _ _ _ _ _ TK None I len _ Hk E) as C. rewrite map_length in C. exact C.
Qed.
Theorem C51_power_ignored n tb len p q : all_of_garside_length tb n len p = all_of_garside_length tb n len q.
Proof. reflexivity. Qed.
Theorem C51_power_refuted : exists bs b, all_of_garside_length (gtb hdpick) 3 1 5 = Ok bs /\ In b bs /\ o_pow b <> 5%Z.
Proof. eexists _, (NFObj 3 0 [1%Z]). split; [vm_compute; reflexivity|]. split; [now left|]. cbn. lia. Qed.

(** ** C52: on factors that are table indices the constructor is exact ... *)
Theorem C52_constructor_partial n tb p f : 2 <= n -> gnf_table n tb ->
  Forall (fun x => 0 <= x < Z.of_nat (fact n))%Z f ->
  (exists xs t, tb n = Ok t /\ mapM (index t) xs = Ok f /\ normal_seq n xs /\ mk tb n p f = Ok (NFObj n p f)) \/
  (~ (exists xs t, tb n = Ok t /\ mapM (index t) xs = Ok f /\ normal_seq n xs) /\ mk tb n p f = Err AssertionError).
Proof.
  intros n2 Ht Hf. pose proof (gnf_table_ptab n tb Ht) as Etb. pose proof (ptab_ok n n2) as TK.
  destruct (idx_surj n n2 f Hf) as [l ->].
  destruct (isfn_ok _ _ _ _ _ _ _ _ _ TK p l) as [b [E B]].
  assert (M : mk tb n p (map (idx n) l) = if b then Ok (NFObj n p (map (idx n) l)) else Err AssertionError).
  { unfold mk. rewrite Etb. cbn [bind].
    assert (E' : is_factors_normalised (ptab n) (map (idx n) l) = Ok b) by exact E.
    rewrite E'. cbn [bind]. now destruct b. }
  destruct b.
  - left. exists (map (val n) l), (ptab n). split; [exact Etb|]. split; [|split; [|exact M]].
    + exact (index_vals n n2 l).
    + apply (ok_normal n n2 p). now apply B.
  - right. split; [|exact M]. intros [xs [t [Et [Ex Nx]]]]. rewrite Etb in Et. injection Et as <-.
    destruct (mk_perms n n2 p xs Nx) as [E1 O1]. rewrite Ex in E1. injection E1 as E1.
    assert (l = map (mkT n) xs) as ->.
    { clear -E1 TK. revert E1. generalize (map (mkT n) xs) as m. revert l. induction l as [|x l IH]; intros [|y m] K; try discriminate; [reflexivity|].
      injection K as K1 K2. f_equal; [now apply (tk_inj _ _ _ _ _ _ _ _ _ TK)|now apply IH]. }
    apply B in O1. discriminate.
Qed.
(** ... but a single factor is never looked up: any integer other than the
    indices of id and Delta is accepted. *)
Theorem C52_constructor_single {A} n (tb : nat -> res (nftable A)) t p x : tb n = Ok t ->
  (exists b, mk tb n p [x] = Ok b) <-> x <> t_D t /\ x <> t_id t.
Proof.
  intros E. unfold mk, is_factors_normalised. rewrite E. cbn [bind pairs_normalised negb last].
  split.
  - intros [b H]. destruct (Z.eqb_spec x (t_D t)), (Z.eqb_spec x (t_id t)); cbn in H; try discriminate. auto.
  - intros [H1 H2]. apply Z.eqb_neq in H1, H2. rewrite H1, H2. cbn. eauto.
Qed.
Theorem C52_constructor_refuted : exists b c, mk (gtb hdpick) 4 0 [24%Z] = Ok b /\ mk (gtb hdpick) 4 0 [(-7)%Z] = Ok c /\
  ~ nf_value (gtb hdpick) 4 b /\ ~ nf_value (gtb hdpick) 4 c /\
  canonical_factors (gtb hdpick) b = Err IndexError.
Proof.
  assert (Ht : gnf_table 4 (gtb hdpick)) by (apply gtb_is_table; [apply hdpick_ok|lia]).
  exists (NFObj 4 0 [24%Z]), (NFObj 4 0 [(-7)%Z]). 
  split; [vm_compute; reflexivity|]. split; [vm_compute; reflexivity|].
  assert (K : forall x, ~ (0 <= x < 24)%Z -> ~ nf_value (gtb hdpick) 4 (NFObj 4 0 [x])).
  { intros x Hx V. destruct (val_enc 4 (gtb hdpick) ltac:(lia) Ht _ V) as [[d [|y [|z l]]] [Ho E]]; try discriminate.
    injection E as _ E. subst x. apply Hx.
    pose proof (tk_bound _ _ _ _ _ _ _ _ _ (ptab_ok 4 ltac:(lia)) y) as B. rewrite order_fact in B. exact B. }
  split; [apply K; lia|]. split; [apply K; lia|]. vm_compute. reflexivity.
Qed.

(** ** C53 *)
Lemma gen_proper n i : 3 <= n -> i + 1 < n -> proper (PG n) (atom n i).
Proof.
  intros n3 Hi. split; intros K.
  - apply (f_equal (val n)) in K. cbn in K. rewrite val_atom, val_one in K by exact Hi.
    apply (f_equal (fun w => ap w i)) in K. rewrite app_sg_i, app_id in K by lia. lia.
  - apply (f_equal (val n)) in K. cbn in K. rewrite val_atom, val_D in K by exact Hi.
    pose proof (f_equal (fun w => ap w 0) K) as K0. cbn in K0. pose proof (f_equal (fun w => ap w 2) K) as K2. cbn in K2.
    unfold sg in *. rewrite app_longest, app_ptrans in * by lia.
    repeat match goal with H : context[?a =? ?b] |- _ => destruct (Nat.eqb_spec a b) end; lia.
Qed.
Theorem C53_gens_partial n tb : 3 <= n -> gnf_table n tb ->
  exists gs is, bg_gens tb n = Ok gs /\ bg_invs tb n = Ok is /\ nf_artin_gens tb n = Ok gs /\
    length gs = n - 1 /\ length is = n - 1 /\
    forall i, i + 1 < n -> exists g h, nth_error gs i = Some g /\ nth_error is i = Some h /\
      denotes tb n g [(i, true)] /\ denotes tb n h [(i, false)].
Proof.
  intros n3 Ht. assert (n2 : 2 <= n) by lia. pose proof (gnf_table_ptab n tb Ht) as Etb. pose proof (ptab_ok n n2) as TK.
  set (gen := fun i => TableTheory.enc (PG n) n (idx n) (0%Z, [atom n i])).
  assert (G1 : bg_gens tb n = Ok (map gen (seq 0 (n - 1)))).
  { unfold bg_gens. rewrite Etb. cbn [bind]. apply mapM_ok. intros i Hi. apply in_seq in Hi.
    pose proof (tk_gens _ _ _ _ _ _ _ _ _ TK i ltac:(lia)) as E. rewrite pyget_nat in E. rewrite E. cbn [bind].
    apply (mkE n tb n2 Ht 0 [atom n i]). apply (ok_one n n2). apply gen_proper; lia. }
  assert (RG : forall i, i + 1 < n -> reps (PG n) (peqd n) n (pwd n) (idx n) (gen i) [(i, true)]).
  { intros i Hi. exists (0%Z, [atom n i]). split; [apply (ok_one n n2); now apply gen_proper|]. split; [reflexivity|].
    unfold word_of. cbn [fst snd liftl flat_map]. rewrite app_nil_r, wpow_0. now apply (tk_atom _ _ _ _ _ _ _ _ _ TK). }
  set (inv := fun i => TableTheory.enc (PG n) n (idx n) (nfw (PG n) (prn n) (peqd n) (atom n) [(i, false)])).
  assert (G2 : bg_invs tb n = Ok (map inv (seq 0 (n - 1)))).
  { unfold bg_invs. rewrite G1. cbn [bind].
    rewrite (mapM_ok _ (fun g => match nf_inv tb g with Ok h => h | Err _ => g end)).
    - rewrite map_map. f_equal. apply map_ext_in. intros i Hi. apply in_seq in Hi.
      destruct (reps_inv _ _ _ _ _ _ _ _ _ TK tb Etb _ _ (RG i ltac:(lia))) as [h [Eh Rh]]. rewrite Eh.
      apply (reps_nfw_eq _ _ _ _ _ _ _ _ _ TK _ _ Rh).
    - intros g Hg. apply in_map_iff in Hg. destruct Hg as [i [<- Hi]]. apply in_seq in Hi.
      destruct (reps_inv _ _ _ _ _ _ _ _ _ TK tb Etb _ _ (RG i ltac:(lia))) as [h [Eh Rh]]. now rewrite Eh. }
  assert (G3 : nf_artin_gens tb n = Ok (map gen (seq 0 (n - 1)))).
  { unfold nf_artin_gens. rewrite Etb. cbn [bind]. cbn [t_gens ptab].
    erewrite mapM_ok.
    - rewrite !map_map. instantiate (1 := fun g => NFObj n 0 [g]). f_equal. apply map_ext_in. intros i Hi. apply in_seq in Hi.
      unfold gen, TableTheory.enc. cbn. unfold idx. rewrite val_atom by lia. reflexivity.
    - intros g Hg. rewrite map_map in Hg. apply in_map_iff in Hg. destruct Hg as [i [<- Hi]]. apply in_seq in Hi.
      rewrite <- (val_atom n i) by lia. apply (mkE n tb n2 Ht 0 [atom n i]). apply (ok_one n n2). apply gen_proper; lia. }
  exists (map gen (seq 0 (n - 1))), (map inv (seq 0 (n - 1))).
  repeat split; auto; try (now rewrite map_length, seq_length).
  intros i Hi. exists (gen i), (inv i).
  assert (N : nth_error (seq 0 (n - 1)) i = Some i).
  { rewrite (nth_error_nth' _ 0) by (rewrite seq_length; lia). now rewrite seq_nth by lia. }
  split; [now apply map_nth_error|]. split; [now apply map_nth_error|].
  rewrite !(rd n tb n2 Ht). split; [now apply RG|].
  apply (reps_nfw _ _ _ _ _ _ _ _ _ TK). repeat constructor. exact Hi.
Qed.
(** n = 2: the only generator is Delta, which the constructor refuses. *)
Theorem C53_gens_two_refuted pick : picker_ok pick -> bg_gens (gtb pick) 2 = Err AssertionError /\
  bg_invs (gtb pick) 2 = Err AssertionError /\ nf_artin_gens (gtb pick) 2 = Err AssertionError.
Proof.
  intros Hp. assert (E : gtb pick 2 = gtb hdpick 2).
  { rewrite (gnf_table_ptab 2 _ (gtb_is_table pick 2 Hp ltac:(lia))).
    now rewrite (gnf_table_ptab 2 _ (gtb_is_table hdpick 2 hdpick_ok ltac:(lia))). }
  unfold bg_invs, bg_gens, nf_artin_gens, mk. rewrite E. split; [|split]; vm_compute; reflexivity.
Qed.
Theorem C53_gens_one pick : picker_ok pick -> bg_gens (gtb pick) 1 = Ok [] /\ bg_invs (gtb pick) 1 = Ok [].
Proof.
  intros Hp. assert (E : gtb pick 1 = gtb hdpick 1).
  { rewrite (gnf_table_ptab 1 _ (gtb_is_table pick 1 Hp ltac:(lia))).
    now rewrite (gnf_table_ptab 1 _ (gtb_is_table hdpick 1 hdpick_ok ltac:(lia))). }
  unfold bg_invs, bg_gens. rewrite E. split; vm_compute; reflexivity.
Qed.

(** ** C54 *)
Theorem C54_inf_sup n tb b w d : 2 <= n -> gnf_table n tb -> denotes tb n b w -> lifts n (rev (seq 0 n)) d ->
  (forall k, positive n (wpow d (- k) ++ w) <-> (k <= inf b)%Z) /\
  (forall k, positive n (winv w ++ wpow d k) <-> (sup b <= k)%Z) /\
  (sup b - inf b = Z.of_nat (canonical_length b))%Z.
Proof.
  intros n2 Ht HD Hd. pose proof (ptab_ok n n2) as TK. apply (rd n tb n2 Ht) in HD.
  destruct HD as [[p l] [Ho [-> B]]].
  assert (M : forall u v, braid_eq n u v -> (positive n u <-> positive n v)).
  { intros u v E. split; intros [x [X1 [X2 X3]]]; exists x; (split; [exact X1|split; [exact X2|]]).
    - eapply be_trans; [apply be_sym; exact E|exact X3].
    - eapply be_trans; [exact E|exact X3]. }
  split; [|split].
  - intros k. rewrite <- (inf_spec _ _ _ _ _ _ _ _ _ TK (plift_pos n) (p, l) k Ho). apply M.
    apply be_app; [now apply flat_D_pow|]. now apply be_sym.
  - intros k. assert (S : sup (TableTheory.enc (PG n) n (idx n) (p, l)) = sup_of (PG n) (p, l)).
    { unfold sup, sup_of. cbn. now rewrite map_length. }
    rewrite S, <- (sup_spec _ _ _ _ _ _ _ _ _ TK (plift_pos n) (p, l) k Ho). apply M.
    apply be_app; [|now apply flat_D_pow]. apply winv_mor. now apply be_sym.
  - unfold sup, inf, canonical_length. cbn. lia.
Qed.

(** ** Non-vacuity: the hypotheses are met by concrete values. *)
Example gnf_table_ex : gnf_table 4 (gtb hdpick).
Proof. apply gtb_is_table; [apply hdpick_ok|lia]. Qed.
Example word_ok_ex : word_ok 4 [(0, 2); (1, -3); (2, 1); (1, 0)]%Z.
Proof. repeat constructor; cbn; lia. Qed.
Example nf_value_ex : exists b, from_artin_word (gtb hdpick) 4 [(0, 2); (1, -3); (2, 1)]%Z = Ok b /\
  nf_value (gtb hdpick) 4 b /\ 0 < length (o_factors b).
Proof.
  destruct (C47_artin_round_trip_word 4 (gtb hdpick) [(0, 2); (1, -3); (2, 1)]%Z ltac:(lia) gnf_table_ex) as [b [w' [E [V _]]]].
  { repeat constructor; cbn; lia. }
  exists b. split; [exact E|]. split; [exact V|]. vm_compute in E. injection E as <-. cbn. lia.
Qed.
Example lifts_ex : exists b, lifts 4 (rev (seq 0 4)) b.
Proof. apply lifts_ex. rewrite <- longest_rev. apply isperm_longest. Qed.
Example picker_ex : picker_ok (fun _ _ k l => nth (k mod length l) l 0).
Proof. intros x y k l H. apply nth_In. apply Nat.mod_upper_bound. now destruct l. Qed.
Example normal_seq_ex : normal_seq 3 [[1; 0; 2]; [1; 0; 2]].
Proof.
  split.
  - repeat constructor; try discriminate; apply perm_swap.
  - split; [|exact I]. intros i Hi [p [q [Hpq [Ep Eq]]]].
    destruct i as [|[|i]]; [|exfalso|lia].
    + repeat split; cbn; lia.
    + assert (q < 3) by (change 3 with (length [1; 0; 2]); apply nth_error_Some; congruence).
      destruct p as [|[|p]], q as [|[|[|q]]]; cbn in *; try discriminate; lia.
Qed.
