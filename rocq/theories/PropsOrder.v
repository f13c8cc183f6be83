(** PropsOrder.v – C132: comparison and sorting of braids. *)
From Verif Require Import Base ModelPerm SpecBraid BraidTheory Germ GermNF GermAct GermBraid ModelBraid ModelTL TableTheory PermGerm PermTable NFApi PropsGNF PropsGNF2 TrackerRun2 TLCells ModelOrder.
From Coq Require Import Permutation Sorted.
Local Open Scope nat_scope.

Lemma tuple_eqb_iff a : forall b, tuple_eqb a b = true <-> a = b.
Proof.
  induction a as [|x a IH]; intros [|y b]; cbn [tuple_eqb]; [tauto|split; discriminate|split; discriminate|]. rewrite andb_true_iff, IH, Z.eqb_eq. split; [intros [-> ->]; reflexivity|intros [= -> ->]; auto].
Qed.
Lemma tuple_ops a : forall b, a <> b -> tuple_op Cle a b = tuple_op Clt a b /\ tuple_op Cgt a b = tuple_op Clt b a /\ tuple_op Cge a b = tuple_op Clt b a /\ tuple_op Clt b a = negb (tuple_op Clt a b).
Proof.
  assert (B : forall x y : Z, x <> y -> zop Cle x y = zop Clt x y /\ zop Cgt x y = zop Clt y x /\ zop Cge x y = zop Clt y x /\ zop Clt y x = negb (zop Clt x y)) by (intros x y N; cbn [zop]; destruct (Z.leb_spec x y), (Z.leb_spec y x), (Z.ltb_spec x y), (Z.ltb_spec y x); cbn; repeat split; lia).
  induction a as [|x a IH]; intros [|y b] N; cbn [tuple_op]; [congruence|apply B; cbn [length]; lia|apply B; cbn [length]; lia|].
  rewrite (Z.eqb_sym y x). destruct (Z.eqb_spec x y) as [->|Q]; [apply IH; congruence|now apply B].
Qed.
Lemma tuple_lt_trans a : forall b c, tuple_op Clt a b = true -> tuple_op Clt b c = true -> tuple_op Clt a c = true.
Proof.
  induction a as [|x a IH]; intros [|y b] [|z c]; cbn [tuple_op zop length]; rewrite ?Z.ltb_lt; try lia.
  destruct (Z.eqb_spec x y) as [->|Q1], (Z.eqb_spec y z) as [->|Q2]; rewrite ?Z.ltb_lt.
  - apply IH.
  - auto.
  - destruct (Z.eqb_spec x z); [congruence|]. rewrite Z.ltb_lt. auto.
  - destruct (Z.eqb_spec x z); [lia|]. rewrite Z.ltb_lt. lia.
Qed.
Lemma tuple_lt_irrefl a : tuple_op Clt a a = false.
Proof. induction a as [|x a IH]; cbn [tuple_op zop length]; [reflexivity|]. now rewrite Z.eqb_refl. Qed.
Lemma nf_ops a b : a <> b -> nf_op Cle a b = nf_op Clt a b /\ nf_op Cgt a b = nf_op Clt b a /\ nf_op Cge a b = nf_op Clt b a /\ nf_op Clt b a = negb (nf_op Clt a b).
Proof.
  assert (B : forall x y : Z, x <> y -> zop Cle x y = zop Clt x y /\ zop Cgt x y = zop Clt y x /\ zop Cge x y = zop Clt y x /\ zop Clt y x = negb (zop Clt x y)) by (intros x y N; cbn [zop]; destruct (Z.leb_spec x y), (Z.leb_spec y x), (Z.ltb_spec x y), (Z.ltb_spec y x); cbn; repeat split; lia).
  intros N. unfold nf_op. rewrite (Nat.eqb_sym (o_n b)), (Z.eqb_sym (o_pow b)). destruct (Nat.eqb_spec (o_n a) (o_n b)) as [E1|E1]; [|apply B; lia]. destruct (Z.eqb_spec (o_pow a) (o_pow b)) as [E2|E2]; [|now apply B].
  assert (NF : o_factors a <> o_factors b) by (intros Q; apply N; destruct a, b; cbn in *; congruence). destruct (tuple_eqb (o_factors a) (o_factors b)) eqn:T1; [apply tuple_eqb_iff in T1; contradiction|]. destruct (tuple_eqb (o_factors b) (o_factors a)) eqn:T2; [apply tuple_eqb_iff in T2; congruence|]. now apply tuple_ops.
Qed.
Lemma nf_same a : nf_op Clt a a = false /\ nf_op Cle a a = true /\ nf_op Cgt a a = false /\ nf_op Cge a a = true.
Proof. unfold nf_op. rewrite Nat.eqb_refl, Z.eqb_refl. rewrite (proj2 (tuple_eqb_iff _ _) eq_refl). cbn. auto. Qed.
Lemma nf_lt_trans a b c : nf_op Clt a b = true -> nf_op Clt b c = true -> nf_op Clt a c = true.
Proof.
  unfold nf_op. cbn [zop]. destruct (Nat.eqb_spec (o_n a) (o_n b)) as [E1|E1], (Nat.eqb_spec (o_n b) (o_n c)) as [F1|F1]; rewrite ?Z.ltb_lt.
  - destruct (Nat.eqb_spec (o_n a) (o_n c)); [|congruence]. destruct (Z.eqb_spec (o_pow a) (o_pow b)) as [E2|E2], (Z.eqb_spec (o_pow b) (o_pow c)) as [F2|F2]; rewrite ?Z.ltb_lt.
    + destruct (Z.eqb_spec (o_pow a) (o_pow c)); [|congruence]. destruct (tuple_eqb (o_factors a) (o_factors b)) eqn:T1; [discriminate|]. destruct (tuple_eqb (o_factors b) (o_factors c)) eqn:T2; [discriminate|]. intros H1 H2. pose proof (tuple_lt_trans _ _ _ H1 H2) as H3. destruct (tuple_eqb (o_factors a) (o_factors c)) eqn:T3; [|exact H3]. apply tuple_eqb_iff in T3. rewrite T3, tuple_lt_irrefl in H3. discriminate.
    + destruct (tuple_eqb _ _); [discriminate|]. intros _ H. destruct (Z.eqb_spec (o_pow a) (o_pow c)); [lia|]. rewrite Z.ltb_lt. lia.
    + destruct (tuple_eqb (o_factors b) _); [discriminate|]. intros H _. destruct (Z.eqb_spec (o_pow a) (o_pow c)); [lia|]. rewrite Z.ltb_lt. lia.
    + intros H1 H2. destruct (Z.eqb_spec (o_pow a) (o_pow c)); [lia|]. rewrite Z.ltb_lt. lia.
  - intros _ H. destruct (Nat.eqb_spec (o_n a) (o_n c)); [lia|]. rewrite Z.ltb_lt. lia.
  - intros H _. destruct (Nat.eqb_spec (o_n a) (o_n c)); [lia|]. rewrite Z.ltb_lt. lia.
  - intros H1 H2. destruct (Nat.eqb_spec (o_n a) (o_n c)); [lia|]. rewrite Z.ltb_lt. lia.
Qed.

(** C132.  For two braids of B_n, exactly one of a < b, a = b, b < a holds, where the middle
    one means that they are the same braid (given by any words), and the four operators
    fit together. *)
Theorem C132_total n tb a b u v : 2 <= n -> gnf_table n tb -> denotes tb n a u -> denotes tb n b v ->
  exists lt gt, nf_compare Clt ClsGNF ClsGNF a b = Ok lt /\ nf_compare Clt ClsGNF ClsGNF b a = Ok gt /\
    ((lt = true /\ gt = false /\ ~ braid_eq n u v) \/ (lt = false /\ gt = true /\ ~ braid_eq n u v) \/ (lt = false /\ gt = false /\ braid_eq n u v)) /\
    nf_compare Cgt ClsGNF ClsGNF a b = Ok gt /\
    (exists le, nf_compare Cle ClsGNF ClsGNF a b = Ok le /\ (le = true <-> lt = true \/ braid_eq n u v)) /\
    (exists ge, nf_compare Cge ClsGNF ClsGNF a b = Ok ge /\ (ge = true <-> gt = true \/ braid_eq n u v)).
Proof.
  intros n2 Ht Da Db. pose proof (api_eq _ _ _ _ _ _ _ _ _ (ptab_ok n n2) tb (gnf_table_ptab n tb Ht) a b u v Da Db) as EQ. exists (nf_op Clt a b), (nf_op Clt b a). split; [reflexivity|]. split; [reflexivity|]. cbn [nf_compare].
  destruct (nfdec a b) as [E|E].
  - assert (Q : braid_eq n u v) by now apply EQ. subst b. destruct (nf_same a) as (-> & -> & -> & ->). split; [right; right; auto|]. split; [reflexivity|]. split; exists true; split; auto; tauto.
  - assert (Q : ~ braid_eq n u v) by (intros H; apply E; now apply EQ). destruct (nf_ops a b E) as (-> & -> & -> & ->). split; [destruct (nf_op Clt a b); cbn; auto|]. split; [reflexivity|]. split; eexists; (split; [reflexivity|tauto]).
Qed.
Theorem C132_transitive c a b d : nf_compare Clt c c a b = Ok true -> nf_compare Clt c c b d = Ok true -> nf_compare Clt c c a d = Ok true.
Proof. assert (H : forall c a b, nf_compare Clt c c a b = Ok (nf_op Clt a b)) by (intros [] ? ?; reflexivity). rewrite !H. intros [= H1] [= H2]. f_equal. now apply (nf_lt_trans a b). Qed.
(** braids of the two kinds of normal form cannot be compared *)
Theorem C132_mixed o a b : nf_compare o ClsGNF ClsDGNF a b = Err TypeError /\ nf_compare o ClsDGNF ClsGNF a b = Err TypeError.
Proof. split; reflexivity. Qed.
(** smaller powers of Delta first, and a braid comes before the braids that extend its factors *)
Theorem C132_power a b : o_n a = o_n b -> (o_pow a < o_pow b)%Z -> nf_compare Clt ClsGNF ClsGNF a b = Ok true.
Proof. intros E H. cbn [nf_compare]. unfold nf_op. rewrite E, Nat.eqb_refl. destruct (Z.eqb_spec (o_pow a) (o_pow b)); [lia|]. cbn [zop]. rewrite (proj2 (Z.ltb_lt _ _) H). reflexivity. Qed.
Theorem C132_extension a b s : o_n a = o_n b -> o_pow a = o_pow b -> s <> [] -> o_factors b = o_factors a ++ s -> nf_compare Clt ClsGNF ClsGNF a b = Ok true.
Proof.
  intros E P N F. cbn [nf_compare]. unfold nf_op. rewrite E, P, F, Nat.eqb_refl, Z.eqb_refl. f_equal. destruct (tuple_eqb _ _) eqn:T; [apply tuple_eqb_iff in T; exfalso; apply N; apply (app_inv_head (o_factors a)); now rewrite app_nil_r, <- T|]. clear - N. induction (o_factors a) as [|x l IH]; [destruct s; [congruence|reflexivity]|cbn [app tuple_op]; now rewrite Z.eqb_refl].
Qed.
(** with the same power, the first factors that differ decide; braids on fewer strands come first *)
Theorem C132_factors a b l x s y t : o_n a = o_n b -> o_pow a = o_pow b -> o_factors a = l ++ x :: s -> o_factors b = l ++ y :: t -> (x < y)%Z -> nf_compare Clt ClsGNF ClsGNF a b = Ok true /\ nf_compare Clt ClsGNF ClsGNF b a = Ok false.
Proof.
  intros E P Fa Fb H. assert (N : a <> b) by (intros ->; rewrite Fa in Fb; apply app_inv_head in Fb; injection Fb as Q; lia). assert (G : nf_op Clt a b = true).
  { unfold nf_op. rewrite E, P, Fa, Fb, Nat.eqb_refl, Z.eqb_refl. destruct (tuple_eqb _ _) eqn:T; [apply tuple_eqb_iff, app_inv_head in T; injection T as Q; lia|]. clear - H. induction l as [|z l IH]; cbn [app tuple_op]; [destruct (Z.eqb_spec x y); [lia|]; cbn [zop]; now apply Z.ltb_lt|now rewrite Z.eqb_refl]. }
  cbn [nf_compare]. destruct (nf_ops a b N) as (_ & _ & _ & ->). now rewrite G.
Qed.
Theorem C132_strands a b : o_n a < o_n b -> nf_compare Clt ClsGNF ClsGNF a b = Ok true /\ nf_compare Clt ClsGNF ClsGNF b a = Ok false.
Proof. intros H. cbn [nf_compare]. unfold nf_op. rewrite (Nat.eqb_sym (o_n b)). destruct (Nat.eqb_spec (o_n a) (o_n b)); [lia|]. cbn [zop]. destruct (Z.ltb_spec (Z.of_nat (o_n a)) (Z.of_nat (o_n b))), (Z.ltb_spec (Z.of_nat (o_n b)) (Z.of_nat (o_n a))); (lia || auto). Qed.

(** ** sorted *)
Definition ascending (a b : nfobj) : Prop := nf_compare Cle ClsGNF ClsGNF a b = Ok true.
Lemma ascending_iff a b : negb (nf_op Clt b a) = true <-> ascending a b.
Proof.
  unfold ascending. cbn [nf_compare]. destruct (nfdec a b) as [->|N].
  - destruct (nf_same b) as (-> & -> & _). cbn. tauto.
  - destruct (nf_ops a b N) as (-> & _ & _ & ->). rewrite negb_involutive. split; [now intros ->|now intros [= ->]].
Qed.
Lemma ascending_anti a b : ascending a b -> ascending b a -> a = b.
Proof.
  intros H1 H2. destruct (nfdec a b) as [|N]; [assumption|exfalso]. apply ascending_iff in H1, H2. destruct (nf_ops a b N) as (_ & _ & _ & E). rewrite E in H1. destruct (nf_op Clt a b); discriminate.
Qed.
Lemma ascending_trans a b c : ascending a b -> ascending b c -> ascending a c.
Proof.
  intros H1 H2. destruct (nfdec a b) as [->|N1]; [assumption|]. destruct (nfdec b c) as [<-|N2]; [assumption|]. unfold ascending in *. cbn [nf_compare] in *. rewrite (proj1 (nf_ops a b N1)) in H1. rewrite (proj1 (nf_ops b c N2)) in H2. injection H1 as H1. injection H2 as H2. pose proof (nf_lt_trans _ _ _ H1 H2) as H3. destruct (nfdec a c) as [->|N3]; [now rewrite (proj1 (proj2 (nf_same c)))|]. now rewrite (proj1 (nf_ops a c N3)), H3.
Qed.
Lemma ascending_total a b : ascending a b \/ ascending b a.
Proof. rewrite <- !ascending_iff. destruct (nfdec a b) as [->|N]; [left; now rewrite (proj1 (nf_same b))|]. destruct (nf_ops a b N) as (_ & _ & _ & ->). destruct (nf_op Clt a b); cbn; auto. Qed.
Lemma nf_sorted_spec l : Permutation (nf_sorted l) l /\ StronglySorted ascending (nf_sorted l).
Proof.
  unfold nf_sorted. split; [apply sorted_by_perm|]. assert (H := sorted_by_sorted (fun a b => negb (nf_op Clt b a)) (fun _ => True)). cbv beta in H. assert (W : StronglySorted (fun x y => negb (nf_op Clt y x) = true) (sorted_by (fun a b => negb (nf_op Clt b a)) l)).
  { apply H; [intros x y _ _; rewrite !ascending_iff; apply ascending_total|intros x y z _ _ _; rewrite !ascending_iff; apply ascending_trans|apply Forall_forall; auto]. }
  clear H. induction W as [|x q W IH F]; constructor; [exact IH|]. revert F. apply Forall_impl. intros y. apply ascending_iff.
Qed.
Lemma ascending_unique l1 : forall l2, StronglySorted ascending l1 -> StronglySorted ascending l2 -> Permutation l1 l2 -> l1 = l2.
Proof.
  induction l1 as [|a l1 IH]; intros l2 S1 S2 P; [now apply Permutation_nil in P|]. destruct l2 as [|b l2]; [now apply Permutation_sym, Permutation_nil in P|].
  inversion S1 as [|? ? S1' F1]; subst. inversion S2 as [|? ? S2' F2]; subst. rewrite Forall_forall in F1, F2. assert (E : a = b).
  { destruct (Permutation_in a P (or_introl eq_refl)) as [->|Ha]; [reflexivity|]. destruct (Permutation_in b (Permutation_sym P) (or_introl eq_refl)) as [->|Hb]; [reflexivity|]. apply ascending_anti; auto. }
  subst b. f_equal. apply IH; auto. now apply Permutation_cons_inv in P.
Qed.
(** [sorted] of braids: the same braids, in ascending order; and the list depends only on
    which braids are in it and how often, not on their order or on the words that gave them *)
Theorem C132_sorted l : Permutation (nf_sorted l) l /\ StronglySorted (fun a b => nf_compare Cle ClsGNF ClsGNF a b = Ok true) (nf_sorted l).
Proof. apply nf_sorted_spec. Qed.
Theorem C132_sorted_braids n tb l l' ws ws' : 2 <= n -> gnf_table n tb -> Forall2 (denotes tb n) l ws -> Forall2 (denotes tb n) l' ws' ->
  (nf_sorted l = nf_sorted l' <-> exists ws3, Permutation ws' ws3 /\ Forall2 (braid_eq n) ws ws3).
Proof.
  intros n2 Ht D D'. pose proof (api_eq _ _ _ _ _ _ _ _ _ (ptab_ok n n2) tb (gnf_table_ptab n tb Ht)) as EQ.
  assert (PR : forall (l : list nfobj) ws ws2, Forall2 (denotes tb n) l ws -> Permutation ws ws2 -> exists l2, Permutation l l2 /\ Forall2 (denotes tb n) l2 ws2).
  { clear. intros l ws ws2 F Q. assert (F' : Forall2 (fun w a => denotes tb n a w) ws l) by (clear - F; induction F; constructor; auto). destruct (Permutation_Forall2 Q F') as (l2 & Q2 & F2). exists l2. split; [exact Q2|]. clear - F2. induction F2; constructor; auto. }
  split.
  - intros E. assert (PL : Permutation l' l). { rewrite <- (proj1 (nf_sorted_spec l)), <- (proj1 (nf_sorted_spec l')). now rewrite E. }
    destruct (Permutation_Forall2 PL D') as (ws3 & Q3 & F3). exists ws3. split; [exact Q3|]. clear - D F3 EQ. revert ws3 F3. induction D as [|a u l ws H D IH]; intros ws3 F3; inversion F3; subst; constructor; [|now apply IH]. eapply EQ; eauto.
  - intros (ws3 & Q3 & F3). destruct (PR l' ws' ws3 D' Q3) as (l3 & P3 & D3). assert (E : l = l3).
    { clear - D D3 F3 EQ. revert l ws D F3. induction D3 as [|b v l3 ws3 H D3 IH]; intros l ws D F3; inversion F3; subst; inversion D; subst; [reflexivity|]. f_equal; [eapply EQ; eauto|eapply IH; eauto]. }
    subst l3. apply ascending_unique; try apply nf_sorted_spec. rewrite !(proj1 (nf_sorted_spec _)). now symmetry.
Qed.
(** s1, s2^-1 and s1 s1 in B_3 *)
Example C132_case : exists a b c, from_artin_word (gtb hdpick) 3 [(0, 1)]%Z = Ok a /\ from_artin_word (gtb hdpick) 3 [(1, -1)]%Z = Ok b /\ from_artin_word (gtb hdpick) 3 [(0, 1); (0, 1)]%Z = Ok c /\
  nf_sorted [c; a; b; a] = [b; a; a; c] /\ nf_compare Clt ClsGNF ClsGNF c a = Ok false.
Proof. do 3 eexists. split; [vm_compute; reflexivity|]. split; [vm_compute; reflexivity|]. split; [vm_compute; reflexivity|]. split; vm_compute; reflexivity. Qed.
