(** PropsNPar.v – properties C37, C38 and C39: noncrossing partitions and the
    BKL generators. *)
From Verif Require Import Base ModelTL ModelPerm ModelBraid ModelNPar PermTheory SpecPerm SpecPermTheory SpecTL SpecBraid BraidTheory
  TLTheory TLBasis TLCells CycleTheory NCTheory NCGerm BKL NCLift NParMatch NParOrbit NParBlocks NParBuild.
From Coq Require Import Permutation Sorted.

(** A noncrossing partition of n points, as the class documents it: an
    involution of 2n points without fixed points and without crossings. *)
Definition noncrossing (n : nat) (p : npar) : Prop :=
  np_n p = n /\ length (np_inv p) = 2 * n /\ crossingless (np_inv p).

(** x and y lie in one of the listed sets *)
Definition together {A} (cs : list (list A)) (x y : A) : Prop := exists c, In c cs /\ In x c /\ In y c.
(** two different listed sets cross *)
Definition crossed (cs : list (list Z)) : Prop :=
  exists c d x y z w, In c cs /\ In d cs /\ c <> d /\ In x c /\ In y d /\ In z c /\ In w d /\ (x < y /\ y < z /\ z < w)%Z.
(** sets of numbers below n without a repeated number *)
Definition separate (n : nat) (cs : list (list Z)) : Prop :=
  NoDup (concat cs) /\ Forall (fun x => 0 <= x < Z.of_nat n)%Z (concat cs).

Lemma noncrossing_ex n p : noncrossing n p -> exists w, Q n w /\ p = NPar n (inv_of n w).
Proof.
  intros [E [L C]]. destruct p as [m s]. cbn in *. subst m. destruct (crossingless_inv_of n s C L) as [w [Hw ->]]. now exists w.
Qed.
Lemma noncrossing_inv_of n w : Q n w -> noncrossing n (NPar n (inv_of n w)).
Proof.
  intros [Hw N]. split; [reflexivity|]. cbn. split; [apply inv_of_length|]. now apply inv_of_crossingless.
Qed.
(** ** C37 *)
Theorem C37_complements n p : noncrossing n p ->
  exists l r, left_complement p = Ok l /\ right_complement p = Ok r /\ noncrossing n l /\ noncrossing n r /\
    right_complement l = Ok p /\ left_complement r = Ok p.
Proof.
  intros Hp. destruct (noncrossing_ex n p Hp) as [w [Hw ->]]. pose proof Hw as [Pw _].
  pose proof (lc_NC n w Hw) as Hl. pose proof (rc_NC n w Hw) as Hr.
  rewrite left_complement_ok, right_complement_ok by exact Pw. eexists _, _. split; [reflexivity|]. split; [reflexivity|].
  split; [now apply noncrossing_inv_of|]. split; [now apply noncrossing_inv_of|].
  rewrite right_complement_ok by apply Hl. rewrite left_complement_ok by apply Hr.
  pose proof (P_cox n) as Pc. pose proof (isperm_pinv n w Pw) as Pi.
  rewrite !(pinv_pcomp n) by assumption. rewrite !(pinv_pinv n) by assumption.
  rewrite (pcomp_assoc n) by (try apply isperm_pinv; assumption). rewrite (pcomp_pinv_l n) by assumption.
  rewrite <- (pcomp_assoc n) by (try apply isperm_pinv; assumption). rewrite (pcomp_pinv_r n) by assumption.
  rewrite (pcomp_id_r n), (pcomp_id_l n) by assumption. split; reflexivity.
Qed.
(** perm(left complement) perm(p) = perm(p) perm(right complement) = perm(coarsest),
    which is the cycle i -> i-1 mod n. *)
Theorem C37_complement_permutations n p : noncrossing n p ->
  exists l r wl w wr wc, left_complement p = Ok l /\ right_complement p = Ok r /\
    to_permutation l = Ok wl /\ to_permutation p = Ok w /\ to_permutation r = Ok wr /\ to_permutation (coarsest n) = Ok wc /\
    ModelPerm.compose wl w = Ok wc /\ ModelPerm.compose w wr = Ok wc /\
    wc = map (fun i => (i + n - 1) mod n) (seq 0 n).
Proof.
  intros Hp. destruct (noncrossing_ex n p Hp) as [w [Hw ->]]. pose proof Hw as [Pw _].
  pose proof (lc_NC n w Hw) as Hl. pose proof (rc_NC n w Hw) as Hr. pose proof (P_cox n) as Pc. pose proof (isperm_pinv n w Pw) as Pi.
  rewrite left_complement_ok, right_complement_ok by exact Pw. do 6 eexists.
  split; [reflexivity|]. split; [reflexivity|]. rewrite coarsest_ok, !to_permutation_ok by first [apply Hl|apply Hr|assumption].
  do 4 (split; [reflexivity|]). rewrite !(PermTheory.compose_ok n) by first [apply Hl|apply Hr|assumption].
  rewrite (pcomp_assoc n) by assumption. rewrite (pcomp_pinv_l n) by assumption.
  rewrite <- (pcomp_assoc n) by assumption. rewrite (pcomp_pinv_r n) by assumption.
  rewrite (pcomp_id_r n), (pcomp_id_l n) by assumption. do 2 (split; [reflexivity|]).
  unfold cox. apply map_ext_in. intros i Hi. apply in_seq in Hi. destruct (Nat.eqb_spec i 0) as [->|N].
  - cbn [Nat.add]. symmetry. apply Nat.mod_small. lia.
  - replace (i + n - 1) with (i - 1 + 1 * n) by lia. rewrite Nat.mod_add by lia. symmetry. apply Nat.mod_small. lia.
Qed.
(** the finest and the coarsest partition are complements of each other *)
Theorem C37_extremes n : noncrossing n (finest n) /\ noncrossing n (coarsest n) /\
  right_complement (finest n) = Ok (coarsest n) /\ left_complement (finest n) = Ok (coarsest n) /\
  right_complement (coarsest n) = Ok (finest n) /\ left_complement (coarsest n) = Ok (finest n).
Proof.
  pose proof (P_cox n) as Pc. pose proof (Q_id n) as Qi. pose proof (Q_cox n) as Qc.
  assert (Pi : isperm n (identity n)) by apply Qi.
  rewrite finest_ok, coarsest_ok. split; [now apply noncrossing_inv_of|]. split; [now apply noncrossing_inv_of|].
  rewrite !right_complement_ok, !left_complement_ok by assumption.
  rewrite pinv_id, (pcomp_id_l n), (pcomp_id_r n), (pcomp_pinv_l n), (pcomp_pinv_r n) by assumption. auto.
Qed.

(** ** C38 *)
Section Comps.
Variable n : nat.

Lemma separate_good zs : separate n zs <-> good n zs.
Proof. unfold separate, good. rewrite Forall_forall. tauto. Qed.
Lemma zcs_concat zs : Permutation (concat (zcs zs)) (map Z.to_nat (concat zs)).
Proof.
  unfold zcs. induction zs as [|c zs IH]; cbn [map concat]; [constructor|]. rewrite map_app.
  apply Permutation_app; [apply sorted_perm|exact IH].
Qed.
Lemma in_zc c x : In x (sorted Nat.leb (map Z.to_nat c)) <-> In x (map Z.to_nat c).
Proof. split; apply Permutation_in; [|symmetry]; apply sorted_perm. Qed.

Variable zs : list (list Z).
Hypothesis Hg : good n zs.
Lemma z_lift c x : In c zs -> In x c -> exists y, x = Z.of_nat y /\ y < n.
Proof using Hg.
  intros Hc Hx. destruct Hg as [_ B]. assert (I : In x (concat zs)) by (apply in_concat; eauto). apply B in I.
  exists (Z.to_nat x). lia.
Qed.
Lemma zc_in c x : In c zs -> (In x (sorted Nat.leb (map Z.to_nat c)) <-> In (Z.of_nat x) c).
Proof using Hg.
  intros Hc. rewrite in_zc, in_map_iff. split.
  - intros [z [<- Hz]]. destruct (z_lift c z Hc Hz) as [y [-> _]]. now rewrite Nat2Z.id.
  - intros H. exists (Z.of_nat x). now rewrite Nat2Z.id.
Qed.
Lemma zcs_together x y : together (zcs zs) x y <-> together zs (Z.of_nat x) (Z.of_nat y).
Proof using Hg.
  unfold together, zcs. split.
  - intros [c [Hc [Hx Hy]]]. apply in_map_iff in Hc. destruct Hc as [d [<- Hd]]. exists d.
    rewrite zc_in in Hx, Hy by exact Hd. auto.
  - intros [c [Hc [Hx Hy]]]. exists (sorted Nat.leb (map Z.to_nat c)). rewrite !zc_in by exact Hc. split; [|auto].
    apply in_map_iff. now exists c.
Qed.
Lemma zcs_NoDup : NoDup (concat (zcs zs)).
Proof using Hg.
  destruct Hg as [ND B]. eapply Permutation_NoDup; [symmetry; apply zcs_concat|]. revert B.
  induction ND as [|x l Hx ND IH]; intros B; cbn; constructor.
  - rewrite in_map_iff. intros [y [E Hy]]. assert (y = x); [|subst; contradiction].
    pose proof (B x (or_introl eq_refl)). pose proof (B y (or_intror Hy)). lia.
  - apply IH. intros y Hy. apply B. now right.
Qed.
Lemma zcs_lt x : In x (concat (zcs zs)) -> x < n.
Proof using Hg.
  intros H. apply (Permutation_in _ (zcs_concat zs)) in H. apply in_map_iff in H. destruct H as [y [<- Hy]].
  destruct Hg as [_ B]. apply B in Hy. lia.
Qed.
Lemma zcs_SS : Forall (StronglySorted lt) (zcs zs).
Proof using Hg.
  pose proof zcs_NoDup as ND. apply Forall_forall. intros c Hc. pose proof (NoDup_concat_each _ c ND Hc) as Nc.
  unfold zcs in Hc. apply in_map_iff in Hc. destruct Hc as [d [<- Hd]]. apply sorted_SS.
  eapply Permutation_NoDup; [apply sorted_perm|exact Nc].
Qed.

Lemma linked_descends v : isperm n v -> linked n v (zcs zs) -> descends v.
Proof using Hg.
  intros Hv L. pose proof (linked_so n v _ Hv zcs_NoDup zcs_lt L) as So. destruct L as [L1 L2].
  intros x Hx. rewrite (isperm_length n v Hv) in Hx.
  destruct (in_dec Nat.eq_dec x (concat (zcs zs))) as [I|I].
  - apply in_concat in I. destruct I as [c [Hc Hxc]].
    assert (Cy : forall y, same_orbit v x y -> In y c).
    { intros y Hy. apply So in Hy; [|exact Hx]. destruct Hy as [<-|[d [Hd [Hx' Hy]]]]; [exact Hxc|].
      now rewrite (NoDup_concat_in _ c d x zcs_NoDup Hc Hd Hxc Hx'). }
    pose proof zcs_SS as SS. rewrite Forall_forall in SS. specialize (SS c Hc).
    apply (In_nth _ _ 0) in Hxc. destruct Hxc as [j [Hj <-]].
    assert (Mono : forall i k, i < k -> k < length c -> nth i c 0 < nth k c 0) by (intros i k H1 H2; now apply (SS_nth c i k SS)).
    destruct j as [|j].
    + right. intros y Hy. apply Cy in Hy. apply (In_nth _ _ 0) in Hy. destruct Hy as [k [Hk <-]].
      pose proof (L1 c (length c - 1) Hc ltac:(lia)) as E. replace (length c - 1 + 1) with (length c) in E by lia.
      rewrite Nat.mod_same in E by lia. rewrite E. split.
      * destruct (Nat.eq_dec k 0) as [->|]; [reflexivity|]. pose proof (Mono 0 k). lia.
      * destruct (Nat.eq_dec k (length c - 1)) as [->|]; [reflexivity|]. pose proof (Mono k (length c - 1)). lia.
    + left. pose proof (L1 c j Hc ltac:(lia)) as E. rewrite Nat.mod_small, Nat.add_1_r in E by lia. rewrite E.
      split; [apply Mono; lia|]. intros y Hy Ly. apply Cy in Hy. apply (In_nth _ _ 0) in Hy. destruct Hy as [k [Hk <-]].
      destruct (lt_eq_lt_dec k j) as [[K| ->]|K]; [pose proof (Mono k j); lia|lia|].
      destruct (Nat.eq_dec k (S j)) as [->|]; [lia|]. pose proof (Mono (S j) k). lia.
  - right. intros y Hy. rewrite (L2 x Hx I). apply So in Hy; [|exact Hx]. destruct Hy as [<-|[c [Hc [Hxc _]]]]; [lia|].
    exfalso. apply I, in_concat. eauto.
Qed.
Lemma linked_crossing v : isperm n v -> linked n v (zcs zs) -> (crossing v <-> crossed zs).
Proof using Hg.
  intros Hv L. pose proof (linked_so n v _ Hv zcs_NoDup zcs_lt L) as So.
  assert (Tg : forall x y, x < n -> x <> y -> (same_orbit v x y <-> together zs (Z.of_nat x) (Z.of_nat y))).
  { intros x y Hx Nxy. rewrite <- zcs_together. rewrite So by exact Hx. unfold together. tauto. }
  split.
  - intros (a & b & c & d & H1 & H2 & H3 & H4 & Sac & Sbd & Nab). rewrite (isperm_length n v Hv) in H4.
    rewrite Tg in Sac, Sbd, Nab by lia. destruct Sac as [e [He [Ha Hc]]], Sbd as [f [Hf [Hb Hd]]].
    exists e, f, (Z.of_nat a), (Z.of_nat b), (Z.of_nat c), (Z.of_nat d).
    do 2 (split; [assumption|]). split; [intros ->; apply Nab; exists f; auto|]. do 4 (split; [assumption|]). lia.
  - intros (e & f & x & y & z & w & He & Hf & Nef & Hx & Hy & Hz & Hw & O).
    destruct (z_lift e x He Hx) as [a [-> Ba]], (z_lift f y Hf Hy) as [b [-> Bb]], (z_lift e z He Hz) as [c [-> Bc]], (z_lift f w Hf Hw) as [d [-> Bd]].
    exists a, b, c, d. rewrite (isperm_length n v Hv). do 4 (split; [lia|]). rewrite !Tg by lia.
    split; [exists e; auto|]. split; [exists f; auto|]. intros [g [Gg [Ga Gb]]]. apply Nef.
    rewrite (NoDup_concat_in zs e g _ (proj1 Hg) He Gg Hx Ga). symmetry. exact (NoDup_concat_in zs f g _ (proj1 Hg) Hf Gg Hy Gb).
Qed.
End Comps.

(** components(): the blocks in increasing order of their least elements, each
    ascending, together a partition of 0..n-1; two points are in one block iff
    the permutation of the partition moves one to the other; no blocks cross. *)
Theorem C38_components n p : noncrossing n p ->
  exists w cs, to_permutation p = Ok w /\ components p = Ok cs /\
    Permutation (concat cs) (seq 0 n) /\ Forall (fun c => c <> []) cs /\ Forall (StronglySorted lt) cs /\
    StronglySorted (fun c d => hd 0 c < hd 0 d) cs /\
    (forall x y, x < n -> (same_orbit w x y <-> together cs x y)) /\
    ~ crossed (map (map Z.of_nat) cs) /\
    from_components n (map (map Z.of_nat) cs) = Ok p.
Proof.
  intros Hp. destruct (noncrossing_ex n p Hp) as [w [Hw ->]]. pose proof Hw as [Pw Nw].
  destruct (components_ok n w Hw) as [cs [E [Hb [HP [Hne Hs]]]]]. pose proof Hb as [F [ND [B _]]].
  pose proof (good_nat n cs ND B) as Hg.
  assert (Ez : zcs (map (map Z.of_nat) cs) = cs).
  { rewrite zcs_nat. rewrite <- (map_id cs) at 2. apply map_ext_in. intros c Hc. apply sorted_id.
    rewrite Forall_forall in F. now apply F. }
  pose proof (blocks_linked n w cs Hw Hb) as L.
  exists w, cs. split; [now apply to_permutation_ok|]. split; [exact E|]. split; [exact HP|].
  split; [now apply Forall_forall|]. split; [exact F|]. split; [exact Hs|].
  split.
  { intros x y Hx. rewrite (linked_so n w cs Pw ND B L x y Hx). unfold together. split; [|tauto]. intros [<-|H]; [|exact H].
    assert (I : In x (concat cs)) by (apply (Permutation_in _ (Permutation_sym HP)), in_seq; lia).
    apply in_concat in I. destruct I as [c [Hc Hxc]]. exists c. auto. }
  split.
  { rewrite <- (linked_crossing n _ Hg w Pw) by (rewrite Ez; exact L). now apply (NC_spec n w Pw). }
  apply from_components_blocks; [exact Hw|exact Hg|]. now rewrite Ez.
Qed.

(** from_components accepts exactly separate, uncrossed sets of points; points
    not mentioned become singletons. *)
Theorem C38_from_components n zs : separate n zs -> ~ crossed zs ->
  exists p w, from_components n zs = Ok p /\ noncrossing n p /\ to_permutation p = Ok w /\
    forall x y, x < n -> (same_orbit w x y <-> x = y \/ together zs (Z.of_nat x) (Z.of_nat y)).
Proof.
  rewrite separate_good. intros Hg Hc. destruct (from_components_ok n zs Hg) as [v [Hv [L K]]].
  assert (Nv : NC n v).
  { apply NC_spec; [exact Hv|]. split; [now apply (linked_descends n zs Hg)|]. rewrite (linked_crossing n zs Hg v Hv L). exact Hc. }
  destruct K as [[_ K]|[K _]]; [|contradiction]. exists (NPar n (inv_of n v)), v. split; [exact K|].
  split; [apply noncrossing_inv_of; now split|]. split; [now apply to_permutation_ok|].
  intros x y Hx. rewrite <- (zcs_together n zs Hg). rewrite (linked_so n v _ Hv (zcs_NoDup n zs Hg) (zcs_lt n zs Hg) L x y Hx). reflexivity.
Qed.
Theorem C38_from_components_rejects n zs : ~ separate n zs \/ crossed zs -> from_components n zs = Err ValueError.
Proof.
  rewrite separate_good. intros [H|Hc]; [now apply from_components_bad|].
  assert (D : good n zs \/ ~ good n zs).
  { unfold good. destruct (ListDec.NoDup_dec Z.eq_dec (concat zs)) as [A|A]; [|right; tauto].
    destruct (Forall_Exists_dec (fun x => 0 <= x < Z.of_nat n)%Z) with (l := concat zs) as [F|F].
    { intros x. destruct (Z_le_dec 0 x); [destruct (Z_lt_dec x (Z.of_nat n)); [left|right]|right]; lia. }
    - left. split; [exact A|]. now apply Forall_forall.
    - right. intros [_ B]. apply Exists_exists in F. destruct F as [x [Hx Nx]]. apply Nx. now apply B. }
  destruct D as [Hg|Hg]; [|now apply from_components_bad].
  destruct (from_components_ok n zs Hg) as [v [Hv [L K]]]. destruct K as [[K _]|[_ K]]; [|exact K].
  exfalso. apply NC_spec in K; [|exact Hv]. apply (proj2 K). now apply (linked_crossing n zs Hg v Hv L).
Qed.
(** the partition is determined by its permutation, and its permutation by the blocks *)
Theorem C38_permutation n p : noncrossing n p ->
  exists w, to_permutation p = Ok w /\ is_perm_word n w /\ descends w /\ ~ crossing w /\ from_permutation w = Ok p.
Proof.
  intros Hp. destruct (noncrossing_ex n p Hp) as [w [Hw ->]]. pose proof Hw as [Pw Nw]. exists w.
  split; [now apply to_permutation_ok|]. split; [exact Pw|]. pose proof (proj1 (NC_spec n w Pw) Nw) as [A B].
  split; [exact A|]. split; [exact B|]. destruct (from_permutation_ok n w Pw) as [[_ K]|[K _]]; [exact K|contradiction].
Qed.
Theorem C38_from_permutation n w : is_perm_word n w -> descends w -> ~ crossing w ->
  exists p, from_permutation w = Ok p /\ noncrossing n p /\ to_permutation p = Ok w.
Proof.
  intros Pw A B. assert (Nw : NC n w) by now apply (NC_spec n w Pw).
  exists (NPar n (inv_of n w)). destruct (from_permutation_ok n w Pw) as [[_ K]|[K _]]; [|contradiction].
  split; [exact K|]. split; [apply noncrossing_inv_of; now split|now apply to_permutation_ok].
Qed.
Theorem C38_from_permutation_rejects n w : is_perm_word n w -> ~ (descends w /\ ~ crossing w) -> from_permutation w = Err ValueError.
Proof.
  intros Pw H. destruct (from_permutation_ok n w Pw) as [[K _]|[_ K]]; [|exact K]. exfalso. apply H. exact (proj1 (NC_spec n w Pw) K).
Qed.
(** all_of_size lists every noncrossing partition once; there are catalan(n),
    and (n+1) catalan(n) = comb(2n, n). *)
Theorem C38_all_of_size n : exists l, all_of_size n = Ok l /\ NoDup l /\ (forall p, In p l <-> noncrossing n p) /\
  length l = catalan n /\ (n + 1) * catalan n = comb (2 * n) n.
Proof.
  exists (NE n). split; [apply all_of_size_ok|]. split; [apply NE_NoDup|]. split.
  - intros p. rewrite NE_in. split.
    + intros [w [Hw ->]]. now apply noncrossing_inv_of.
    + apply noncrossing_ex.
  - split; [apply NE_length|]. unfold catalan. pose proof (dyck_catalan n) as D. rewrite <- D. rewrite Nat.div_mul by lia. lia.
Qed.
(** refuted: the constructor does not check its arguments (the method is called
    [__post__init__]): any size and any sequence are accepted. *)
Theorem C38_constructor_unchecked_refuted : ~ (forall n inv p, mk_npar n inv = Ok p -> length inv = Z.to_nat (2 * n) /\ crossinglessZ inv).
Proof. intros H. destruct (H 3%Z [0%Z] _ eq_refl) as [A _]. discriminate. Qed.

Example C38_witness : exists p cs, from_components 5 [[3%Z; 1%Z]; [4%Z; 0%Z]] = Ok p /\ noncrossing 5 p /\
  components p = Ok cs /\ cs = [[0; 4]; [1; 3]; [2]] /\
  from_components 5 [[0%Z; 2%Z]; [1%Z; 3%Z]] = Err ValueError /\
  from_components 5 [[0%Z; 2%Z]; [2%Z; 3%Z]] = Err ValueError /\ from_components 5 [[5%Z]] = Err ValueError.
Proof.
  eexists _, _. split; [vm_compute; reflexivity|]. split; [|repeat split; vm_compute; reflexivity].
  assert (I : In (NPar 5 [9; 8; 7; 6; 5; 4; 3; 2; 1; 0]) (NE 5)) by (vm_compute; tauto).
  apply NE_in in I. destruct I as [w [Hw E]]. rewrite E. now apply noncrossing_inv_of.
Qed.

(** ** C39 *)
Theorem C39_triangle n r s t : r < s -> s < t -> t < n ->
  exists ats atr asr,
    ats = expand (bkl_gen_to_artin_word s t) /\ atr = expand (bkl_gen_to_artin_word r t) /\ asr = expand (bkl_gen_to_artin_word r s) /\
    braid_eq n (ats ++ asr) (atr ++ ats) /\ braid_eq n (atr ++ ats) (asr ++ atr) /\ braid_eq n (ats ++ asr) (asr ++ atr).
Proof.
  intros H1 H2 H3. do 3 eexists. do 3 (split; [reflexivity|]). rewrite !bkl_gen_aw by lia.
  pose proof (tri1 n r s t H1 H2 H3) as A. pose proof (tri2 n r s t H1 H2 H3) as B. split; [exact A|]. split.
  - eapply be_trans; [apply be_sym; exact A|]. now apply be_sym.
  - now apply be_sym.
Qed.
Theorem C39_commute n s t u v : s < t -> u < v -> t < n -> v < n ->
  ~ (s <= u /\ u <= t /\ t <= v) -> ~ (u <= s /\ s <= v /\ v <= t) ->
  braid_eq n (expand (bkl_gen_to_artin_word s t) ++ expand (bkl_gen_to_artin_word u v))
             (expand (bkl_gen_to_artin_word u v) ++ expand (bkl_gen_to_artin_word s t)).
Proof.
  intros H1 H2 H3 H4 A B. rewrite !bkl_gen_aw by lia.
  assert (C : t < u \/ v < s \/ s < u /\ v < t \/ u < s /\ t < v) by lia.
  exact (aw_comm n s t u v H1 H3 H2 H4 C).
Qed.
(** the arguments are unordered, and a generator with equal indices is the empty word *)
Theorem C39_symmetric s t : bkl_gen_to_artin_word s t = bkl_gen_to_artin_word t s /\ bkl_gen_to_artin_word s s = [].
Proof.
  unfold bkl_gen_to_artin_word. rewrite Nat.eqb_refl. split; [|reflexivity]. rewrite (Nat.eqb_sym t s).
  destruct (Nat.eqb_spec s t) as [|N]; [reflexivity|].
  destruct (Nat.ltb_spec t s), (Nat.ltb_spec s t); try reflexivity; lia.
Qed.
Theorem C39_adjacent i : bkl_gen_to_artin_word i (i + 1) = [(Z.of_nat i, 1%Z)].
Proof.
  unfold bkl_gen_to_artin_word. destruct (Nat.eqb_spec i (i + 1)); [lia|]. destruct (Nat.ltb_spec (i + 1) i); [lia|].
  rewrite !Nat.sub_diag. replace (i + 1 - 1 - i) with 0 by lia. reflexivity.
Qed.

(** ** the braid of a noncrossing partition *)
Lemma SS_lt_unique : forall l m : list nat, StronglySorted lt l -> StronglySorted lt m -> (forall x, In x l <-> In x m) -> l = m.
Proof.
  induction l as [|x l IH]; intros [|y m] Sl Sm H; [reflexivity| | |].
  - exfalso. apply (H y). now left.
  - exfalso. apply (H x). now left.
  - inversion Sl as [|? ? Sl' Fl]; inversion Sm as [|? ? Sm' Fm]; subst. rewrite Forall_forall in Fl, Fm.
    assert (x = y).
    { assert (A : In x (y :: m)) by (apply H; now left). assert (B : In y (x :: l)) by (apply H; now left).
      destruct A as [->|A]; [reflexivity|]. destruct B as [->|B]; [reflexivity|]. pose proof (Fm x A). pose proof (Fl y B). lia. }
    subst y. f_equal. apply IH; [exact Sl'|exact Sm'|]. intros z. specialize (H z). cbn in H.
    split; intros Hz.
    + destruct (proj1 H (or_intror Hz)) as [<-|]; [|assumption]. pose proof (Fl x Hz). lia.
    + destruct (proj2 H (or_intror Hz)) as [<-|]; [|assumption]. pose proof (Fm x Hz). lia.
Qed.
Lemma seq_SS m : forall k, StronglySorted lt (seq k m).
Proof.
  induction m as [|m IH]; intros k; cbn; [constructor|]. constructor; [apply IH|]. apply Forall_forall. intros x Hx. apply in_seq in Hx. lia.
Qed.
Lemma components_coarsest n : 0 < n -> components (coarsest n) = Ok [seq 0 n].
Proof.
  intros n1. rewrite coarsest_ok. destruct (components_ok n (cox n) (Q_cox n)) as [cs [E [[F [ND [B H]]] [HP [Hne _]]]]]. rewrite E. f_equal.
  assert (All : forall c x y, In c cs -> In x c -> y < n -> In y c).
  { intros c x y Hc Hx Hy. assert (Bx : x < n) by (apply B, in_concat; eauto).
    assert (T : x = y \/ exists d, In d cs /\ In x d /\ In y d).
    { destruct (lt_eq_lt_dec x y) as [[L| ->]|L]; [right|now left|right].
      - destruct (proj1 (H x y L) (cox_ed n x y L Hy)) as [d D]. eauto.
      - destruct (proj1 (H y x L) (cox_ed n y x L Bx)) as [d [D1 [D2 D3]]]. eauto. }
    destruct T as [<-|[d [Hd [Hx' Hy']]]]; [exact Hx|]. now rewrite (NoDup_concat_in cs c d x ND Hc Hd Hx Hx'). }
  rewrite Forall_forall in F.
  assert (Sq : forall c, In c cs -> c = seq 0 n).
  { intros c Hc. apply SS_lt_unique; [now apply F|apply seq_SS|]. intros x. rewrite in_seq. split.
    - intros Hx. assert (I : In x (concat cs)) by (apply in_concat; eauto). apply B in I. lia.
    - intros Hx. destruct c as [|y c0] eqn:Ec; [exfalso; now apply (Hne [] Hc)|]. apply (All (y :: c0) y x Hc); [now left|lia]. }
  destruct cs as [|c [|d cs]].
  - cbn in HP. apply Permutation_nil in HP. destruct n; [lia|discriminate].
  - rewrite (Sq c) by now left. reflexivity.
  - exfalso. pose proof (Sq c (or_introl eq_refl)). pose proof (Sq d (or_intror (or_introl eq_refl))). subst c d.
    cbn [concat] in ND. destruct n; [lia|]. cbn in ND. inversion ND as [|? ? A _]; subst. apply A, in_or_app. right. now left.
Qed.
Theorem C39_coarsest_word n : npar_artin_word (coarsest n) = Ok (map (fun i => (Z.of_nat i, 1%Z)) (rev (seq 0 (n - 1)))).
Proof.
  destruct (Nat.eq_dec n 0) as [->|N]; [reflexivity|]. unfold npar_artin_word. rewrite components_coarsest by lia. cbn [bind mapM].
  unfold npar_component_to_artin_word. rewrite sorted_id by apply seq_SS.
  replace (no_repeat (seq 0 n)) with true by (symmetry; apply no_repeat_ok, seq_NoDup). cbn [assert_ bind]. rewrite seq_length.
  rewrite (mapM_ok _ (fun i => [(Z.of_nat i, 1%Z)])).
  2:{ intros i Hi. apply in_rev, in_seq in Hi. rewrite !(get_ok (seq 0 n) _ 0) by (rewrite seq_length; lia). cbn [bind].
      rewrite !seq_nth by lia. cbn [Nat.add]. f_equal. apply C39_adjacent. }
  cbn [bind concat]. rewrite app_nil_r. f_equal. induction (rev (seq 0 (n - 1))) as [|i l IH]; [reflexivity|]. cbn. now rewrite IH.
Qed.
(** Every chord inside a block splits off on the left: if s and t are in one
    block of p, then perm(p) = (s t) perm(q) for a noncrossing partition q and the
    braid of p is a_st times the braid of q.  In particular the braid does not
    depend on the order in which chords are taken off. *)
Theorem C39_split n p s t w : noncrossing n p -> to_permutation p = Ok w -> s < t -> same_orbit w s t -> t < n ->
  exists q v e wp wq, noncrossing n q /\ to_permutation q = Ok v /\ transposition n s t = Ok e /\ ModelPerm.compose e v = Ok w /\
    npar_artin_word p = Ok wp /\ npar_artin_word q = Ok wq /\
    braid_eq n (expand wp) (expand (bkl_gen_to_artin_word s t) ++ expand wq).
Proof.
  intros Hp Ew L So Bt. destruct (noncrossing_ex n p Hp) as [w' [Hw ->]]. pose proof Hw as [Pw _].
  rewrite to_permutation_ok in Ew by exact Pw. injection Ew as <-.
  assert (Hed : ed n w' s t) by (apply sm_ed; [exact L|]; apply (sm_so n w' s t Hw); [lia|exact So]).
  pose proof (NC_split n w' s t Hw Hed) as Hv. set (v := pcomp (ptrans n s t) w') in *.
  destruct (npar_artin_word_ok n w' Hw) as (wp & l & Ep & Fl & Xl & _). destruct (npar_artin_word_ok n v Hv) as (wq & m & Eq & Fm & Xm & _).
  exists (NPar n (inv_of n v)), v, (ptrans n s t), wp, wq. split; [now apply noncrossing_inv_of|].
  split; [apply to_permutation_ok, Hv|]. split; [apply transposition_ok; lia|]. split.
  - rewrite (PermTheory.compose_ok n) by first [apply Hv|apply isperm_ptrans; lia]. f_equal. unfold v.
    rewrite <- (pcomp_assoc n) by first [exact Pw|apply isperm_ptrans; lia]. rewrite ptrans_invol by lia. now apply (pcomp_id_l n).
  - split; [exact Ep|]. split; [exact Eq|]. rewrite Xl, Xm, bkl_gen_aw by exact L.
    apply (fac_coherent n w' l ((s, t) :: m) Fl). constructor; assumption.
Qed.
(** the finest partition is the trivial braid, and a two-point block is its generator *)
Theorem C39_atoms n : npar_artin_word (finest n) = Ok [] /\
  forall s t, s < t -> t < n -> exists p w, from_components n [[Z.of_nat s; Z.of_nat t]] = Ok p /\ noncrossing n p /\
    npar_artin_word p = Ok w /\ braid_eq n (expand w) (expand (bkl_gen_to_artin_word s t)).
Proof.
  split.
  - rewrite finest_ok. destruct (npar_artin_word_ok n (identity n) (Q_id n)) as (ws & l & E & Fl & Xl & _ & Ab). rewrite E. f_equal.
    inversion Fl; subst.
    + destruct ws as [|[i k] ws]; [reflexivity|]. exfalso. inversion Ab; subst. cbn in *.
      assert (K : k = 1%Z \/ k = (-1)%Z) by lia. destruct K as [-> | ->]; cbn in Xl; discriminate.
    + exfalso. match goal with K : ed n (identity n) _ _ |- _ => eapply id_no_edge; exact K end.
  - intros s t L B. destruct (Q_ptrans n s t L B) as [Hq _]. destruct (npar_artin_word_ok n _ Hq) as (ws & l & E & Fl & Xl & _).
    exists (NPar n (inv_of n (ptrans n s t))), ws. split; [now apply from_components_edge|]. split; [now apply noncrossing_inv_of|].
    split; [exact E|]. rewrite Xl, bkl_gen_aw by exact L. rewrite <- (app_nil_r (aw s t)).
    apply (fac_coherent n _ l [(s, t)] Fl). now apply fac_one.
Qed.
