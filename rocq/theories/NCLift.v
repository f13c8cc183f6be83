(** NCLift.v – noncrossing partitions as braids: every way of splitting a
    partition edge by edge gives the same braid, and the germ of noncrossing
    partitions acts accordingly. *)
From Verif Require Import Base ModelPerm PermTheory SpecBraid BraidTheory NCTheory Germ GermNF GermAct GermBraid NCGerm BKL.
From Coq Require Import Permutation Setoid Morphisms.

Section NCLift.
Variable n : nat.
Notation P := (isperm n).
Notation Q := (NCTheory.Q n).
Notation ed := (NCTheory.ed n).
Notation sub := (NCTheory.sub n).
Notation tr a b := (ptrans n a b).
Notation "u ** v" := (pcomp u v) (at level 40, left associativity).
Notation "u ~ v" := (braid_eq n u v) (at level 70).
Notation nval := (nval n).
Notation NG := (NG n).
Notation nat2 := (nat2 n).

(** a way of splitting w into single points *)
Inductive fac : list nat -> list (nat * nat) -> Prop :=
| fac_nil : fac (identity n) []
| fac_cons w a b l : Q w -> ed w a b -> fac (tr a b ** w) l -> fac w ((a, b) :: l).
Definition lw (l : list (nat * nat)) : bword := flat_map (fun p => aw (fst p) (snd p)) l.

Lemma fac_Q w l : fac w l -> Q w.
Proof. destruct 1; [apply Q_id|assumption]. Qed.
Lemma fac_ex w : Q w -> exists l, fac w l.
Proof.
  revert w. apply (NC_ind n (fun w => exists l, fac w l)); [exists []; constructor|].
  intros w a b Hw Hed [l Hl]. exists ((a, b) :: l). now constructor.
Qed.
Lemma fac_len w l : fac w l -> length l = exc n w.
Proof.
  induction 1 as [|w a b l Hw Hed Hf IH]; [|cbn; rewrite IH; symmetry; apply exc_split; [apply Hw|exact Hed]].
  unfold exc, cnt. cbn [length]. symmetry. apply length_zero_iff_nil. 
  destruct (filter (fun i => ap (identity n) i <? i) (seq 0 n)) as [|x l] eqn:F; [reflexivity|].
  assert (K : In x (x :: l)) by now left. rewrite <- F in K. apply filter_In in K. destruct K as [K1 K2].
  apply in_seq in K1. rewrite app_id in K2 by lia. apply Nat.ltb_lt in K2. lia.
Qed.
Lemma lw_range w l : fac w l -> in_range n (lw l).
Proof.
  induction 1 as [|w a b l Hw Hed Hf IH]; [constructor|]. cbn [lw flat_map fst snd].
  apply in_range_app. split; [|exact IH]. destruct Hed as [L [B _]]. now apply aw_range.
Qed.

(** transposition identities *)
Lemma tr_comm a b p q : a < n -> b < n -> p < n -> q < n -> a <> p -> a <> q -> b <> p -> b <> q ->
  tr p q ** tr a b = tr a b ** tr p q.
Proof.
  intros. apply (isperm_ext n); auto using isperm_pcomp, isperm_ptrans. intros i Hi.
  rewrite !(app_pcomp n) by auto using isperm_ptrans. rewrite !(app_ptrans n _ _ i) by auto.
  repeat match goal with |- context[i =? ?y] => destruct (Nat.eqb_spec i y) end;
    rewrite !(app_ptrans n) by auto; repeat match goal with |- context[?x =? ?y] => destruct (Nat.eqb_spec x y) end; lia.
Qed.
Lemma tr_3 r p q : r < n -> p < n -> q < n -> r <> p -> p <> q -> r <> q ->
  tr p q ** tr r p = tr r q ** tr p q.
Proof.
  intros. apply (isperm_ext n); auto using isperm_pcomp, isperm_ptrans. intros i Hi.
  rewrite !(app_pcomp n) by auto using isperm_ptrans. rewrite !(app_ptrans n _ _ i) by auto.
  repeat match goal with |- context[i =? ?y] => destruct (Nat.eqb_spec i y) end;
    rewrite !(app_ptrans n) by auto; repeat match goal with |- context[?x =? ?y] => destruct (Nat.eqb_spec x y) end; lia.
Qed.
Lemma tr_sym a b : a < n -> b < n -> tr a b = tr b a.
Proof.
  intros. apply (isperm_ext n); auto using isperm_ptrans. intros i Hi. rewrite !(app_ptrans n) by auto.
  destruct (Nat.eqb_spec i a), (Nat.eqb_spec i b); lia.
Qed.
Lemma tr_3' r p q : r < n -> p < n -> q < n -> r <> p -> p <> q -> r <> q ->
  tr r p ** tr r q = tr p q ** tr r p.
Proof.
  intros. rewrite (tr_sym r q) by assumption. rewrite (tr_3 q r p) by lia.
  rewrite (tr_sym q p) by assumption. reflexivity.
Qed.

(** comparing two first steps *)
Definition same_from (w : list nat) (e f : nat * nat) : Prop := forall l m,
  fac (tr (fst e) (snd e) ** w) l -> fac (tr (fst f) (snd f) ** w) m ->
  aw (fst e) (snd e) ++ lw l ~ aw (fst f) (snd f) ++ lw m.
Lemma same_sym w e f : same_from w e f -> same_from w f e.
Proof. intros H l m Hl Hm. symmetry. now apply H. Qed.
Lemma same_trans w e f g : Q w -> ed w (fst f) (snd f) -> same_from w e f -> same_from w f g -> same_from w e g.
Proof.
  intros Hw Hf H K l m Hl Hm. destruct (fac_ex (tr (fst f) (snd f) ** w)) as [x Hx]; [now apply NC_split|].
  rewrite (H l x), (K x m) by assumption. reflexivity.
Qed.

Definition coherent (k : nat) : Prop := forall w l m, exc n w = k -> fac w l -> fac w m -> lw l ~ lw m.

Section Step.
Variable k : nat.
Hypothesis IH : coherent k.
Variable w : list nat.
Hypothesis Hw : Q w.
Hypothesis Ek : exc n w = S k.

Lemma step e1 e2 f1 f2 : ed w (fst e1) (snd e1) -> ed w (fst e2) (snd e2) ->
  side (fst e1) (snd e1) (fst f1) (snd f1) -> side (fst e2) (snd e2) (fst f2) (snd f2) ->
  ed w (fst f1) (snd f1) -> ed w (fst f2) (snd f2) ->
  tr (fst f1) (snd f1) ** tr (fst e1) (snd e1) = tr (fst f2) (snd f2) ** tr (fst e2) (snd e2) ->
  aw (fst e1) (snd e1) ++ aw (fst f1) (snd f1) ~ aw (fst e2) (snd e2) ++ aw (fst f2) (snd f2) ->
  same_from w e1 e2.
Proof.
  destruct e1 as [a b], e2 as [c d], f1 as [p q], f2 as [r s]. cbn [fst snd].
  intros H1 H2 S1 S2 F1 F2 E W l m Hl Hm. cbn [fst snd] in *.
  pose proof Hw as [Pw _]. pose proof H1 as [? [? _]]. pose proof H2 as [? [? _]].
  pose proof F1 as [? [? _]]. pose proof F2 as [? [? _]].
  assert (G1 : ed (tr a b ** w) p q) by (apply split_ed; auto).
  assert (G2 : ed (tr c d ** w) r s) by (apply split_ed; auto).
  assert (EQ : tr p q ** (tr a b ** w) = tr r s ** (tr c d ** w)).
  { rewrite <- !(pcomp_assoc n) by (auto using isperm_ptrans || (apply isperm_ptrans; lia)). now rewrite E. }
  destruct (fac_ex (tr p q ** (tr a b ** w))) as [x Hx]; [now apply NC_split; [apply NC_split|]|].
  assert (A : lw l ~ lw ((p, q) :: x)).
  { apply (IH (tr a b ** w)); [|exact Hl|constructor; auto using NC_split].
    rewrite (exc_split n w a b) in Ek by assumption. now injection Ek. }
  assert (B : lw m ~ lw ((r, s) :: x)).
  { apply (IH (tr c d ** w)); [|exact Hm|constructor; auto using NC_split; now rewrite <- EQ].
    rewrite (exc_split n w c d) in Ek by assumption. now injection Ek. }
  rewrite A, B. cbn [lw flat_map fst snd]. rewrite !app_assoc. rewrite W. reflexivity.
Qed.

Lemma step_disj a b p q : ed w a b -> ed w p q -> b < p \/ q < a \/ (a < p /\ q < b) \/ (p < a /\ b < q) ->
  same_from w (a, b) (p, q).
Proof.
  intros H1 H2 D. pose proof H1 as [? [? _]]. pose proof H2 as [? [? _]].
  apply (step (a, b) (p, q) (p, q) (a, b)); cbn [fst snd]; auto.
  - unfold side. lia.
  - unfold side. lia.
  - apply tr_comm; lia.
  - apply aw_comm; auto.
Qed.
(** three points of one block *)
Lemma step_tri r p q : ed w r p -> ed w p q -> same_from w (p, q) (r, q) /\ same_from w (r, p) (p, q).
Proof.
  intros H1 H2. pose proof H1 as [? [? _]]. pose proof H2 as [? [? _]]. pose proof (ed_chain n w r p q H1 H2) as Hc.
  split.
  - apply (step (p, q) (r, q) (r, p) (p, q)); cbn [fst snd]; auto.
    + unfold side. lia.
    + unfold side. lia.
    + rewrite (tr_sym p q) by lia. symmetry. apply tr_3; lia.
    + apply tri1; lia.
  - apply (step (r, p) (p, q) (r, q) (r, p)); cbn [fst snd]; auto.
    + unfold side. lia.
    + unfold side. lia.
    + rewrite (tr_sym r p), (tr_sym p q), (tr_sym r q) by lia. symmetry. apply tr_3; lia.
    + apply tri2; lia.
Qed.
Lemma step_all a b p q : ed w a b -> ed w p q -> (a, b) <> (p, q) -> same_from w (a, b) (p, q).
Proof.
  assert (K : forall a b p q, ed w a b -> ed w p q -> (a, b) <> (p, q) -> a <= p -> same_from w (a, b) (p, q)).
  { clear a b p q. intros a b p q H1 H2 N Lap. pose proof H1 as [L1 [B1 _]]. pose proof H2 as [L2 [B2 _]].
    assert (a = p \/ a < p) as [->|L] by lia.
    - assert (b < q \/ q < b) as [Lb|Lb] by (destruct (Nat.eq_dec b q) as [->|]; [congruence|lia]).
      + pose proof (ed_right n w p b q Lb H2 H1) as H3. destruct (step_tri p b q H1 H3) as [T1 T2].
        apply (same_trans w _ (b, q)); assumption.
      + pose proof (ed_right n w p q b Lb H1 H2) as H3. destruct (step_tri p q b H2 H3) as [T1 T2].
        apply same_sym. apply (same_trans w _ (q, b)); assumption.
    - assert (b < p \/ b = p \/ p < b) as [C|[<-|C]] by lia.
      + apply step_disj; auto.
      + now apply step_tri.
      + assert (q < b \/ q = b \/ b < q) as [C'|[->|C']] by lia.
        * apply step_disj; auto.
        * pose proof (ed_left n w a p b L H1 H2) as H3. apply same_sym. now apply (step_tri a p b).
        * (* crossing: go through the edge from a to p *)
          destruct (straddle n w a b p q H1 H2) as [S _]; [unfold side; lia|].
          assert (H3 : ed w a p) by (apply sm_ed; [exact L|now apply sm_sym]).
          pose proof (ed_right n w a p b C H1 H3) as H4.
          apply (same_trans w _ (a, p)); auto.
          -- apply same_sym. apply (same_trans w _ (p, b)); auto; now apply (step_tri a p b).
          -- now apply (step_tri a p q). }
  intros H1 H2 N. destruct (le_lt_dec a p); [now apply K|]. apply same_sym. apply K; auto. lia.
Qed.
End Step.

Lemma coherent_all k : coherent k.
Proof.
  induction k as [|k IH]; intros w l m Ek Hl Hm.
  - apply fac_len in Hl. apply fac_len in Hm. rewrite Ek in *. destruct l, m; cbn in *; try lia. reflexivity.
  - pose proof (fac_len _ _ Hl) as Ll. pose proof (fac_len _ _ Hm) as Lm. rewrite Ek in *.
    inversion Hl as [|w1 a b l' Q1 D1 F1]; subst; [discriminate|]. inversion Hm as [|w2 p q m' Q2 D2 F2]; subst; [discriminate|].
    cbn [lw flat_map fst snd]. destruct (Nat.eq_dec a p) as [<-|N]; [destruct (Nat.eq_dec b q) as [<-|N]|].
    + fold (lw l') (lw m'). rewrite (IH (tr a b ** w) l' m'); [reflexivity| |exact F1|exact F2].
      rewrite (exc_split n w a b) in Ek; [now injection Ek|apply Q1|exact D1].
    + apply (step_all k IH w Q1 Ek a b a q D1 D2); [congruence|exact F1|exact F2].
    + apply (step_all k IH w Q1 Ek a b p q D1 D2); [congruence|exact F1|exact F2].
Qed.
(** all ways of splitting give the same braid *)
Theorem fac_coherent w l m : fac w l -> fac w m -> lw l ~ lw m.
Proof. apply (coherent_all (exc n w)). reflexivity. Qed.
Lemma fac_mul x l : fac x l -> forall y m, Q (x ** y) -> sub x (x ** y) -> fac y m -> fac (x ** y) (l ++ m).
Proof.
  induction 1 as [|x a b l Hx Hed Hf IH]; intros y m Hq Hs Hy.
  - rewrite (pcomp_id_l n) by apply (fac_Q _ _ Hy). exact Hy.
  - pose proof Hed as [? [? _]]. pose proof (fac_Q _ _ Hy) as [Py _]. pose proof Hx as [Px _].
    assert (EQ : tr a b ** (x ** y) = tr a b ** x ** y)
      by (symmetry; apply (pcomp_assoc n); auto; apply isperm_ptrans; lia).
    cbn [List.app]. constructor; [exact Hq|now apply Hs|]. rewrite EQ. apply IH; [| |exact Hy].
    + rewrite <- EQ. apply NC_split; [exact Hq|now apply Hs].
    + rewrite <- EQ. apply split_sub; auto. apply Hq.
Qed.
Lemma lw_app l m : lw (l ++ m) = lw l ++ lw m. Proof. apply flat_map_app. Qed.
Lemma fac_one a b : a < b -> b < n -> fac (tr a b) [(a, b)].
Proof.
  intros L B. destruct (Q_ptrans n a b L B) as [H K]. constructor; [exact H|exact K|].
  rewrite ptrans_invol by lia. constructor.
Qed.

(** ** the germ *)
Notation nred := (nred n).
Notation nmul := (nmul n).
Lemma pr_tr a b p q : a < b -> b < n -> p < n -> q < n -> side a b p q -> pr n (tr p q) a b.
Proof.
  intros L B Hp Hq S i Hi. rewrite (app_ptrans n) by auto. unfold side in *.
  destruct (Nat.eqb_spec i p), (Nat.eqb_spec i q); subst; lia.
Qed.
Lemma nat2_red a b p q : a < b -> b < n -> p < q -> q < n -> side a b p q -> nred (nat2 a b) (nat2 p q).
Proof.
  intros. unfold NCGerm.nred. rewrite !nval_nat2 by assumption.
  assert (K : pr n (tr p q) a b) by (apply pr_tr; auto; lia).
  destruct (Q_ptrans n p q) as [Qpq _]; auto. split; [now apply NC_merge|].
  intros u v M. apply ptrans_ed in M; auto. destruct M as [-> ->]. apply merge_ed; auto. apply Qpq.
Qed.
Lemma nat2_mul a b p q r s t u : a < b -> b < n -> p < q -> q < n -> side a b p q ->
  r < s -> s < n -> t < u -> u < n -> side r s t u -> tr a b ** tr p q = tr r s ** tr t u ->
  nmul (nat2 a b) (nat2 p q) = nmul (nat2 r s) (nat2 t u).
Proof.
  intros. apply nval_inj. rewrite !nval_mul by (apply nat2_red; auto). rewrite !nval_nat2 by assumption. assumption.
Qed.

Variable rn : NT n -> NT n -> NT n * NT n.
Hypothesis rn_ok : forall x y, rnspec NG x y (fst (rn x y)) (snd (rn x y)).
Notation act := (act NG rn (neqd n)).
Notation act_inv := (act_inv NG rn (neqd n)).
Notation ok := (ok NG (neqd n)).
Hypothesis n2 : 2 <= n.
Lemma nD_ne_one : nD n <> none n.
Proof.
  intros E. apply (f_equal nval) in E. rewrite nval_D, nval_one in E. apply (f_equal (fun w => ap w 0)) in E.
  rewrite ap_cox, app_id in E by lia. cbn in E. lia.
Qed.
Definition natom (i : nat) : NT n := nat2 i (i + 1).
Notation actw := (actw NG rn (neqd n) natom).

Lemma act_pair a b p q r s t u st : a < b -> b < n -> p < q -> q < n -> side a b p q ->
  r < s -> s < n -> t < u -> u < n -> side r s t u -> tr a b ** tr p q = tr r s ** tr t u ->
  act (nat2 a b) (act (nat2 p q) st) = act (nat2 r s) (act (nat2 t u) st).
Proof.
  intros. rewrite !(act_mul NG rn rn_ok (neqd n) nD_ne_one) by (apply nat2_red; auto). change (mul NG) with nmul.
  rewrite (nat2_mul a b p q r s t u) by auto. reflexivity.
Qed.
Lemma nact_far i j s : i + 2 <= j -> j + 1 < n -> ok s ->
  act (natom i) (act (natom j) s) = act (natom j) (act (natom i) s).
Proof.
  intros. unfold natom. apply act_pair; try lia; try (unfold side; lia). apply tr_comm; lia.
Qed.
Lemma nact_braid i s : i + 2 < n -> ok s ->
  act (natom i) (act (natom (i + 1)) (act (natom i) s)) =
  act (natom (i + 1)) (act (natom i) (act (natom (i + 1)) s)).
Proof.
  intros Hi Hs. unfold natom.
  assert (A : forall s, act (nat2 (i + 1) (i + 1 + 1)) (act (nat2 i (i + 1)) s) = act (nat2 i (i + 1 + 1)) (act (nat2 (i + 1) (i + 1 + 1)) s)).
  { intros s'. apply act_pair; try lia; try (unfold side; lia). apply tr_3; lia. }
  assert (B : forall s, act (nat2 i (i + 1)) (act (nat2 i (i + 1 + 1)) s) = act (nat2 (i + 1) (i + 1 + 1)) (act (nat2 i (i + 1)) s)).
  { intros s'. apply act_pair; try lia; try (unfold side; lia). apply tr_3'; lia. }
  rewrite A, B. reflexivity.
Qed.
Lemma nact_aw a b : a < b -> b < n -> forall s, ok s -> actw (aw a b) s = act (nat2 a b) s.
Proof.
  intros L. induction b as [|b IH]; [lia|]. intros B s Hs. assert (a = b \/ a < b) as [->|L'] by lia.
  - rewrite aw_1. cbn. unfold actletter, natom. cbn [fst snd]. now rewrite Nat.add_1_r.
  - rewrite aw_S by exact L'. rewrite !actw_app.
    assert (Hk : ok (act_inv (natom b) s)) by (apply act_inv_ok; auto).
    change (act (natom b) (actw (aw a b) (act_inv (natom b) s)) = act (nat2 a (S b)) s). rewrite IH by (auto; lia).
    transitivity (act (nat2 a (S b)) (act (natom b) (act_inv (natom b) s))).
    + unfold natom. rewrite Nat.add_1_r. apply act_pair; try lia; try (unfold side; lia). apply tr_3; lia.
    + now rewrite (act_act_inv NG rn rn_ok (neqd n) nD_ne_one).
Qed.
Lemma nact_fac w l : fac w l -> forall s, ok s -> actw (lw l) s = act (mkN n w) s.
Proof.
  induction 1 as [|w a b l Hw Hed Hf IH]; intros s Hs.
  - symmetry. now apply (act_one NG rn rn_ok (neqd n) nD_ne_one).
  - cbn [lw flat_map fst snd]. rewrite actw_app. fold (lw l). rewrite IH by exact Hs. pose proof Hed as [L [B _]].
    rewrite nact_aw by (auto using act_ok). pose proof (fac_Q _ _ Hf) as Hq. pose proof Hw as [Pw _].
    assert (R : nred (nat2 a b) (mkN n (tr a b ** w))).
    { unfold NCGerm.nred. rewrite nval_nat2, nval_mkN, tr_tr by (auto; lia). split; [exact Hw|].
      intros p q M. apply ptrans_ed in M; auto. now destruct M as [-> ->]. }
    rewrite (act_mul NG rn rn_ok (neqd n) nD_ne_one) by exact R. f_equal. apply nval_inj. cbn. rewrite nval_mul by exact R.
    rewrite nval_nat2, !nval_mkN, tr_tr by (auto; lia). reflexivity.
Qed.

(** ** conjugation by the cycle has order n *)
Lemma taupow_nat k x : taupow NG (Z.of_nat k) x = Nat.iter k (tau NG) x.
Proof.
  induction k as [|k IH]; [reflexivity|]. replace (Z.of_nat (S k)) with (Z.of_nat k + 1)%Z by lia.
  rewrite taupow_succ, IH. reflexivity.
Qed.
Lemma ntaupow_n x : taupow NG (Z.of_nat n) x = x.
Proof. rewrite taupow_nat. apply nval_inj. rewrite tau_iter. apply conj_n, nval_P. Qed.
Lemma ntaupow_mod k x : 1 <= n -> taupow NG k x = taupow NG (k mod Z.of_nat n) x.
Proof.
  intros H1. assert (K : forall q y, taupow NG (Z.of_nat n * q) y = y).
  { intros q. pattern q. apply BraidTheory.Zind2; [intros; now rewrite Z.mul_0_r| |].
    - intros m IH y. rewrite Z.mul_add_distr_l, Z.mul_1_r, taupow_add, ntaupow_n. apply IH.
    - intros m IH y. specialize (IH (taupow NG (- Z.of_nat n) y)). rewrite <- taupow_add in IH.
      replace (Z.of_nat n * (m - 1))%Z with (Z.of_nat n * m + - Z.of_nat n)%Z by lia. rewrite IH.
      rewrite <- (ntaupow_n (taupow NG (- Z.of_nat n) y)), <- taupow_add.
      replace (Z.of_nat n + - Z.of_nat n)%Z with 0%Z by lia. reflexivity. }
  rewrite (Z.div_mod k (Z.of_nat n)) at 1 by lia. now rewrite taupow_add, K.
Qed.
End NCLift.
