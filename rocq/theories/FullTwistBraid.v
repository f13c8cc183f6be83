(** FullTwistBraid.v – the square of the Garside element in Artin generators:
    Delta_n^2 = X_0 X_1 ... X_(n-2) with X_j = s_j ... s_(n-2) s_(n-2) ... s_j. *)
From Verif Require Import Base ModelPerm PermTheory SpecPerm SpecPermTheory WeakOrder SpecBraid BraidTheory PermWords PropsPerm.
From Coq Require Import Setoid Morphisms.
Local Open Scope nat_scope.

(** reversing words *)
Lemma be_rev n u v : braid_eq n u v -> braid_eq n (rev u) (rev v).
Proof.
  induction 1 as [u|u v _ IH|u v w _ IH1 _ IH2|u u' v v' _ IH1 _ IH2|i e Hi|i j H1 H2|i Hi].
  - apply be_refl.
  - now apply be_sym.
  - now apply be_trans with (rev v).
  - rewrite !rev_app_distr. now apply be_app.
  - cbn. pose proof (be_cancel n i (negb e) Hi) as K. now rewrite Bool.negb_involutive in K.
  - cbn. apply be_sym. now apply be_far.
  - cbn. now apply be_braid.
Qed.
(** shifting words *)
Definition shw (a : nat) (w : bword) : bword := map (fun l => (a + fst l, snd l)) w.
Lemma be_shift a n u v : braid_eq n u v -> braid_eq (a + n) (shw a u) (shw a v).
Proof.
  induction 1 as [u|u v _ IH|u v w _ IH1 _ IH2|u u' v v' _ IH1 _ IH2|i e Hi|i j H1 H2|i Hi].
  - apply be_refl.
  - now apply be_sym.
  - now apply be_trans with (shw a v).
  - unfold shw. rewrite !map_app. now apply be_app.
  - cbn. apply be_cancel. lia.
  - cbn. apply be_far; lia.
  - cbn. replace (a + (i + 1)) with (a + i + 1) by lia. apply be_braid. lia.
Qed.
Lemma pword_app u v : pword (u ++ v) = pword u ++ pword v. Proof. apply map_app. Qed.
Lemma pword_rev u : pword (rev u) = rev (pword u). Proof. apply map_rev. Qed.
Lemma shw_app a u v : shw a (u ++ v) = shw a u ++ shw a v. Proof. apply map_app. Qed.
Lemma shw_rev a u : shw a (rev u) = rev (shw a u). Proof. apply map_rev. Qed.
Lemma shw_shw a b u : shw a (shw b u) = shw (a + b) u.
Proof. unfold shw. rewrite map_map. apply map_ext. intros [i e]. cbn. f_equal. lia. Qed.
Lemma shw_seq a b k : shw a (pword (seq b k)) = pword (seq (a + b) k).
Proof. revert b. induction k as [|k IH]; intros b; [reflexivity|]. cbn. f_equal. replace (S (a + b)) with (a + S b) by lia. apply IH. Qed.
Lemma in_range_pseq n a k : a + k < n \/ k = 0 -> in_range n (pword (seq a k)).
Proof. intros H. apply Forall_forall. intros x Hx. apply in_map_iff in Hx. destruct Hx as [i [<- Hi]]. apply in_seq in Hi. cbn. lia. Qed.
Lemma in_range_rev n u : in_range n u -> in_range n (rev u).
Proof. intros H. apply Forall_forall. intros x Hx. apply in_rev in Hx. now apply (proj1 (Forall_forall _ _) H). Qed.

(** a letter far from all letters of a word commutes with it *)
Lemma far_comm n i u : i + 1 < n -> Forall (fun j => (i + 2 <= j /\ j + 1 < n) \/ j + 2 <= i) u -> braid_eq n ([(i, true)] ++ pword u) (pword u ++ [(i, true)]).
Proof.
  intros Hi. induction 1 as [|j u Hj _ IH]; [reflexivity|]. cbn [pword map]. fold (pword u). change ((j, true) :: pword u) with ([(j, true)] ++ pword u).
  assert (K : braid_eq n ([(i, true)] ++ [(j, true)]) ([(j, true)] ++ [(i, true)])).
  { cbn. destruct Hj as [[H1 H2]|H]; [now apply be_far|apply be_sym; apply be_far; lia]. }
  rewrite app_assoc, K, <- !app_assoc, IH. reflexivity.
Qed.
(** s_(i+1) (s_a ... s_(a+k-1)) = (s_a ... s_(a+k-1)) s_i for a <= i, i + 1 < a + k *)
Lemma up_comm n k : forall a i, a + k < n -> a <= i -> i + 1 < a + k -> braid_eq n ([(i + 1, true)] ++ pword (seq a k)) (pword (seq a k) ++ [(i, true)]).
Proof.
  induction k as [|k IH]; intros a i H1 H2 H3; [lia|]. cbn [seq pword map]. fold (pword (seq (S a) k)). change ((a, true) :: pword (seq (S a) k)) with ([(a, true)] ++ pword (seq (S a) k)).
  destruct (Nat.eq_dec i a) as [->|Ni].
  - destruct k as [|k]; [lia|]. cbn [seq pword map]. fold (pword (seq (S (S a)) k)). change ((S a, true) :: pword (seq (S (S a)) k)) with ([(S a, true)] ++ pword (seq (S (S a)) k)).
    replace (a + 1) with (S a) by lia. rewrite !app_assoc. pose proof (be_braid n a ltac:(lia)) as B. replace (a + 1) with (S a) in B by lia.
    cbn [List.app]. change ((S a, true) :: (a, true) :: (S a, true) :: pword (seq (S (S a)) k)) with ([(S a, true); (a, true); (S a, true)] ++ pword (seq (S (S a)) k)).
    rewrite <- B. change [(a, true); (S a, true); (a, true)] with ([(a, true); (S a, true)] ++ [(a, true)]). rewrite <- app_assoc.
    rewrite (far_comm n a (seq (S (S a)) k)); [reflexivity|lia|]. apply Forall_forall. intros j Hj. apply in_seq in Hj. lia.
  - rewrite app_assoc. assert (K : braid_eq n ([(i + 1, true)] ++ [(a, true)]) ([(a, true)] ++ [(i + 1, true)])) by (apply be_sym; apply be_far; lia).
    rewrite K, <- !app_assoc. rewrite (IH (S a) i) by lia. reflexivity.
Qed.
Definition Xw (a k : nat) : bword := pword (seq a k) ++ rev (pword (seq a k)).
Lemma Xw_S a k : Xw a (S k) = [(a, true)] ++ Xw (S a) k ++ [(a, true)].
Proof. unfold Xw. cbn [seq pword map rev]. fold (pword (seq (S a) k)). cbn [List.app]. f_equal. now rewrite <- app_assoc. Qed.
Lemma Xw_range n a k : a + k < n \/ k = 0 -> in_range n (Xw a k).
Proof. intros H. apply in_range_app. split; [|apply in_range_rev]; now apply in_range_pseq. Qed.
Lemma Xw_comm n k a i : a + k < n -> a < i -> i < a + k -> braid_eq n ([(i, true)] ++ Xw a k) (Xw a k ++ [(i, true)]).
Proof.
  intros H1 H2 H3. unfold Xw. pose proof (up_comm n k a (i - 1) H1 ltac:(lia) ltac:(lia)) as U. replace (i - 1 + 1) with i in U by lia.
  pose proof (be_rev _ _ _ U) as V. rewrite !rev_app_distr in V. cbn [rev List.app] in V. rewrite app_assoc, U, <- !app_assoc.
  change ([(i - 1, true)] ++ rev (pword (seq a k))) with ((i - 1, true) :: rev (pword (seq a k))). rewrite <- V. reflexivity.
Qed.
Lemma Xw_comm_word n k a w : a + k < n -> Forall (fun l => snd l = true /\ a < fst l /\ fst l < a + k) w -> braid_eq n (w ++ Xw a k) (Xw a k ++ w).
Proof.
  intros H. induction 1 as [|[i e] w (He & H1 & H2) _ IH]; [cbn; now rewrite app_nil_r|]. cbn in He. subst e. cbn [fst] in *.
  change ((i, true) :: w) with ([(i, true)] ++ w). rewrite <- app_assoc, IH, app_assoc, (Xw_comm n k a i) by lia. now rewrite app_assoc.
Qed.

(** the Garside element: s_a..s_(a+k-1) on the strands a, .., a+k *)
Fixpoint Dl (a k : nat) : list nat := match k with 0 => [] | S k' => Dl (S a) k' ++ seq a (S k') end.
Lemma Dl_range a k : Forall (fun i => a <= i < a + k) (Dl a k).
Proof.
  revert a. induction k as [|k IH]; intros a; [constructor|]. cbn [Dl]. apply Forall_app. split.
  - eapply Forall_impl; [|apply IH]. cbn. lia.
  - apply Forall_forall. intros i Hi. apply in_seq in Hi. lia.
Qed.
Lemma Dl_length a k : 2 * length (Dl a k) = k * (k + 1).
Proof. revert a. induction k as [|k IH]; intros a; [reflexivity|]. cbn [Dl]. rewrite app_length, seq_length. specialize (IH (S a)). nia. Qed.
Lemma Dl_shift b a k : shw b (pword (Dl a k)) = pword (Dl (b + a) k).
Proof. revert a. induction k as [|k IH]; intros a; [reflexivity|]. cbn [Dl]. rewrite !pword_app, shw_app, IH, shw_seq. replace (b + S a) with (S (b + a)) by lia. reflexivity. Qed.

Lemma prodw_seq n k : forall a x, a + k < n -> x < n -> ap (prodw n (seq a k)) x = if (a <=? x) && (x <? a + k) then x + 1 else if x =? a + k then a else x.
Proof.
  induction k as [|k IH]; intros a x H Hx.
  - cbn [seq prodw fold_right]. rewrite app_id by lia.
    destruct (Nat.leb_spec a x), (Nat.ltb_spec x (a + 0)), (Nat.eqb_spec x (a + 0)); cbn; lia.
  - cbn [seq prodw fold_right]. fold (prodw n (seq (S a) k)).
    assert (R : inr n (seq (S a) k)) by (apply Forall_forall; intros i Hi; apply in_seq in Hi; lia).
    rewrite (app_pcomp n) by (auto using prodw_perm, isperm_sg; try lia; try (apply isperm_sg; lia)). rewrite IH by lia.
    set (y := if (S a <=? x) && (x <? S a + k) then x + 1 else if x =? S a + k then S a else x).
    assert (Hy : y < n) by (unfold y; destruct (Nat.leb_spec (S a) x), (Nat.ltb_spec x (S a + k)), (Nat.eqb_spec x (S a + k)); cbn; lia).
    rewrite app_sg by lia. unfold y. clear IH R Hy y.
    destruct (Nat.leb_spec (S a) x), (Nat.ltb_spec x (S a + k)), (Nat.eqb_spec x (S a + k)), (Nat.leb_spec a x), (Nat.ltb_spec x (a + S k)), (Nat.eqb_spec x (a + S k)); cbn [andb]; try lia;
    repeat match goal with |- context [?u =? ?v] => destruct (Nat.eqb_spec u v) end; lia.
Qed.
Lemma inr_le n a k l : a + k < n -> Forall (fun i => a <= i < a + k) l -> inr n l.
Proof. intros H F. eapply Forall_impl; [|exact F]. cbn. lia. Qed.
Lemma prodw_Dl n k : forall a x, a + k < n -> x < n -> ap (prodw n (Dl a k)) x = if (a <=? x) && (x <=? a + k) then 2 * a + k - x else x.
Proof.
  induction k as [|k IH]; intros a x H Hx.
  - cbn [Dl prodw fold_right]. rewrite app_id by lia. destruct (Nat.leb_spec a x), (Nat.leb_spec x (a + 0)); cbn; lia.
  - cbn [Dl]. assert (R1 : inr n (Dl (S a) k)) by (apply (inr_le n (S a) k); [lia|apply Dl_range]).
    assert (R2 : inr n (seq a (S k))) by (apply Forall_forall; intros i Hi; apply in_seq in Hi; lia).
    rewrite prodw_app by auto. rewrite (app_pcomp n) by (auto using prodw_perm). rewrite (prodw_seq n (S k) a x H Hx).
    set (y := if (a <=? x) && (x <? a + S k) then x + 1 else if x =? a + S k then a else x).
    assert (Hy : y < n) by (unfold y; destruct (Nat.leb_spec a x), (Nat.ltb_spec x (a + S k)), (Nat.eqb_spec x (a + S k)); cbn; lia).
    rewrite IH by lia. unfold y. clear IH R1 R2 Hy y.
    destruct (Nat.leb_spec a x), (Nat.ltb_spec x (a + S k)), (Nat.eqb_spec x (a + S k)), (Nat.leb_spec x (a + S k)); cbn [andb]; try lia;
    repeat match goal with |- context [?u <=? ?v] => destruct (Nat.leb_spec u v) end; cbn [andb]; lia.
Qed.
Lemma Dl_redw n : 1 <= n -> redw n (Dl 0 (n - 1)) (longest_element n).
Proof.
  intros Hn. assert (R : inr n (Dl 0 (n - 1))) by (apply (inr_le n 0 (n - 1)); [lia|apply Dl_range]).
  assert (E : prodw n (Dl 0 (n - 1)) = longest_element n).
  { apply (isperm_ext n); auto using prodw_perm, isperm_longest. intros i Hi. rewrite prodw_Dl by lia. rewrite app_longest by lia. destruct (Nat.leb_spec 0 i), (Nat.leb_spec i (0 + (n - 1))); cbn; lia. }
  rewrite <- E. apply minimal_redw; [exact R|]. rewrite E. pose proof (Dl_length 0 (n - 1)) as L.
  pose proof (proj2 (proj2 (C03_maximum n (longest_element n) (isperm_longest n))) eq_refl) as K. replace (n - 1 + 1) with n in L by lia. nia.
Qed.
(** every reduced word of the longest element spells Delta *)
Lemma Delta_word n u : 1 <= n -> redw n u (longest_element n) -> braid_eq n (pword u) (pword (Dl 0 (n - 1))).
Proof. intros Hn H. eapply matsumoto; [exact H|now apply Dl_redw]. Qed.
Lemma prodw_rev n u : inr n u -> prodw n (rev u) = pinv (prodw n u).
Proof.
  induction 1 as [|i u Hi Hu IH]; [symmetry; apply pinv_id|].
  cbn [rev]. assert (Hr : inr n (rev u)) by (apply Forall_forall; intros x Hx; apply in_rev in Hx; now apply (proj1 (Forall_forall _ _) Hu)).
  rewrite prodw_app by (auto; constructor; auto; constructor). rewrite prodw_sg by exact Hi. cbn [prodw fold_right]. fold (prodw n u).
  rewrite (pinv_pcomp n) by (auto using prodw_perm, isperm_sg). rewrite IH, pinv_sg by exact Hi. reflexivity.
Qed.
Lemma Dl_rev n : 1 <= n -> braid_eq n (rev (pword (Dl 0 (n - 1)))) (pword (Dl 0 (n - 1))).
Proof.
  intros Hn. rewrite <- pword_rev. apply Delta_word; [exact Hn|].
  pose proof (Dl_redw n Hn) as R. pose proof (redw_prodw n _ _ R) as E. pose proof (redw_inr n _ _ R) as I.
  assert (Ir : inr n (rev (Dl 0 (n - 1)))) by (apply Forall_forall; intros x Hx; apply in_rev in Hx; now apply (proj1 (Forall_forall _ _) I)).
  assert (E' : prodw n (rev (Dl 0 (n - 1))) = longest_element n) by (rewrite prodw_rev, E by exact I; apply pinv_longest).
  rewrite <- E' at 1. apply minimal_redw; [exact Ir|]. rewrite E', rev_length. rewrite (redw_len n _ _ R), (llen_plength n) by apply isperm_longest. lia.
Qed.
Lemma Dl_rev_at a k : braid_eq (a + (k + 1)) (rev (pword (Dl a k))) (pword (Dl a k)).
Proof.
  pose proof (be_shift a (k + 1) _ _ (Dl_rev (k + 1) ltac:(lia))) as K. replace (k + 1 - 1) with k in K by lia.
  rewrite shw_rev, Dl_shift, Nat.add_0_r in K. exact K.
Qed.
Lemma Dl_letters a k : Forall (fun l => snd l = true /\ a <= fst l /\ fst l < a + k) (pword (Dl a k)).
Proof. apply Forall_forall. intros x Hx. apply in_map_iff in Hx. destruct Hx as [i [<- Hi]]. cbn. split; [reflexivity|]. pose proof (proj1 (Forall_forall _ _) (Dl_range a k) i Hi). cbn in *. lia. Qed.
(** Delta_(a..a+k+1)^2 = X_a Delta_(a+1..a+k+1)^2 *)
Lemma Delta_sq a k : braid_eq (a + (k + 2)) (pword (Dl a (S k)) ++ pword (Dl a (S k))) (Xw a (S k) ++ pword (Dl (S a) k) ++ pword (Dl (S a) k)).
Proof.
  set (n := a + (k + 2)). set (D' := pword (Dl (S a) k)). set (y := pword (seq a (S k))).
  assert (E : pword (Dl a (S k)) = D' ++ y) by (cbn [Dl]; now rewrite pword_app).
  assert (R : braid_eq n (pword (Dl a (S k))) (rev y ++ D')).
  { pose proof (Dl_rev_at a (S k)) as K. replace (a + (S k + 1)) with n in K by (unfold n; lia). rewrite <- K. rewrite E, rev_app_distr.
    pose proof (Dl_rev_at (S a) k) as K'. replace (S a + (k + 1)) with n in K' by (unfold n; lia). fold D' in K'. now rewrite K'. }
  rewrite E at 1. rewrite R. rewrite <- app_assoc. replace (y ++ rev y ++ D') with (Xw a (S k) ++ D') by (unfold Xw, y; now rewrite <- app_assoc).
  rewrite !app_assoc. rewrite (Xw_comm_word n (S k) a D'); [reflexivity|unfold n; lia|].
  eapply Forall_impl; [|apply Dl_letters]. cbn. intros [i e]. cbn. intros (? & ? & ?). repeat split; auto; lia.
Qed.

(** Delta^2 commutes with every generator *)
From Verif Require Import Germ GermAct GermBraid TableTheory PermGerm.
Lemma Delta_central n i : i + 1 < n -> braid_eq n ([(i, true)] ++ pword (Dl 0 (n - 1)) ++ pword (Dl 0 (n - 1))) ((pword (Dl 0 (n - 1)) ++ pword (Dl 0 (n - 1))) ++ [(i, true)]).
Proof.
  intros Hi. destruct (plift n (pD n)) as [u [_ [R E]]]. rewrite (val_D n) in R. pose proof (Delta_word n u ltac:(lia) R) as K. rewrite <- E in K.
  pose proof (lift_tau (PG n) n (lift (PG n) (pwd n)) (fun a b H => lift_mul_ n a b H)) as T.
  rewrite <- K. rewrite <- (lift_atom_ n i Hi). 
  transitivity ((lift (PG n) (pwd n) (atom n i) ++ lift (PG n) (pwd n) (pD n)) ++ lift (PG n) (pwd n) (pD n)); [now rewrite app_assoc|].
  rewrite (T (atom n i)). rewrite <- !app_assoc. rewrite (T (tau (PG n) (atom n i))). rewrite tau_tau. reflexivity.
Qed.
