(** DualTwist.v – the dual Garside element: its n-th power is the full twist. *)
From Verif Require Import Base ModelPerm PermTheory SpecPerm SpecPermTheory WeakOrder SpecBraid BraidTheory PermWords PropsPerm FullTwistBraid FullTwist
  NCTheory Germ GermNF GermAct GermBraid NCGerm BKL NCLift.
From Coq Require Import Setoid Morphisms.
Local Open Scope nat_scope.

Fixpoint npw (w : bword) (k : nat) : bword := match k with 0 => [] | S k' => w ++ npw w k' end.
Lemma npw_r w k : npw w k ++ w = w ++ npw w k.
Proof. induction k as [|k IH]; [cbn; now rewrite app_nil_r|]. cbn [npw]. now rewrite <- app_assoc, IH. Qed.
Lemma npw_wpow w k : wpow w (Z.of_nat k) = npw w k.
Proof. induction k as [|k IH]; [reflexivity|]. replace (Z.of_nat (S k)) with (Z.of_nat k + 1)%Z by lia. rewrite wpow_succ_nonneg by lia. now rewrite IH. Qed.
Lemma npw_rev w k : rev (npw w k) = npw (rev w) k.
Proof. induction k as [|k IH]; [reflexivity|]. cbn [npw]. now rewrite rev_app_distr, IH, npw_r. Qed.
Lemma npw_mor n u v k : braid_eq n u v -> braid_eq n (npw u k) (npw v k).
Proof. intros H. induction k as [|k IH]; [reflexivity|]. cbn [npw]. now apply be_app. Qed.

Lemma seq_S_end a k : seq a (S k) = seq a k ++ [a + k].
Proof. replace (S k) with (k + 1) by lia. apply seq_app. Qed.
(** moving a descending run through s_a ... s_(a+k) *)
Lemma down_comm n a k j : a + S k < n -> j <= k ->
  braid_eq n (pword (seq a (S k)) ++ rev (pword (seq a j))) (rev (pword (seq (S a) j)) ++ pword (seq a (S k))).
Proof.
  intros Hn. induction j as [|j IH]; intros Hj; [cbn; rewrite app_nil_r; reflexivity|].
  rewrite !seq_S_end, !pword_app, !rev_app_distr. change (rev (pword [a + j])) with ([(a + j, true)] : bword). change (rev (pword [S a + j])) with ([(S a + j, true)] : bword).
  rewrite app_assoc. pose proof (up_comm n (S k) a (a + j) Hn ltac:(lia) ltac:(lia)) as U. rewrite seq_S_end, !pword_app in U. replace (a + j + 1) with (S a + j) in U by lia. rewrite <- U. rewrite <- !app_assoc. apply be_app; [reflexivity|]. rewrite seq_S_end, !pword_app in IH. rewrite <- IH by lia. now rewrite <- app_assoc.
Qed.
Lemma delta_pow n a k : forall j, a + S k < n -> j <= S k ->
  braid_eq n (npw (pword (seq a (S k))) j) (rev (pword (seq a j)) ++ npw (pword (seq (S a) k)) j).
Proof.
  induction j as [|j IH]; intros Hn Hj; [reflexivity|]. cbn [npw]. rewrite IH by lia. rewrite app_assoc, (down_comm n a k j Hn) by lia.
  change (seq a (S k)) with (a :: seq (S a) k). change (seq a (S j)) with (a :: seq (S a) j). cbn [pword map]. fold (pword (seq (S a) k)). fold (pword (seq (S a) j)). cbn [rev].
  change ((a, true) :: pword (seq (S a) k)) with ([(a, true)] ++ pword (seq (S a) k)). rewrite <- !app_assoc. reflexivity.
Qed.
(** (s_a ... s_(a+k-1))^(k+1) = Delta_(a..a+k)^2 *)
Lemma delta_full k : forall a, braid_eq (a + (k + 1)) (npw (pword (seq a k)) (S k)) (pword (Dl a k) ++ pword (Dl a k)).
Proof.
  induction k as [|k IH]; intros a; [reflexivity|]. cbn [npw]. change (pword (seq a (S k)) ++ npw (pword (seq a (S k))) k) with (npw (pword (seq a (S k))) (S k)).
  rewrite (delta_pow (a + (S k + 1)) a k (S k)) by lia. pose proof (Delta_sq a k) as DS. replace (a + (k + 2)) with (a + (S k + 1)) in DS by lia. rewrite DS.
  specialize (IH (S a)). replace (S a + (k + 1)) with (a + (S k + 1)) in IH by lia. rewrite IH. unfold Xw. rewrite <- app_assoc. reflexivity.
Qed.

(** the word of the dual Garside element *)
Section Cox.
Variable n : nat.
Hypothesis n2 : 2 <= n.
Definition down (k : nat) : list (nat * nat) := map (fun i => (i, i + 1)) (rev (seq 0 k)).
Lemma lw_down k : lw (down k) = rev (pword (seq 0 k)).
Proof.
  unfold lw, down. rewrite <- pword_rev. induction (rev (seq 0 k)) as [|i l IH]; [reflexivity|]. cbn [map flat_map fst snd pword]. fold (pword l). rewrite IH, Nat.add_1_r, aw_1. reflexivity.
Qed.
Definition wk (k : nat) : list nat := map (fun i => if i <=? k then (if i =? 0 then k else i - 1) else i) (seq 0 n).
Lemma ap_wk k i : i < n -> ap (wk k) i = if i <=? k then (if i =? 0 then k else i - 1) else i.
Proof. intros H. unfold wk. now rewrite nth_map_seq. Qed.
Lemma fac_wk k : k < n -> NCTheory.Q n (wk k) -> fac n (wk k) (down k).
Proof using n2.
  induction k as [|k IH]; intros Hk HQ.
  - replace (wk 0) with (identity n); [constructor|]. apply (isperm_ext n); [apply isperm_id|apply HQ|]. intros i Hi. rewrite ap_wk, app_id by exact Hi. destruct (Nat.leb_spec i 0), (Nat.eqb_spec i 0); lia.
  - unfold down. rewrite seq_S_end, rev_app_distr. cbn [rev List.app map Nat.add]. fold (down k).
    assert (K : NCTheory.ed n (wk (S k)) k (k + 1)). { split; [lia|]. split; [lia|]. intros i Hi. rewrite ap_wk by exact Hi. destruct (Nat.leb_spec i (S k)), (Nat.eqb_spec i 0); lia. }
    assert (Ew : pcomp (ptrans n k (k + 1)) (wk (S k)) = wk k).
    { apply (isperm_ext n).
      - apply isperm_pcomp; [apply isperm_ptrans; lia|apply HQ].
      - apply isperm_of_app.
        + unfold wk. now rewrite map_length, seq_length.
        + intros i Hi. rewrite ap_wk by exact Hi. destruct (Nat.leb_spec i k), (Nat.eqb_spec i 0); lia.
        + intros i j Hi Hj. rewrite !ap_wk by assumption. destruct (Nat.leb_spec i k), (Nat.eqb_spec i 0), (Nat.leb_spec j k), (Nat.eqb_spec j 0); lia.
      - intros i Hi. rewrite (app_pcomp n) by (auto; try apply HQ; apply isperm_ptrans; lia). rewrite !ap_wk by exact Hi.
        assert (B : (if i <=? S k then if i =? 0 then S k else i - 1 else i) < n) by (destruct (Nat.leb_spec i (S k)), (Nat.eqb_spec i 0); lia).
        rewrite app_ptrans by lia. destruct (Nat.leb_spec i (S k)), (Nat.eqb_spec i 0), (Nat.leb_spec i k); try lia;
        repeat match goal with |- context [?u =? ?v] => destruct (Nat.eqb_spec u v) end; lia. }
    constructor; [exact HQ|exact K|]. rewrite Ew. apply IH; [lia|]. rewrite <- Ew. now apply NC_split.
Qed.
Lemma wk_cox : wk (n - 1) = cox n.
Proof using n2.
  unfold wk, cox. apply map_ext_in. intros i Hi. apply in_seq in Hi. destruct (Nat.leb_spec i (n - 1)); [|lia]. reflexivity.
Qed.
Lemma fac_cox : fac n (cox n) (down (n - 1)).
Proof using n2. rewrite <- wk_cox. apply fac_wk; [lia|]. rewrite wk_cox. apply Q_cox. Qed.
Lemma cox_pow l : fac n (cox n) l -> braid_eq n (wpow (lw l) (Z.of_nat n)) (FTw n).
Proof using n2.
  intros F. rewrite npw_wpow. rewrite (npw_mor n _ _ n (fac_coherent n _ _ _ F fac_cox)), lw_down, <- npw_rev.
  pose proof (delta_full (n - 1) 0) as K. replace (0 + (n - 1 + 1)) with n in K by lia. replace (S (n - 1)) with n in K by lia. rewrite (be_rev _ _ _ K). rewrite rev_app_distr. unfold FTw.
  pose proof (Dl_rev n ltac:(lia)) as R. apply be_app; exact R.
Qed.
(** lengths *)
Lemma aw_length s t : s < t -> length (aw s t) = 2 * (t - s) - 1.
Proof using.
  clear n2 n. intros H. unfold aw. remember (t - s - 1) as k eqn:Ek. revert t H Ek. induction k as [|k IH]; intros t H Ek.
  - cbn. lia.
  - cbn [bk]. rewrite !app_length. rewrite (IH (t - 1)) by lia. cbn [length]. lia.
Qed.
Lemma fac_length w l : fac n w l -> length (lw l) <= length l * (2 * n - 3).
Proof using.
  clear n2. induction 1 as [|w a b l _ (L & B & _) _ IH]; [cbn; lia|]. cbn [lw flat_map fst snd length]. rewrite app_length, aw_length by exact L. fold (lw l). nia.
Qed.
Lemma fac_count w l : fac n w l -> length l <= n - 1.
Proof using n2.
  intros F. rewrite (fac_len n w l F). unfold exc, cnt.
  replace n with (1 + (n - 1)) at 1 by lia. rewrite seq_app. cbn [seq List.app]. replace (filter _ (0 :: seq (0 + 1) (n - 1))) with (filter (fun i => ap w i <? i) (seq 1 (n - 1))) by (cbn [filter Nat.ltb Nat.leb]; reflexivity).
  assert (G : forall (f : nat -> bool) m, length (filter f m) <= length m) by (intros f m; induction m as [|x m IHm]; [cbn; lia|]; cbn [filter]; destruct (f x); cbn [length]; lia).
  specialize (G (fun i => ap w i <? i) (seq 1 (n - 1))). now rewrite seq_length in G.
Qed.
End Cox.
