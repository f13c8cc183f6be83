(** SpecPermTheory.v – the notions of SpecPerm agree with those used in the proofs. *)
From Verif Require Import Base ModelPerm PermTheory WeakOrder PermWords SpecBraid BraidTheory SpecPerm.
From Coq Require Import Permutation.

Section S.
Variable n : nat.
Notation P := (isperm n).

Lemma sgen_sg i x : i + 1 < n -> x < n -> ap (sg n i) x = sgen i x.
Proof.
  intros Hi Hx. unfold sg. rewrite app_ptrans by lia. unfold sgen.
  destruct (Nat.eqb_spec x i), (Nat.eqb_spec x (i + 1)); try lia; try reflexivity.
Qed.
Lemma sprod_lt u x : inr n u -> x < n -> sprod u x < n.
Proof.
  intros H Hx. induction H as [|i u Hi H IH]; [exact Hx|]. cbn. fold (sprod u x). unfold sgen.
  destruct (Nat.eqb_spec (sprod u x) i), (Nat.eqb_spec (sprod u x) (i + 1)); lia.
Qed.
Lemma sprod_prodw u x : inr n u -> x < n -> ap (prodw n u) x = sprod u x.
Proof.
  intros H Hx. induction H as [|i u Hi H IH]; cbn [prodw fold_right].
  - now apply app_id.
  - fold (prodw n u). rewrite (app_pcomp n) by (try apply isperm_sg; try apply prodw_perm; auto).
    rewrite IH, sgen_sg by (auto; now apply sprod_lt). reflexivity.
Qed.
Lemma expresses_iff u w : expresses n u w <-> inr n u /\ prodw n u = w.
Proof.
  split.
  - intros [H [L E]]. split; [exact H|]. apply (nth_ext_len _ _ n 0); [|exact L|].
    + apply isperm_length. now apply prodw_perm.
    + intros i Hi. rewrite E by exact Hi. now apply sprod_prodw.
  - intros [H <-]. split; [exact H|]. split; [apply isperm_length; now apply prodw_perm|].
    intros x Hx. now apply sprod_prodw.
Qed.
Lemma shortest_redw u w : shortest n u w <-> redw n u w.
Proof.
  split.
  - intros [E M]. apply expresses_iff in E. destruct E as [H <-].
    destruct (redw_ex n (prodw n u) (prodw_perm n u H)) as [v Hv].
    apply minimal_redw; [exact H|]. rewrite <- (llen_plength n) by (now apply prodw_perm).
    rewrite <- (redw_len n v _ Hv). apply M. apply expresses_iff.
    split; [eapply redw_inr; eassumption|now apply redw_prodw].
  - intros R. split.
    + apply expresses_iff. split; [eapply redw_inr; eassumption|now apply redw_prodw].
    + intros v Hv. apply expresses_iff in Hv. destruct Hv as [H E].
      rewrite (redw_len n u w R), (llen_plength n), <- E by (eapply redw_perm; eassumption).
      now apply plength_prodw.
Qed.
Lemma lifts_iff w b : lifts n w b <-> exists u, redw n u w /\ b = pword u.
Proof. unfold lifts. split; intros [u [H E]]; exists u; (split; [now apply shortest_redw|exact E]). Qed.
Lemma lifts_ex w : P w -> exists b, lifts n w b.
Proof. intros H. destruct (redw_ex n w H) as [u Hu]. exists (pword u). apply lifts_iff. eauto. Qed.
Lemma lifts_unique w b b' : lifts n w b -> lifts n w b' -> braid_eq n b b'.
Proof. rewrite !lifts_iff. intros [u [H ->]] [v [K ->]]. eapply matsumoto; eassumption. Qed.
Lemma lifts_range w b : lifts n w b -> in_range n b.
Proof. rewrite lifts_iff. intros [u [H ->]]. apply in_range_pword. eapply redw_range; eassumption. Qed.

Lemma before_Ldes w a b : P w -> a < n -> b < n -> (before w a b <-> ap (pinv w) a < ap (pinv w) b).
Proof.
  intros Hw Ha Hb. pose proof (isperm_length n w Hw) as L. split.
  - intros [p [q [Hpq [Ep Eq]]]].
    assert (p < n) by (rewrite <- L; apply nth_error_Some; congruence).
    assert (q < n) by (rewrite <- L; apply nth_error_Some; congruence).
    apply (nth_error_nth _ _ 0) in Ep. apply (nth_error_nth _ _ 0) in Eq. fold (ap w p) in Ep. fold (ap w q) in Eq.
    rewrite <- Ep, <- Eq, !(pinv_app n) by auto. exact Hpq.
  - intros H. exists (ap (pinv w) a), (ap (pinv w) b). split; [exact H|].
    assert (K : forall c, c < n -> nth_error w (ap (pinv w) c) = Some c).
    { intros c Hc. rewrite (nth_error_nth' w 0).
      - f_equal. fold (ap w (ap (pinv w) c)). now apply (app_pinv n).
      - rewrite L. apply isperm_app_lt; [now apply isperm_pinv|exact Hc]. }
    split; now apply K.
Qed.
Lemma weighted_iff x y : P x -> P y -> (weighted n x y <-> forall i, i + 1 < n -> Ldes y i -> Rdes x i).
Proof.
  intros Hx Hy. unfold weighted, inversion. rewrite (isperm_length n x Hx). split; intros H i Hi K.
  - apply H; [exact Hi|]. apply before_Ldes; auto; lia.
  - apply before_Ldes in K; auto; try lia. split; [lia|]. split; [lia|]. now apply H.
Qed.
Lemma longest_rev : longest_element n = rev (seq 0 n).
Proof.
  apply (nth_ext_len _ _ n 0); [apply longest_length|now rewrite rev_length, seq_length|].
  intros i Hi. rewrite rev_nth by now rewrite seq_length. rewrite seq_length, seq_nth by lia.
  fold (ap (longest_element n) i). rewrite app_longest by exact Hi. lia.
Qed.
End S.
