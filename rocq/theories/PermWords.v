(** PermWords.v – reduced words, [shortlex], Matsumoto's theorem and the
    enumeration of all permutations. *)
From Verif Require Import Base ModelPerm PermTheory WeakOrder SpecBraid BraidTheory.
From Coq Require Import Permutation Setoid FinFun.

Section PW.
Variable n : nat.
Notation P := (isperm n).
Notation sg := (sg n).
Notation redw := (redw n).
Notation pred := (pred n).

(** product of a word in the generators *)
Definition prodw (u : list nat) : list nat := fold_right (fun i w => pcomp (sg i) w) (identity n) u.
Definition inr (u : list nat) : Prop := Forall (fun i => i + 1 < n) u.

Lemma prodw_perm u : inr u -> P (prodw u).
Proof.
  induction 1; [apply isperm_id|]. cbn. apply isperm_pcomp; [now apply isperm_sg|assumption].
Qed.
Lemma prodw_app u v : inr u -> inr v -> prodw (u ++ v) = pcomp (prodw u) (prodw v).
Proof.
  intros Hu Hv. induction Hu as [|i u Hi Hu IH]; cbn [List.app prodw fold_right].
  - symmetry. apply pcomp_id_l. now apply prodw_perm.
  - fold (prodw (u ++ v)) (prodw u). rewrite IH. symmetry. apply (pcomp_assoc n); auto using isperm_sg, prodw_perm.
Qed.
Lemma prodw_sg i : i + 1 < n -> prodw [i] = sg i.
Proof. intros. cbn. apply pcomp_id_r. now apply isperm_sg. Qed.
Lemma redw_prodw u w : redw u w -> prodw u = w.
Proof. induction 1; [reflexivity|]. cbn. fold (prodw u). now rewrite IHredw. Qed.

Lemma plength_mul_sg w i : P w -> i + 1 < n ->
  plength (pcomp w (sg i)) = S (plength w) \/ plength w = S (plength (pcomp w (sg i))).
Proof.
  intros Hw Hi. assert (L : length w = n) by now apply isperm_length.
  unfold sg. rewrite (pcomp_ptrans n) by (auto; lia).
  destruct (lt_dec (ap w (i + 1)) (ap w i)) as [K|K].
  - right. apply plength_swap; [lia|exact K].
  - left. apply plength_swap_up; [lia|]. apply (nRdes n); auto.
Qed.

Lemma plength_prodw u : inr u -> plength (prodw u) <= length u /\ Nat.Even (plength (prodw u) + length u).
Proof.
  induction u as [|i u IH] using rev_ind; intros H.
  - cbn [prodw fold_right length]. rewrite plength_id. split; [lia|]. exists 0. lia.
  - unfold inr in H. apply Forall_app in H. destruct H as [H1 H2]. inversion H2; subst.
    rewrite prodw_app, prodw_sg by assumption. rewrite app_length. cbn [length].
    destruct (IH H1) as [A [k B]].
    destruct (plength_mul_sg (prodw u) i (prodw_perm u H1) ltac:(assumption)) as [E|E].
    + split; [lia|]. exists (k + 1). lia.
    + split; [lia|]. exists k. lia.
Qed.

Lemma llen_mul w i : P w -> i + 1 < n -> pred (sg i) w -> llen (pcomp (sg i) w) = S (llen w).
Proof.
  intros Hw Hi H. assert (Hs : P (sg i)) by now apply isperm_sg.
  rewrite (llen_down n (pcomp (sg i) w) i); auto using isperm_pcomp.
  - now rewrite sg_cancel.
  - now apply (Ldes_mul n).
Qed.
Lemma llen_id : llen (identity n) = 0.
Proof. unfold llen. rewrite pinv_id. apply plength_id. Qed.
Lemma redw_len u w : redw u w -> length u = llen w.
Proof. induction 1; [now rewrite llen_id|]. cbn [length]. now rewrite llen_mul, IHredw. Qed.
Lemma redw_inr u w : redw u w -> inr u. Proof. apply redw_range. Qed.

Lemma plength_le_llen w : P w -> plength w <= llen w.
Proof.
  intros Hw. destruct (redw_ex n w Hw) as [u Hu]. rewrite <- (redw_len u w Hu).
  rewrite <- (redw_prodw u w Hu) at 1. apply plength_prodw. now apply redw_inr in Hu.
Qed.
Lemma llen_plength w : P w -> llen w = plength w.
Proof.
  intros Hw. pose proof (plength_le_llen w Hw). pose proof (plength_le_llen (pinv w) (isperm_pinv _ _ Hw)) as K.
  unfold llen in *. rewrite (pinv_pinv n w Hw) in K. lia.
Qed.
Lemma plength_pinv w : P w -> plength (pinv w) = plength w.
Proof. apply llen_plength. Qed.

(** words of minimal length are reduced *)
Lemma minimal_redw u : inr u -> length u <= plength (prodw u) -> redw u (prodw u).
Proof.
  induction 1 as [|i u Hi Hu IH]; intros L; [constructor|].
  cbn [prodw fold_right length] in *. fold (prodw u) in *.
  assert (Hp : P (prodw u)) by now apply prodw_perm. assert (Hs : P (sg i)) by now apply isperm_sg.
  pose proof (proj1 (plength_prodw u Hu)) as B.
  rewrite <- llen_plength in L by auto using isperm_pcomp. rewrite <- llen_plength in B, IH by auto.
  destruct (Ldes_dec (prodw u) i) as [D|D].
  - pose proof (llen_down n (prodw u) i Hp Hi D). lia.
  - apply (pred_sg_l n) in D; auto. rewrite llen_mul in L by auto. apply rw_cons; auto. apply IH. lia.
Qed.

(** ** shortlex *)
Inductive sl : list nat -> list nat -> Prop :=
| sl_nil : sl [] (identity n)
| sl_cons i u w : i + 1 < n -> P w -> pred (sg i) w ->
    (forall j, j < i -> ~ Ldes (pcomp (sg i) w) j) -> sl u w -> sl (i :: u) (pcomp (sg i) w).

Lemma sl_redw u w : sl u w -> redw u w.
Proof. induction 1; [constructor|]. constructor; assumption. Qed.

Fixpoint lexle (u v : list nat) : Prop :=
  match u, v with
  | [], _ => True
  | _ :: _, [] => False
  | x :: u', y :: v' => x < y \/ (x = y /\ lexle u' v')
  end.

Lemma sl_least u w : sl u w -> forall v, redw v w -> lexle u v.
Proof.
  induction 1 as [|i u w Hi Hw Hp Hm Hs IH]; intros v Hv; [exact I|].
  inversion Hv as [E1 E2|j v' w' Hj Hw' Hp' Hv' E1 E2].
  - exfalso. pose proof (Ldes_mul n w i Hw Hi Hp) as K. rewrite <- E2 in K.
    unfold Ldes in K. rewrite pinv_id, !app_id in K by lia. lia.
  - subst v. pose proof (Ldes_mul n w' j Hw' Hj Hp') as K. rewrite E2 in K. cbn [lexle].
    destruct (lt_eq_lt_dec i j) as [[L|L]|L]; [now left| |exfalso; exact (Hm j L K)].
    right. split; [exact L|]. apply IH. subst j.
    assert (w' = w) as <- by (apply (pcomp_cancel_l n (sg i)); auto using isperm_sg). exact Hv'.
Qed.

Lemma shortlex_loop_ok fuel : forall w word i,
  P w -> (forall j, j < i -> j + 1 < n -> ~ Rdes w j) -> 2 * plength w + (n - 1 - i) < fuel ->
  exists v, shortlex_loop fuel w word i = Ok (identity n, word ++ v) /\ sl v (pinv w).
Proof.
  induction fuel as [|fuel IH]; intros w word i Hw Hd HF; [lia|].
  assert (L : length w = n) by now apply isperm_length.
  cbn [shortlex_loop]. rewrite L. destruct (Nat.ltb_spec i (n - 1)) as [Hi|Hi].
  - destruct (Nat.ltb_spec (ap w (i + 1)) (ap w i)) as [K|K].
    + assert (E : swap w i (i + 1) = pcomp w (sg i)) by (symmetry; apply (pcomp_ptrans n); auto; lia).
      pose proof (plength_swap w i ltac:(lia) K) as PL.
      assert (Hw' : P (swap w i (i + 1))) by (apply isperm_swap; auto; lia).
      destruct (IH (swap w i (i + 1)) (word ++ [i]) (i - 1) Hw') as [v [E1 E2]].
      { intros j Hj Hjn. unfold Rdes. rewrite !app_swap by lia.
        destruct (Nat.eqb_spec j i), (Nat.eqb_spec j (i + 1)), (Nat.eqb_spec (j + 1) i), (Nat.eqb_spec (j + 1) (i + 1)); try lia.
        apply Hd; lia. }
      { lia. }
      exists (i :: v). split; [rewrite E1; now rewrite <- app_assoc|].
      assert (Hs : P (sg i)) by (apply isperm_sg; lia).
      assert (E3 : pinv (swap w i (i + 1)) = pcomp (sg i) (pinv w)).
      { rewrite E, (pinv_pcomp n), (pinv_sg n) by (auto; lia). reflexivity. }
      assert (E4 : pinv w = pcomp (sg i) (pinv (swap w i (i + 1)))).
      { rewrite E3, (sg_cancel n) by (auto using isperm_pinv; lia). reflexivity. }
      rewrite E4. apply sl_cons; auto using isperm_pinv; try lia.
      * rewrite E3. apply (Ldes_split n); auto using isperm_pinv; try lia.
        unfold Ldes. rewrite (pinv_pinv n) by auto. exact K.
      * intros j Hj. rewrite <- E4. unfold Ldes. rewrite (pinv_pinv n) by auto. apply Hd; lia.
    + destruct (IH w word (i + 1) Hw) as [v [E1 E2]].
      { intros j Hj Hjn. destruct (Nat.eq_dec j i) as [->|N]; [unfold Rdes; lia|]. apply Hd; lia. }
      { lia. }
      exists v. split; assumption.
  - assert (w = identity n) as ->.
    { apply incr_id; auto. intros j Hj. apply (nRdes n); auto. apply Hd; lia. }
    exists []. rewrite app_nil_r, pinv_id. split; [reflexivity|constructor].
Qed.

Theorem shortlex_sl w : P w -> exists u, shortlex w = Ok u /\ sl u w.
Proof.
  intros Hw. assert (L : length w = n) by now apply isperm_length. unfold shortlex.
  rewrite (inverse_ok n) by exact Hw. cbn [bind].
  destruct (shortlex_loop_ok (S (length w * length w)) (pinv w) [] 0) as [v [E1 E2]].
  - now apply isperm_pinv.
  - intros j Hj. lia.
  - pose proof (plength_bound (pinv w)) as B. rewrite pinv_length, L in *. nia.
  - rewrite E1. cbn [bind]. rewrite (pinv_pinv n) in E2 by exact Hw. exists v.
    assert (A : forallb (fun '(i, j) => i =? j) (combine (seq 0 (length (identity n))) (identity n)) = true).
    { apply forallb_forall. intros [i j] Hij. unfold identity in Hij. rewrite seq_length in Hij.
      apply Nat.eqb_eq. revert Hij. generalize (seq 0 n). intros l. clear.
      induction l as [|x l IH]; intros Hl; [destruct Hl|]. cbn in Hl.
      destruct Hl as [H|H]; [congruence|auto]. }
    rewrite A. cbn [assert_ bind]. split; [reflexivity|exact E2].
Qed.

Lemma from_cox_ok u : inr u -> from_cox n u = Ok (prodw u).
Proof.
  intros H. unfold from_cox.
  assert (A : forallb (fun s => s <? n - 1) u = true).
  { apply forallb_forall. intros i Hi. unfold inr in H. rewrite Forall_forall in H. apply H in Hi.
    apply Nat.ltb_lt. lia. }
  rewrite A. cbn [assert_ bind]. f_equal. clear A.
  induction u as [|i u IH] using rev_ind; [reflexivity|].
  unfold inr in H. apply Forall_app in H. destruct H as [H1 H2]. inversion H2; subst.
  rewrite fold_left_app. cbn [fold_left]. rewrite (IH H1), prodw_app, prodw_sg by assumption.
  symmetry. apply (pcomp_ptrans n); [now apply prodw_perm|lia|lia].
Qed.
Lemma from_cox_err u : ~ inr u -> from_cox n u = Err AssertionError.
Proof.
  intros H. unfold from_cox. destruct (forallb (fun s => s <? n - 1) u) eqn:A; [|reflexivity].
  exfalso. apply H. apply Forall_forall. intros i Hi. rewrite forallb_forall in A. apply A, Nat.ltb_lt in Hi. lia.
Qed.

(** ** Matsumoto *)
Lemma lcm2_braid i j : i + 1 < n -> j + 1 < n -> i <> j ->
  exists u v m x y, lcm2 n i j u v m x y /\ braid_eq n (pword (i :: u)) (pword (j :: v)).
Proof.
  intros Hi Hj N. destruct (lt_eq_lt_dec i j) as [[L|L]|L]; [|lia|].
  - destruct (Nat.eq_dec j (i + 1)) as [->|K].
    + eexists _, _, _, _, _. split; [apply lcm2_adj; lia|]. apply be_braid. lia.
    + eexists _, _, _, _, _. split; [apply lcm2_far; lia|]. apply be_far; lia.
  - destruct (Nat.eq_dec i (j + 1)) as [->|K].
    + eexists _, _, _, _, _. split; [apply lcm2_sym, lcm2_adj; lia|]. apply be_sym, be_braid. lia.
    + eexists _, _, _, _, _. split; [apply lcm2_sym, lcm2_far; lia|]. apply be_sym, be_far; lia.
Qed.

Theorem matsumoto u v w : redw u w -> redw v w -> braid_eq n (pword u) (pword v).
Proof.
  assert (K : forall k u v w, llen w <= k -> redw u w -> redw v w -> braid_eq n (pword u) (pword v)).
  2:{ intros Hu Hv. eapply K; eauto. }
  clear u v w. induction k as [|k IH]; intros u v w Hk Hu Hv.
  - pose proof (redw_len _ _ Hu). pose proof (redw_len _ _ Hv).
    destruct u; [|cbn in *; lia]. destruct v; [|cbn in *; lia]. reflexivity.
  - inversion Hu as [E1 E2|i u' x Hi Hx Hp Hu' E1 E2]; subst.
    { pose proof (redw_len _ _ Hv) as L. rewrite llen_id in L. destruct v; [reflexivity|discriminate]. }
    inversion Hv as [F1 F2|j v' y Hj Hy Hq Hv' F1 F2]; subst.
    { pose proof (redw_len _ _ Hu) as L. rewrite <- F2, llen_id in L. discriminate. }
    set (w := pcomp (sg i) x) in *.
    assert (Hw : P w) by (apply isperm_pcomp; [now apply isperm_sg|assumption]).
    assert (Lx : llen w = S (llen x)) by now apply llen_mul.
    assert (Ly : llen w = S (llen y)) by (rewrite <- F2; now apply llen_mul).
    cbn [pword map]. fold (pword u') (pword v').
    destruct (Nat.eq_dec i j) as [<-|N].
    + assert (y = x) by (apply (pcomp_cancel_l n (sg i)); auto using isperm_sg). subst y.
      apply be_cons. apply (IH _ _ x); [lia|assumption|assumption].
    + destruct (lcm2_braid i j Hi Hj N) as [p [q [m [a [b [LC BR]]]]]].
      assert (Pa : P a) by (eapply redw_perm; apply (l2_u _ _ _ _ _ _ _ _ LC)).
      assert (Pb : P b) by (eapply redw_perm; apply (l2_v _ _ _ _ _ _ _ _ LC)).
      assert (Hsi : P (sg i)) by now apply isperm_sg. assert (Hsj : P (sg j)) by now apply isperm_sg.
      assert (Pm : P m) by (rewrite (l2_mx _ _ _ _ _ _ _ _ LC); now apply isperm_pcomp).
      assert (Dm : pdiv n m w).
      { apply (l2_div _ _ _ _ _ _ _ _ LC); auto; [now apply (Ldes_mul n)|]. rewrite <- F2. now apply (Ldes_mul n). }
      destruct (pdiv_split n m w Pm Hw Dm) as [R1 R2]. set (r := pcomp (pinv m) w) in *.
      assert (Pr : P r) by (apply isperm_pcomp; auto using isperm_pinv).
      destruct (redw_ex n r Pr) as [t Ht].
      (* words of x and y through the lcm *)
      assert (Wx : redw (p ++ t) x).
      { assert (Ex : x = pcomp a r).
        { apply (pcomp_cancel_l n (sg i)); auto using isperm_pcomp.
          rewrite <- (pcomp_assoc n) by auto. rewrite <- (l2_mx _ _ _ _ _ _ _ _ LC), <- R2. reflexivity. }
        rewrite Ex. apply redw_app; auto; [apply (l2_u _ _ _ _ _ _ _ _ LC)|].
        rewrite (l2_mx _ _ _ _ _ _ _ _ LC) in R1. apply (pred_assoc_r n (sg i) a r); auto.
        apply (l2_px _ _ _ _ _ _ _ _ LC). }
      assert (Wy : redw (q ++ t) y).
      { assert (Ey : y = pcomp b r).
        { apply (pcomp_cancel_l n (sg j)); auto using isperm_pcomp.
          rewrite <- (pcomp_assoc n) by auto. rewrite <- (l2_my _ _ _ _ _ _ _ _ LC), <- R2. exact F2. }
        rewrite Ey. apply redw_app; auto; [apply (l2_v _ _ _ _ _ _ _ _ LC)|].
        rewrite (l2_my _ _ _ _ _ _ _ _ LC) in R1. apply (pred_assoc_r n (sg j) b r); auto.
        apply (l2_py _ _ _ _ _ _ _ _ LC). }
      rewrite (be_cons n _ _ _ (IH u' (p ++ t) x ltac:(lia) Hu' Wx)).
      rewrite (be_cons n _ _ _ (IH v' (q ++ t) y ltac:(lia) Hv' Wy)).
      unfold pword. rewrite !map_app. fold (pword p) (pword q) (pword t).
      change (braid_eq n (pword (i :: p) ++ pword t) (pword (j :: q) ++ pword t)).
      apply be_app; [exact BR|reflexivity].
Qed.

(** ** elements *)
Lemma picks_spec {A} (l : list A) x r : In (x, r) (picks l) <-> exists l1 l2, l = l1 ++ x :: l2 /\ r = l1 ++ l2.
Proof.
  revert x r. induction l as [|y l IH]; intros x r; cbn [picks].
  - split; [intros []|]. intros [[|? ?] [l2 [E _]]]; discriminate.
  - cbn [In]. rewrite in_map_iff. split.
    + intros [E|[[z s] [E H]]].
      * injection E as -> ->. now exists [], r.
      * injection E as -> <-. apply IH in H. destruct H as [l1 [l2 [-> ->]]]. now exists (y :: l1), l2.
    + intros [[|z l1] [l2 [E1 E2]]]; cbn in *.
      * injection E1 as -> ->. left. congruence.
      * injection E1 as -> ->. right. exists (x, l1 ++ l2). split; [now subst|]. apply IH. now exists l1, l2.
Qed.

Lemma perms_of_in {A} k (l w : list A) : length l = k -> (In w (perms_of k l) <-> Permutation w l).
Proof.
  revert l w. induction k as [|k IH]; intros l w L.
  - destruct l; [|discriminate]. cbn. split.
    + intros [<-|[]]. constructor.
    + intros H. apply Permutation_sym, Permutation_nil in H. now left.
  - cbn [perms_of]. rewrite in_flat_map. split.
    + intros [[x r] [H1 H2]]. apply picks_spec in H1. destruct H1 as [l1 [l2 [-> ->]]].
      apply in_map_iff in H2. destruct H2 as [t [<- Ht]]. apply IH in Ht.
      * apply Permutation_cons_app. exact Ht.
      * rewrite app_length in *. cbn in L. lia.
    + intros H. destruct w as [|x w]; [apply Permutation_length in H; cbn in H; lia|].
      assert (Hx : In x l) by (eapply Permutation_in; [exact H|now left]).
      apply in_split in Hx. destruct Hx as [l1 [l2 ->]]. exists (x, l1 ++ l2). split.
      * apply picks_spec. now exists l1, l2.
      * apply in_map_iff. exists w. split; [reflexivity|]. apply IH.
        -- rewrite app_length in *. cbn in L. lia.
        -- eapply Permutation_cons_app_inv. exact H.
Qed.

Lemma picks_fst {A} (l : list A) : map fst (picks l) = l.
Proof.
  induction l as [|x l IH]; [reflexivity|]. cbn. f_equal. rewrite map_map. rewrite <- IH at 2.
  apply map_ext. now intros [].
Qed.

Lemma NoDup_flat_map {A B} (f : A -> list B) l :
  NoDup l -> (forall x, In x l -> NoDup (f x)) ->
  (forall x y z, In x l -> In y l -> In z (f x) -> In z (f y) -> x = y) -> NoDup (flat_map f l).
Proof.
  induction 1 as [|x l Hx ND IH]; intros H1 H2; [constructor|]. cbn. apply NoDup_app_intro.
  - apply H1. now left.
  - apply IH; [intros; apply H1; now right|]. intros a b z Ha Hb. apply H2; now right.
  - intros z Hz K. apply in_flat_map in K. destruct K as [y [Hy K]].
    assert (x = y) by (apply (H2 x y z); auto; [now left|now right]). now subst.
Qed.

Lemma perms_of_NoDup {A} k (l : list A) : NoDup l -> length l = k -> NoDup (perms_of k l).
Proof.
  revert l. induction k as [|k IH]; intros l ND L.
  - cbn. constructor; [intros []|constructor].
  - cbn [perms_of]. apply NoDup_flat_map.
    + apply (NoDup_map_inv fst). rewrite picks_fst. exact ND.
    + intros [x r] H. apply picks_spec in H. destruct H as [l1 [l2 [-> ->]]].
      apply Injective_map_NoDup; [intros a b E; now injection E|]. apply IH.
      * now apply NoDup_remove_1 in ND.
      * rewrite app_length in *. cbn in L. lia.
    + intros [x r] [y s] z Hx Hy H1 H2. apply in_map_iff in H1, H2.
      destruct H1 as [t1 [E1 _]]. destruct H2 as [t2 [E2 _]]. rewrite <- E2 in E1. injection E1 as -> _.
      f_equal. apply picks_spec in Hx, Hy.
      destruct Hx as [l1 [l2 [Ea ->]]], Hy as [l3 [l4 [Eb ->]]].
      rewrite Ea in Eb. rewrite Ea in ND. clear -Eb ND.
      revert l3 Eb. induction l1 as [|a l1 IH]; intros [|b l3] Eb; cbn in *.
      * now injection Eb.
      * injection Eb as -> ->. exfalso. inversion ND; subst. apply H1. apply in_or_app. right. now left.
      * injection Eb as -> <-. exfalso. inversion ND; subst. apply H1. apply in_or_app. right. now left.
      * injection Eb as -> Eb. inversion ND; subst. f_equal. now apply IH.
Qed.

Lemma elements_in w : In w (elements n) <-> P w.
Proof. apply perms_of_in. apply seq_length. Qed.
Lemma elements_NoDup : NoDup (elements n).
Proof. apply perms_of_NoDup; [apply seq_NoDup|apply seq_length]. Qed.
Lemma elements_length : length (elements n) = fact n.
Proof.
  unfold elements. assert (K : forall k (l : list nat), length l = k -> length (perms_of k l) = fact k).
  { induction k as [|k IH]; intros l L; [reflexivity|]. cbn [perms_of].
    assert (LP : length (picks l) = S k) by (rewrite <- L; rewrite <- (picks_fst l) at 2; now rewrite map_length).
    assert (F : Forall (fun xr => length (snd xr) = k) (picks l)).
    { apply Forall_forall. intros [x r] H. apply picks_spec in H. destruct H as [l1 [l2 [-> ->]]].
      cbn [snd]. rewrite app_length in *. cbn [length] in L. lia. }
    assert (G : forall ps : list (nat * list nat), Forall (fun xr => length (snd xr) = k) ps ->
       length (flat_map (fun '(x, r) => map (cons x) (perms_of k r)) ps) = length ps * fact k).
    { induction 1 as [|[x r] ps Hr Hps IHp]; [reflexivity|]. cbn [flat_map length]. rewrite app_length, map_length, IHp.
      rewrite IH by exact Hr. lia. }
    rewrite G, LP by exact F. cbn [fact]. lia. }
  apply K. apply seq_length.
Qed.
End PW.
