(** BraidTheory.v – elementary facts about [braid_eq]. *)
From Verif Require Import Base SpecBraid.
From Coq Require Import Setoid Morphisms.

Add Parametric Relation (n : nat) : bword (braid_eq n)
  reflexivity proved by (be_refl n)
  symmetry proved by (be_sym n)
  transitivity proved by (be_trans n)
  as braid_eq_rel.

Add Parametric Morphism (n : nat) : (@List.app (nat * bool)) with signature
  braid_eq n ==> braid_eq n ==> braid_eq n as app_mor.
Proof. intros; now apply be_app. Qed.

Lemma be_cons n x u v : braid_eq n u v -> braid_eq n (x :: u) (x :: v).
Proof. intros H. apply (be_app n [x] [x] u v); [apply be_refl|exact H]. Qed.

Lemma winv_app u v : winv (u ++ v) = winv v ++ winv u.
Proof. unfold winv. now rewrite map_app, rev_app_distr. Qed.
Lemma winv_cons x u : winv (x :: u) = winv u ++ [(fst x, negb (snd x))].
Proof. reflexivity. Qed.
Lemma winv_winv u : winv (winv u) = u.
Proof.
  unfold winv. rewrite map_rev, rev_involutive, map_map. rewrite <- (map_id u) at 2.
  apply map_ext. intros [i e]. cbn. now rewrite negb_involutive.
Qed.

Lemma in_range_app n u v : in_range n (u ++ v) <-> in_range n u /\ in_range n v.
Proof. apply Forall_app. Qed.
Lemma in_range_winv n u : in_range n u -> in_range n (winv u).
Proof.
  intros H. unfold winv. apply Forall_rev. apply Forall_map.
  eapply Forall_impl; [|exact H]. now intros [i e].
Qed.

Lemma be_inv_r n u : in_range n u -> braid_eq n (u ++ winv u) [].
Proof.
  induction u as [|[i e] u IH]; intros H; [apply be_refl|].
  inversion H; subst. rewrite winv_cons. cbn [fst snd] in *.
  change ((i, e) :: u) with ([(i, e)] ++ u). rewrite <- app_assoc.
  rewrite (app_assoc u). rewrite IH by assumption. cbn [List.app]. now apply be_cancel.
Qed.
Lemma be_inv_l n u : in_range n u -> braid_eq n (winv u ++ u) [].
Proof.
  intros H. rewrite <- (winv_winv u) at 2. apply be_inv_r. now apply in_range_winv.
Qed.

Lemma be_cancel_l n u v w : in_range n u -> braid_eq n (u ++ v) (u ++ w) -> braid_eq n v w.
Proof.
  intros H E. rewrite <- (app_nil_l v), <- (app_nil_l w).
  rewrite <- (be_inv_l n u H). rewrite <- !app_assoc. now rewrite E.
Qed.
Lemma be_cancel_r n u v w : in_range n u -> braid_eq n (v ++ u) (w ++ u) -> braid_eq n v w.
Proof.
  intros H E. rewrite <- (app_nil_r v), <- (app_nil_r w).
  rewrite <- (be_inv_r n u H). rewrite !app_assoc. now rewrite E.
Qed.

(** u ~ v for a word with letters out of range is only possible if ... we only
    use the in-range case for inverses. *)
Lemma be_in_range n u v : braid_eq n u v -> (in_range n u <-> in_range n v).
Proof.
  induction 1.
  - reflexivity.
  - now symmetry.
  - etransitivity; eassumption.
  - rewrite !in_range_app. tauto.
  - split; intros; repeat constructor; cbn; lia.
  - split; intros; repeat constructor; cbn; lia.
  - split; intros; repeat constructor; cbn; lia.
Qed.

Lemma winv_cancel_mor n u v : in_range n u -> braid_eq n u v -> braid_eq n (winv u) (winv v).
Proof.
  intros H E. assert (H' : in_range n v) by (now apply (be_in_range n u v)).
  apply (be_cancel_l n u); [exact H|]. rewrite be_inv_r by exact H. rewrite E. now rewrite be_inv_r.
Qed.

Lemma winv_mor n u v : braid_eq n u v -> braid_eq n (winv u) (winv v).
Proof.
  induction 1.
  - apply be_refl.
  - now apply be_sym.
  - etransitivity; eassumption.
  - rewrite !winv_app. now apply be_app.
  - cbn. rewrite negb_involutive. 
    apply (be_cancel n i e H).
  - apply winv_cancel_mor; [repeat constructor; cbn; lia|now apply be_far].
  - apply winv_cancel_mor; [repeat constructor; cbn; lia|now apply be_braid].
Qed.

Add Parametric Morphism (n : nat) : winv with signature braid_eq n ==> braid_eq n as winv_morph.
Proof. intros; now apply winv_mor. Qed.

Lemma concat_repeat_snoc (w : bword) k : concat (repeat w k) ++ w = w ++ concat (repeat w k).
Proof.
  induction k as [|k IH]; cbn [repeat concat]; [now rewrite app_nil_r|].
  rewrite <- app_assoc, IH. reflexivity.
Qed.

Lemma wpow_0 w : wpow w 0 = [].
Proof. reflexivity. Qed.

Lemma wpow_succ_nonneg w k : (0 <= k)%Z -> wpow w (k + 1) = w ++ wpow w k.
Proof.
  intros H. unfold wpow.
  destruct (Z.leb_spec 0 (k + 1)), (Z.leb_spec 0 k); try lia.
  replace (Z.to_nat (k + 1)) with (S (Z.to_nat k)) by lia. reflexivity.
Qed.

Lemma wpow_pred_nonpos w k : (k <= 0)%Z -> wpow w (k - 1) = winv w ++ wpow w k.
Proof.
  intros H. unfold wpow.
  destruct (Z.leb_spec 0 (k - 1)); try lia.
  replace (Z.to_nat (- (k - 1))) with (S (Z.to_nat (- k))) by lia. cbn [repeat concat].
  destruct (Z.leb_spec 0 k); [|reflexivity].
  assert (k = 0%Z) by lia. subst k. reflexivity.
Qed.

Lemma wpow_succ n w k : in_range n w -> braid_eq n (wpow w (k + 1)) (w ++ wpow w k).
Proof.
  intros H. destruct (Z.le_gt_cases 0 k).
  - rewrite wpow_succ_nonneg by assumption. apply be_refl.
  - rewrite <- (app_nil_l (wpow w (k + 1))). rewrite <- (be_inv_r n w H).
    rewrite <- app_assoc. rewrite <- wpow_pred_nonpos by lia. 
    replace (k + 1 - 1)%Z with k by lia. apply be_refl.
Qed.

Lemma wpow_pred n w k : in_range n w -> braid_eq n (wpow w (k - 1)) (winv w ++ wpow w k).
Proof.
  intros H. replace k with (k - 1 + 1)%Z at 2 by lia. rewrite (wpow_succ n w) by exact H.
  rewrite app_assoc, be_inv_l by exact H. apply be_refl.
Qed.

Lemma Zind2 (P : Z -> Prop) :
  P 0%Z -> (forall k, P k -> P (k + 1)%Z) -> (forall k, P k -> P (k - 1)%Z) -> forall k, P k.
Proof.
  intros H0 HS HP k. apply Z.peano_ind; [exact H0| |].
  - intros x Hx. replace (Z.succ x) with (x + 1)%Z by lia. now apply HS.
  - intros x Hx. replace (Z.pred x) with (x - 1)%Z by lia. now apply HP.
Qed.

Lemma wpow_add n w j k : in_range n w -> braid_eq n (wpow w (j + k)) (wpow w j ++ wpow w k).
Proof.
  intros H. induction j as [|j IH|j IH] using Zind2.
  - apply be_refl.
  - replace (j + 1 + k)%Z with (j + k + 1)%Z by lia.
    rewrite !(wpow_succ n w) by exact H. rewrite IH, app_assoc. apply be_refl.
  - replace (j - 1 + k)%Z with (j + k - 1)%Z by lia.
    rewrite !(wpow_pred n w) by exact H. rewrite IH, app_assoc. apply be_refl.
Qed.

Lemma in_range_concat_repeat n w k : in_range n w -> in_range n (concat (repeat w k)).
Proof.
  intros H. induction k; cbn; [constructor|]. apply in_range_app. now split.
Qed.
Lemma in_range_wpow n w k : in_range n w -> in_range n (wpow w k).
Proof.
  intros H. unfold wpow. destruct (0 <=? k)%Z; apply in_range_concat_repeat; [exact H|now apply in_range_winv].
Qed.
Lemma in_range_pword n l : Forall (fun i => i + 1 < n) l <-> in_range n (pword l).
Proof. unfold pword, in_range. rewrite Forall_map. reflexivity. Qed.
Lemma wpow_1 w : wpow w 1 = w.
Proof. change (wpow w 1) with (w ++ []). apply app_nil_r. Qed.
Lemma wpow_m1 w : wpow w (-1) = winv w.
Proof. change (wpow w (-1)) with (winv w ++ []). apply app_nil_r. Qed.
