(** EmbedTheory.v – the braid group on m strands is a subgroup of the braid group on
    n strands, n >= m. *)
From Verif Require Import Base ModelPerm PermTheory WeakOrder PermWords SpecBraid BraidTheory Germ GermNF GermAct GermBraid ModelBraid TableTheory PermGerm.
From Coq Require Import Permutation Setoid Morphisms.
Local Open Scope nat_scope.

Lemma be_more m n u v : m <= n -> braid_eq m u v -> braid_eq n u v.
Proof.
  intros L. induction 1 as [u|u v _ IH|u v w _ IH1 _ IH2|u u' v v' _ IH1 _ IH2|i e Hi|i j Hi Hj|i Hi].
  - apply be_refl.
  - now apply be_sym.
  - eapply be_trans; eauto.
  - now apply be_app.
  - apply be_cancel. lia.
  - apply be_far; lia.
  - apply be_braid. lia.
Qed.
Lemma in_range_more m n w : m <= n -> in_range m w -> in_range n w.
Proof. intros L H. eapply Forall_impl; [|exact H]. cbn. intros; lia. Qed.

Section Embed.
Variables m n : nat.
Hypothesis Hmn : m < n.
Definition tl : list nat := seq m (n - m).
Definition ex (w : list nat) : list nat := w ++ tl.
Lemma ex_perm w : isperm m w -> isperm n (ex w).
Proof using Hmn. intros H. unfold isperm, ex, tl in *. rewrite H. rewrite <- seq_app. replace (m + (n - m)) with n by lia. reflexivity. Qed.
Lemma ap_ex w i : isperm m w -> i < n -> nth i (ex w) 0 = if i <? m then nth i w 0 else i.
Proof using Hmn.
  intros H Hi. pose proof (isperm_length m w H) as L. unfold ex. destruct (Nat.ltb_spec i m) as [K|K]; [apply app_nth1; lia|]. rewrite app_nth2 by lia. unfold tl. rewrite seq_nth by lia. lia.
Qed.
Lemma ap_lt w i : isperm m w -> i < m -> nth i w 0 < m.
Proof using Hmn. intros H Hi. assert (Q : In (nth i w 0) (seq 0 m)) by (apply (Permutation_in _ H), nth_In; rewrite (isperm_length m w H); exact Hi). apply in_seq in Q. lia. Qed.
Lemma ex_pinv w : isperm m w -> pinv (ex w) = ex (pinv w).
Proof using Hmn.
  intros H. pose proof (ex_perm w H) as He. pose proof (isperm_pinv _ _ H) as Hi. pose proof (ex_perm _ Hi) as Hei. apply (isperm_ext n); [now apply isperm_pinv|exact Hei|].
  intros x Hx. destruct (Nat.ltb_spec x m) as [K|K].
  - rewrite (ap_ex _ x Hi Hx). destruct (Nat.ltb_spec x m); [|lia]. pose proof (ap_lt _ x Hi K) as Q.
    assert (E : nth (nth x (pinv w) 0) (ex w) 0 = x). { rewrite (ap_ex w) by (auto; lia). destruct (Nat.ltb_spec (nth x (pinv w) 0) m); [|lia]. now apply (app_pinv m). }
    rewrite <- E at 1. apply (pinv_app n); [exact He|lia].
  - rewrite (ap_ex _ x Hi Hx). destruct (Nat.ltb_spec x m); [lia|]. assert (E : nth x (ex w) 0 = x) by (rewrite (ap_ex w) by auto; destruct (Nat.ltb_spec x m); [lia|reflexivity]).
    rewrite <- E at 1. now apply (pinv_app n).
Qed.
Lemma ex_id : ex (identity m) = identity n.
Proof using Hmn.
  apply (isperm_ext n); [apply ex_perm, isperm_id|apply isperm_id|]. intros i Hi. rewrite ap_ex by (auto; apply isperm_id). rewrite (app_id n) by exact Hi. destruct (Nat.ltb_spec i m); [now apply app_id|reflexivity].
Qed.
Lemma ex_sg i : i + 1 < m -> ex (sg m i) = sg n i.
Proof using Hmn.
  intros H. pose proof (isperm_sg m i H) as P. apply (isperm_ext n); [now apply ex_perm|apply isperm_sg; lia|]. intros k Hk. rewrite ap_ex by auto. rewrite (app_sg n) by lia. destruct (Nat.ltb_spec k m) as [K|K]; [now rewrite (app_sg m) by lia|]. destruct (Nat.eqb_spec k i); [lia|]. destruct (Nat.eqb_spec k (i + 1)); [lia|reflexivity].
Qed.
Lemma ex_pcomp v w : isperm m v -> isperm m w -> ex (pcomp v w) = pcomp (ex v) (ex w).
Proof using Hmn.
  intros Hv Hw. pose proof (isperm_pcomp _ _ _ Hv Hw) as P. apply (isperm_ext n); [now apply ex_perm|apply isperm_pcomp; now apply ex_perm|]. intros k Hk. rewrite ap_ex by auto.
  rewrite (app_pcomp n (ex v) (ex w)) by (try apply ex_perm; auto). rewrite (ap_ex w k) by auto. destruct (Nat.ltb_spec k m) as [K|K].
  - rewrite (app_pcomp m) by auto. pose proof (ap_lt w k Hw K). rewrite (ap_ex v) by (auto; lia). destruct (Nat.ltb_spec (nth k w 0) m); [reflexivity|lia].
  - rewrite (ap_ex v) by auto. destruct (Nat.ltb_spec k m); [lia|reflexivity].
Qed.
Lemma ex_Rdes w i : isperm m w -> i + 1 < n -> (Rdes (ex w) i <-> i + 1 < m /\ Rdes w i).
Proof using Hmn.
  intros H Hi. unfold Rdes. rewrite !ap_ex by (auto; lia). destruct (Nat.ltb_spec (i + 1) m) as [K|K].
  - destruct (Nat.ltb_spec i m); [|lia]. tauto.
  - destruct (Nat.ltb_spec i m) as [Q|Q]; [pose proof (ap_lt w i H Q)|]; lia.
Qed.
Lemma ex_Ldes w i : isperm m w -> i + 1 < n -> (Ldes (ex w) i <-> i + 1 < m /\ Ldes w i).
Proof using Hmn. intros H Hi. unfold Ldes. rewrite ex_pinv by exact H. apply (ex_Rdes (pinv w) i); [now apply isperm_pinv|exact Hi]. Qed.
Lemma ex_redw u w : redw m u w -> redw n u (ex w).
Proof using Hmn.
  induction 1 as [|i u w Hi Hw Hp R IH]; [rewrite ex_id; constructor|]. rewrite ex_pcomp by (auto; now apply isperm_sg). rewrite ex_sg by exact Hi. pose proof (ex_perm w Hw) as Pw. constructor; [lia|exact Pw| |exact IH].
  apply pred_sg_l; [exact Pw|lia|]. apply pred_sg_l in Hp; auto. rewrite ex_Ldes by (auto; lia). tauto.
Qed.
Lemma ex_locnorm w z : isperm m w -> isperm m z -> locnorm m w z -> locnorm n (ex w) (ex z).
Proof using Hmn. intros Hw Hz H i Hi L. apply ex_Ldes in L; auto. apply ex_Rdes; auto. destruct L as [K L]. auto. Qed.
(** *** simples *)
Hypothesis m2 : 2 <= m.
Definition emb (x : PT m) : PT n := PermGerm.mkT n (ex (val m x)).
Lemma val_emb x : val n (emb x) = ex (val m x). Proof using Hmn. apply val_mkT, ex_perm, val_P. Qed.
Lemma emb_inj x y : emb x = emb y -> x = y.
Proof using Hmn. intros H. apply (f_equal (val n)) in H. rewrite !val_emb in H. apply val_inj. unfold ex in H. now apply app_inv_tail in H. Qed.
Lemma emb_one x : emb x = pone n <-> x = pone m.
Proof using Hmn.
  split; intros H.
  - apply emb_inj. rewrite H. apply val_inj. rewrite val_emb, !val_one. symmetry. apply ex_id.
  - subst. apply val_inj. rewrite val_emb, !val_one. apply ex_id.
Qed.
Lemma emb_D x : emb x <> pD n.
Proof using Hmn m2. intros H. apply (f_equal (fun y => nth (n - 1) (val n y) 0)) in H. rewrite val_emb, val_D, app_longest, ap_ex in H by (auto using val_P; lia). destruct (Nat.ltb_spec (n - 1) m); lia. Qed.
Lemma emb_lift x : braid_eq n (lift (PG n) (pwd n) (emb x)) (lift (PG m) (pwd m) x).
Proof using Hmn.
  destruct (plift m x) as (u & _ & R & ->). destruct (plift n (emb x)) as (v & _ & R' & ->). rewrite val_emb in R'. apply (matsumoto n _ _ _ R'). now apply ex_redw.
Qed.
Lemma emb_nf l : nf (PG m) l -> nf (PG n) (map emb l).
Proof using Hmn.
  induction l as [|x l IH]; intros H; [exact Logic.I|]. cbn [map]. destruct H as [H1 H2]. split; [|now apply IH]. destruct l as [|y l]; [exact Logic.I|]. cbn [map]. apply nrm_loc. rewrite !val_emb. apply ex_locnorm; [apply val_P|apply val_P|]. now apply nrm_loc.
Qed.
Local Notation trimm := (trim (PG m) (peqd m)).
Local Notation trimn := (trim (PG n) (peqd n)).
Lemma emb_trim l : trimn (map emb l) = map emb (trimm l).
Proof using Hmn.
  induction l as [|x l IH]; [reflexivity|]. cbn [map trim]. rewrite IH. destruct (trimm l) as [|y t]; [|reflexivity]. cbn [map]. change (one (PG n)) with (pone n). change (one (PG m)) with (pone m).
  destruct (peqd n (emb x) (pone n)) as [E|E], (peqd m x (pone m)) as [E'|E']; try reflexivity; exfalso; [apply E'; now apply emb_one|apply E; now apply emb_one].
Qed.
Lemma emb_lead l : dropD (PG n) (peqd n) (map emb l) = map emb l /\ lead (PG n) (peqd n) (map emb l) = 0.
Proof using Hmn m2. destruct l as [|x l]; [auto|]. cbn [map dropD lead]. change (D (PG n)) with (pD n). destruct (peqd n (emb x) (pD n)) as [E|E]; [exfalso; exact (emb_D x E)|auto]. Qed.
Lemma emb_liftl l : braid_eq n (liftl (PG n) (lift (PG n) (pwd n)) (map emb l)) (liftl (PG m) (lift (PG m) (pwd m)) l).
Proof using Hmn. induction l as [|x l IH]; [apply be_refl|]. cbn [map liftl flat_map]. apply be_app; [apply emb_lift|exact IH]. Qed.
Lemma trim_D k l : trimm l = l -> trimm (repeat (pD m) k ++ l) = repeat (pD m) k ++ l.
Proof using m2.
  intros H. induction k as [|k IH]; [exact H|]. cbn [repeat List.app trim]. rewrite IH. destruct (repeat (pD m) k ++ l) as [|y t]; [|reflexivity]. change (one (PG m)) with (pone m). destruct (peqd m (pD m) (pone m)) as [E|E]; [exfalso; exact (pD_ne_one m m2 E)|reflexivity].
Qed.
Local Notation LM := (liftl (PG m) (lift (PG m) (pwd m))).
Lemma embed_lists L L' : nf (PG m) L -> nf (PG m) L' -> trimm L = L -> trimm L' = L' -> braid_eq n (LM L) (LM L') -> L = L'.
Proof using Hmn m2.
  intros N N' Tr Tr' B. assert (n2 : 2 <= n) by lia.
  assert (C : forall l, nf (PG m) l -> trimm l = l -> canon (PG n) (peqd n) 0 (map emb l) = (0%Z, map emb l)).
  { intros l _ Tl. unfold canon. destruct (emb_lead l) as [-> ->]. rewrite emb_trim, Tl. reflexivity. }
  assert (O : forall l, nf (PG m) l -> trimm l = l -> ok (PG n) (peqd n) (0%Z, map emb l)). { intros l Nl Tl. rewrite <- C by assumption. apply canon_ok. now apply emb_nf. }
  assert (Q : (0%Z, map emb L) = (0%Z, map emb L')).
  { apply (word_of_inj (PG n) (prn n) (prn_ok n) (peqd n) (pD_ne_one n n2) n (lift (PG n) (pwd n)) (PermGerm.atom n) (lift_range_ n) (lift_mul_ n) (lift_atom_ n) (act_braid_ n n2) (act_far_ n n2) (act_lift_ n n2)); [now apply O|now apply O|].
    unfold word_of. cbn [fst snd]. apply be_app; [apply be_refl|]. eapply be_trans; [apply emb_liftl|]. eapply be_trans; [exact B|]. apply be_sym, emb_liftl. }
  assert (Q2 : map emb L = map emb L') by exact (f_equal snd Q). clear -Hmn Q2. revert L' Q2. induction L as [|x L IH]; intros [|y L'] H; try discriminate; [reflexivity|]. cbn [map] in H.
  pose proof (f_equal (hd (emb x)) H) as H1. cbn [hd] in H1. apply emb_inj in H1. subst y. f_equal. apply IH. exact (f_equal (@List.tl _) H).
Qed.
Lemma nf_D k l : nf (PG m) l -> nf (PG m) (repeat (pD m) k ++ l).
Proof using All.
  intros H. induction k as [|k IH]; [exact H|]. cbn [repeat List.app]. split; [|exact IH]. destruct (repeat (pD m) k ++ l) as [|y t]; [exact Logic.I|]. apply nrm_loc. intros i Hi _. unfold Rdes. rewrite val_D, !app_longest by lia. lia.
Qed.
Lemma embed_words u w : in_range m u -> in_range m w -> braid_eq n u w -> braid_eq m u w.
Proof using Hmn m2.
  intros Hu Hw B. set (nfm := nfw (PG m) (prn m) (peqd m) (PermGerm.atom m)). set (wo := word_of (PG m) (lift (PG m) (pwd m))). set (DD := lift (PG m) (pwd m) (D (PG m))).
  assert (S : forall v, in_range m v -> braid_eq m (wo (nfm v)) v) by (intros v Hv; exact (nfw_sound (PG m) (prn m) (prn_ok m) (peqd m) m (lift (PG m) (pwd m)) (PermGerm.atom m) (lift_range_ m) (lift_mul_ m) (lift_atom_ m) v Hv)).
  assert (O : forall v, ok (PG m) (peqd m) (nfm v)) by (intros v; apply (nfw_ok (PG m) (prn m) (prn_ok m))).
  assert (K : exists k, (0 <= k + fst (nfm u) /\ 0 <= k + fst (nfm w))%Z) by (exists (Z.abs (fst (nfm u)) + Z.abs (fst (nfm w)))%Z; lia). destruct K as (k & K1 & K2).
  assert (P : forall v, in_range m v -> (0 <= k + fst (nfm v))%Z -> braid_eq m (LM (repeat (pD m) (Z.to_nat (k + fst (nfm v))) ++ snd (nfm v))) (wpow DD k ++ v)).
  { intros v Hv Hk. change (pD m) with (D (PG m)). rewrite liftl_app, liftl_repeat_D. rewrite Z2Nat.id by exact Hk. fold DD. eapply be_trans; [|apply be_app; [apply be_refl|apply S; exact Hv]]. unfold wo, word_of. fold DD. rewrite app_assoc. apply be_app; [|apply be_refl]. apply wpow_add. apply lift_range_. }
  assert (E : repeat (pD m) (Z.to_nat (k + fst (nfm u))) ++ snd (nfm u) = repeat (pD m) (Z.to_nat (k + fst (nfm w))) ++ snd (nfm w)).
  { destruct (O u) as (Nu & _ & Tu). destruct (O w) as (Nw & _ & Tw). apply embed_lists; [now apply nf_D|now apply nf_D|now apply trim_D|now apply trim_D|].
    eapply be_trans; [apply (be_more m n); [lia|apply P; assumption]|]. eapply be_trans; [|apply be_sym, (be_more m n); [lia|apply P; assumption]]. apply be_app; [apply be_refl|exact B]. }
  assert (F : braid_eq m (wpow DD k ++ u) (wpow DD k ++ w)). { eapply be_trans; [apply be_sym, P; assumption|]. rewrite E. apply P; assumption. }
  apply (be_cancel_l m (wpow DD k)); [|exact F]. apply in_range_wpow, lift_range_.
Qed.
End Embed.
(** braids of m strands are equal exactly when they are equal with more strands *)
Theorem embed m n u w : 2 <= m -> m <= n -> in_range m u -> in_range m w -> (braid_eq m u w <-> braid_eq n u w).
Proof.
  intros M2 L Hu Hw. split; [now apply be_more|]. destruct (Nat.eq_dec m n) as [->|N]; [auto|]. apply embed_words; auto. lia.
Qed.
