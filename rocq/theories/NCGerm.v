(** NCGerm.v – the noncrossing partitions of n points form a germ. *)
From Verif Require Import Base ModelPerm PermTheory PermGerm NCTheory Germ GermNF GermAct.
From Coq Require Import Permutation Eqdep_dec.

Section NGerm.
Variable n : nat.
Notation P := (isperm n).
Notation Q := (NCTheory.Q n).
Notation ed := (NCTheory.ed n).
Notation sub := (NCTheory.sub n).
Notation cox := (NCTheory.cox n).
Notation "u ** v" := (pcomp u v) (at level 40, left associativity).

Definition smb (w : list nat) (i j : nat) : bool :=
  (i =? j) || (if ed_dec n w i j then true else false) || (if ed_dec n w j i then true else false).
Lemma smb_ok w i j : smb w i j = true <-> sm n w i j.
Proof.
  unfold smb, sm. destruct (Nat.eqb_spec i j), (ed_dec n w i j), (ed_dec n w j i); cbn; intuition discriminate.
Qed.
Definition ncb (w : list nat) : bool := permb n w && forallb (fun i => smb w i (ap w i)) (seq 0 n).
Lemma ncb_ok w : ncb w = true <-> Q w.
Proof.
  unfold ncb, NCTheory.Q. rewrite andb_true_iff, permb_ok, forallb_forall. split.
  - intros [H K]. split; [exact H|]. intros i Hi. apply smb_ok, K, in_seq. lia.
  - intros [H K]. split; [exact H|]. intros i Hi. apply in_seq in Hi. apply smb_ok, K. lia.
Qed.

Definition NT := {w : list nat | ncb w = true}.
Definition nval (x : NT) : list nat := proj1_sig x.
Lemma nval_Q x : Q (nval x). Proof. apply ncb_ok. apply (proj2_sig x). Qed.
Lemma nval_P x : P (nval x). Proof. apply nval_Q. Qed.
Lemma nval_inj x y : nval x = nval y -> x = y.
Proof.
  destruct x as [x p], y as [y q]. cbn. intros <-. f_equal. apply UIP_dec. apply Bool.bool_dec.
Qed.
Lemma id_ncb : ncb (identity n) = true. Proof. apply ncb_ok, Q_id. Qed.
Definition mkN (w : list nat) : NT :=
  match Bool.bool_dec (ncb w) true with
  | left H => exist _ w H
  | right _ => exist _ (identity n) id_ncb
  end.
Lemma nval_mkN w : Q w -> nval (mkN w) = w.
Proof.
  intros H. unfold mkN. destruct (Bool.bool_dec (ncb w) true) as [E|E]; [reflexivity|].
  exfalso. apply E. now apply ncb_ok.
Qed.
Lemma mkN_nval x : mkN (nval x) = x. Proof. apply nval_inj. apply nval_mkN, nval_Q. Qed.
Definition neqd (x y : NT) : {x = y} + {x <> y}.
Proof.
  destruct (list_eq_dec Nat.eq_dec (nval x) (nval y)) as [E|E].
  - left. now apply nval_inj.
  - right. intros ->. now apply E.
Defined.

Definition nmul (x y : NT) : NT := mkN (nval x ** nval y).
Definition none : NT := mkN (identity n).
Lemma nval_one : nval none = identity n. Proof. apply nval_mkN, Q_id. Qed.
Definition nD : NT := mkN cox.
Lemma nval_D : nval nD = cox. Proof. apply nval_mkN, Q_cox. Qed.
Definition nlc (x : NT) : NT := mkN (cox ** pinv (nval x)).
Lemma nval_lc x : nval (nlc x) = cox ** pinv (nval x). Proof. apply nval_mkN, lc_NC, nval_Q. Qed.
Definition nrc (x : NT) : NT := mkN (pinv (nval x) ** cox).
Lemma nval_rc x : nval (nrc x) = pinv (nval x) ** cox. Proof. apply nval_mkN, rc_NC, nval_Q. Qed.
Definition nred (x y : NT) : Prop := Q (nval x ** nval y) /\ sub (nval x) (nval x ** nval y).
Lemma nval_mul x y : nred x y -> nval (nmul x y) = nval x ** nval y.
Proof. intros [H _]. now apply nval_mkN. Qed.

Lemma P_cox_ : P cox. Proof. apply P_cox. Qed.
Hint Resolve nval_P nval_Q isperm_id isperm_pcomp isperm_pinv P_cox_ Q_cox Q_id : nc.

Lemma inv_l x z : P x -> P z -> pinv x ** (x ** z) = z.
Proof. intros. rewrite <- (pcomp_assoc n), (pcomp_pinv_l n), (pcomp_id_l n) by auto with nc. reflexivity. Qed.
Lemma inv_l' x z : P x -> P z -> x ** (pinv x ** z) = z.
Proof. intros. rewrite <- (pcomp_assoc n), (pcomp_pinv_r n), (pcomp_id_l n) by auto with nc. reflexivity. Qed.

(** product of x and y is noncrossing exactly if y divides the complement of x *)
Lemma nred_sub x y : nred x y <-> sub (nval y) (nval (nrc x)).
Proof.
  rewrite nval_rc. split.
  - intros [H S]. pose proof (div_mono n _ (nval_Q x) _ _ H (Q_cox n) S (sub_cox n _)) as K.
    rewrite inv_l in K by auto with nc. exact K.
  - intros S. destruct (mul_NC n _ (nval_Q x) _ _ (nval_Q y) (Q_cox n) (sub_cox n _) S) as [A [B _]]. now split.
Qed.

Definition NG : Germ.
Proof.
  refine {| T := NT; one := none; D := nD; red := nred; mul := nmul; lc := nlc; rc := nrc |}.
  - intros x. unfold nred. rewrite nval_one, (pcomp_id_l n) by auto with nc. split; [auto with nc|].
    intros a b K. now apply id_no_edge in K.
  - intros x. unfold nred. rewrite nval_one, (pcomp_id_r n) by auto with nc. split; [auto with nc|]. apply sub_refl.
  - intros x. apply nval_inj. unfold nmul. rewrite nval_one, (pcomp_id_l n) by auto with nc. apply nval_mkN, nval_Q.
  - intros x. apply nval_inj. unfold nmul. rewrite nval_one, (pcomp_id_r n) by auto with nc. apply nval_mkN, nval_Q.
  - intros x y z H1 H2. pose proof (nval_mul x y H1) as V. destruct H1 as [A1 B1]. destruct H2 as [A2 B2]. rewrite V in *.
    assert (AS : nval x ** nval y ** nval z = nval x ** (nval y ** nval z)) by (apply (pcomp_assoc n); auto with nc).
    destruct (div_NC n _ (nval_Q x) _ A2) as [C1 C2]; [eapply sub_trans; eassumption|].
    pose proof (div_mono n _ (nval_Q x) _ _ A1 A2 B1 B2) as M. rewrite AS in C1, M. rewrite !inv_l in M by auto with nc.
    rewrite inv_l in C1 by auto with nc.
    assert (R : nred y z) by (split; assumption). split; [exact R|]. pose proof (nval_mul y z R) as V'.
    assert (R' : nred x (nmul y z)).
    { unfold nred. rewrite V', <- AS. split; [exact A2|]. eapply sub_trans; eassumption. }
    split; [exact R'|]. apply nval_inj. rewrite (nval_mul x _ R'), V'. unfold nmul at 1. rewrite V, nval_mkN by exact A2. exact AS.
  - intros x y z H1 H2. pose proof (nval_mul y z H1) as V. destruct H1 as [A1 B1]. destruct H2 as [A2 B2]. rewrite V in *.
    assert (AS : nval x ** nval y ** nval z = nval x ** (nval y ** nval z)) by (apply (pcomp_assoc n); auto with nc).
    destruct (mul_NC n _ (nval_Q x) _ _ (nval_Q y) A2 B2) as [C1 [C2 C3]]; [rewrite inv_l by auto with nc; exact B1|].
    assert (R : nred x y) by (split; assumption). split; [exact R|]. pose proof (nval_mul x y R) as V'.
    assert (R' : nred (nmul x y) z).
    { unfold nred. rewrite V', AS. split; assumption. }
    split; [exact R'|]. apply nval_inj. rewrite (nval_mul _ z R'), V'. unfold nmul at 1. rewrite V, nval_mkN by exact A2. exact AS.
  - intros x y z H1 H2 E. apply (f_equal nval) in E. rewrite !nval_mul in E by assumption. apply nval_inj.
    apply (f_equal (pcomp (pinv (nval x)))) in E. now rewrite !inv_l in E by auto with nc.
  - intros x y z H1 H2 E. apply (f_equal nval) in E. rewrite !nval_mul in E by assumption. apply nval_inj.
    apply (f_equal (fun u => pcomp u (pinv (nval z)))) in E.
    rewrite !(pcomp_assoc n), !(pcomp_pinv_r n), !(pcomp_id_r n) in E by auto with nc. exact E.
  - intros x y H E. apply (f_equal nval) in E. rewrite nval_mul, nval_one in E by exact H. apply nval_inj. rewrite nval_one.
    destruct H as [_ S]. rewrite E in S. apply no_edge_id; [auto with nc|]. intros a b K. apply S in K. now apply id_no_edge in K.
  - intros x. unfold nred. rewrite nval_lc, (pcomp_assoc n), (pcomp_pinv_l n), (pcomp_id_r n) by auto with nc.
    split; [apply Q_cox|apply sub_cox].
  - intros x. apply nval_inj. unfold nmul. rewrite nval_lc, (pcomp_assoc n), (pcomp_pinv_l n), (pcomp_id_r n) by auto with nc.
    reflexivity.
  - intros x. unfold nred. rewrite nval_rc, inv_l' by auto with nc. split; [apply Q_cox|apply sub_cox].
  - intros x. apply nval_inj. unfold nmul. rewrite nval_rc, inv_l' by auto with nc. reflexivity.
  - intros x y. destruct (meet_ex n _ (nval_Q y) _ (nval_Q (nrc x))) as [g [Hg G]].
    assert (Sy : sub g (nval y)) by (intros a b K; now apply G in K).
    destruct (div_NC n g Hg _ (nval_Q y) Sy) as [Qd Sd]. pose proof (proj1 Hg) as Pg.
    assert (R : nred (mkN g) (mkN (pinv g ** nval y))).
    { unfold nred. rewrite !nval_mkN by assumption. rewrite inv_l' by auto with nc. split; [auto with nc|exact Sy]. }
    exists (mkN g), (mkN (pinv g ** nval y)). split; [exact R|]. split; [|split].
    + apply nval_inj. rewrite nval_mul by exact R. rewrite !nval_mkN by assumption. apply inv_l'; auto with nc.
    + apply nred_sub. rewrite nval_mkN by exact Hg. intros a b K. now apply G in K.
    + intros e f R1 R2 R3. assert (Se : sub (nval e) g).
      { intros a b K. apply G. split; [|apply nred_sub in R3; now apply R3].
        rewrite <- R2, nval_mul by exact R1. now apply R1. }
      destruct (div_NC n _ (nval_Q e) _ Hg Se) as [Qe _]. exists (mkN (pinv (nval e) ** g)).
      assert (R' : nred e (mkN (pinv (nval e) ** g))).
      { unfold nred. rewrite nval_mkN by exact Qe. rewrite inv_l' by auto with nc. now split. }
      split; [exact R'|]. apply nval_inj. rewrite nval_mul by exact R'. rewrite !nval_mkN by assumption. apply inv_l'; auto with nc.
Defined.

Lemma le_sub e y : le NG e y <-> sub (nval e) (nval y).
Proof.
  split.
  - intros [f [R <-]]. cbn. rewrite nval_mul by exact R. apply R.
  - intros S. destruct (div_NC n _ (nval_Q e) _ (nval_Q y) S) as [Qe _]. exists (mkN (pinv (nval e) ** nval y)).
    assert (R' : nred e (mkN (pinv (nval e) ** nval y))).
    { unfold nred. rewrite nval_mkN by exact Qe. rewrite inv_l' by auto with nc. split; auto with nc. }
    split; [exact R'|]. apply nval_inj. cbn. rewrite nval_mul by exact R'. rewrite !nval_mkN by assumption. apply inv_l'; auto with nc.
Qed.

(** a transposition as a partition *)
Definition nat2 (a b : nat) : NT := mkN (ptrans n a b).
Lemma Q_ptrans a b : a < b -> b < n -> Q (ptrans n a b) /\ ed (ptrans n a b) a b.
Proof.
  intros L B. assert (PRi : pr n (identity n) a b) by (intros i Hi; rewrite app_id by exact Hi; apply side_refl).
  pose proof (NC_merge n (identity n) a b (Q_id n) L B PRi) as H.
  pose proof (merge_ed n (identity n) a b (isperm_id n) L B PRi) as K.
  rewrite (pcomp_id_r n) in H, K by (apply isperm_ptrans; lia). now split.
Qed.
Lemma nval_nat2 a b : a < b -> b < n -> nval (nat2 a b) = ptrans n a b.
Proof. intros L B. apply nval_mkN. now apply Q_ptrans. Qed.
Lemma ptrans_ed a b p q : a < b -> b < n -> ed (ptrans n a b) p q -> p = a /\ q = b.
Proof.
  intros L B K. destruct (Q_ptrans a b L B) as [_ M].
  assert (N : ~ ed (identity n) p q) by apply id_no_edge.
  assert (X : pcomp (ptrans n a b) (ptrans n a b) = identity n) by (apply ptrans_invol; lia).
  pose proof (split_ed n (ptrans n a b) a b p q (isperm_ptrans n a b ltac:(lia) ltac:(lia)) M) as S. rewrite X in S.
  assert (~ side a b p q) as Sd by tauto.
  assert (O : forall u v, ed (ptrans n a b) u v -> side a b u v -> False).
  { intros u v Ku Su. pose proof (split_ed n (ptrans n a b) a b u v (isperm_ptrans n a b ltac:(lia) ltac:(lia)) M) as S'.
    rewrite X in S'. apply (id_no_edge n u v). tauto. }
  assert (O' : forall u v, sm n (ptrans n a b) u v -> side a b u v -> u = v).
  { intros u v [->|[Ku|Ku]] Su; [reflexivity| |]; exfalso; eapply O; eauto using side_sym. }
  destruct (straddle n _ _ _ _ _ M K Sd) as [Sp Sq]. pose proof K as [Lpq _].
  assert (Z : forall u, sm n (ptrans n a b) u a -> u = a \/ u = b).
  { intros u Ku. destruct (side_dec a b u a) as [Su|Su]; [left; now apply O'|right]. apply O'; [|unfold side in *; lia].
    apply (sm_trans n _ _ a); [exact Ku|now apply ed_sm]. }
  destruct (Z p Sp), (Z q Sq); subst; lia || auto.
Qed.
Lemma nat2_le a b x : a < b -> b < n -> (le NG (nat2 a b) x <-> ed (nval x) a b).
Proof.
  intros L B. rewrite le_sub, nval_nat2 by assumption. split.
  - intros S. apply S. now apply Q_ptrans.
  - intros K p q M. apply ptrans_ed in M; auto. destruct M as [-> ->]. exact K.
Qed.
Lemma atom_ex x : x <> none -> exists a b, a < b /\ b < n /\ ed (nval x) a b.
Proof.
  intros N. destruct (pair_dec n (ed (nval x)) (ed_dec n (nval x))) as [[[a b] K]|K]; cbn [fst snd] in *.
  - exists a, b. pose proof K as [L [B _]]. auto.
  - exfalso. apply N. apply nval_inj. rewrite nval_one. apply no_edge_id; [auto with nc|].
    intros a b M. pose proof M as [L [B _]]. apply (K a b); auto; lia.
Qed.
(** normal pairs: no edge of y is an edge of the complement of x *)
Lemma nrm_edges x y : nrm NG x y <-> forall a b, ~ (ed (nval (nrc x)) a b /\ ed (nval y) a b).
Proof.
  split.
  - intros H a b [K1 K2]. pose proof K1 as [L [B _]].
    assert (E : nat2 a b = none).
    { apply H; [now apply nat2_le|]. apply nred_sub. rewrite nval_nat2 by assumption.
      intros p q M. apply ptrans_ed in M; auto. now destruct M as [-> ->]. }
    apply (f_equal nval) in E. rewrite nval_nat2, nval_one in E by assumption.
    destruct (Q_ptrans a b L B) as [_ M]. rewrite E in M. now apply id_no_edge in M.
  - intros H e Le R. destruct (neqd e none) as [->|N]; [reflexivity|exfalso].
    destruct (atom_ex e N) as [a [b [L [B K]]]]. apply (H a b). apply le_sub in Le. apply nred_sub in R.
    split; [now apply R|now apply Le].
Qed.
Lemma nval_tau x : nval (tau NG x) = pinv cox ** nval x ** cox.
Proof. unfold tau. cbn. rewrite !nval_rc. apply rc_rc; auto with nc. Qed.
Lemma tau_iter k x : nval (Nat.iter k (tau NG) x) = conj n k (nval x).
Proof.
  induction k as [|k IH]; [now rewrite conj_0 by auto with nc|].
  rewrite conj_S by auto with nc. rewrite <- IH.
  change (Nat.iter (S k) (tau NG) x) with (tau NG (Nat.iter k (tau NG) x)). rewrite nval_tau. symmetry. apply rc_rc. auto with nc.
Qed.
End NGerm.
