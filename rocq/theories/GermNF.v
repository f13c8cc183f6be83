(** GermNF.v – normal forms of lists of simples over a germ. *)
From Verif Require Import Base Germ.

Section NFTheory.
Variable G : Germ.
Notation T := (T G).
Notation one := (one G).
Notation D := (D G).
Notation red := (red G).
Notation "x ** y" := (mul G x y) (at level 40, left associativity).
Notation lc := (lc G).
Notation rc := (rc G).
Variable rn : T -> T -> T * T.
Hypothesis rn_ok : forall x y, rnspec G x y (fst (rn x y)) (snd (rn x y)).

Implicit Types a b c x y z w : T.
Implicit Types l p q r : list T.

Lemma rn_eq x y w z : rnspec G x y w z -> rn x y = (w, z).
Proof.
  intros H. destruct (rn x y) as [w' z'] eqn:E.
  pose proof (rn_ok x y) as K. rewrite E in K. cbn [fst snd] in K.
  destruct (rn_unique G x y w z w' z' H K) as [-> ->]. reflexivity.
Qed.

Lemma rn_ok2 x y w z : rn x y = (w, z) -> rnspec G x y w z.
Proof. intros E. pose proof (rn_ok x y) as K. rewrite E in K. exact K. Qed.

Lemma rn_fst_eq x y z : rn x y = (x, z) -> z = y /\ nrm G x y.
Proof.
  intros E. apply rn_ok2 in E. destruct E as [c [H1 [H2 [H3 [H4 H5]]]]].
  assert (c = one).
  { apply (cancel_l G x); [exact H1|apply red_1r|]. now rewrite (mul_1r G). }
  subst c. rewrite (mul_1l G) in H4. subst z. split; [reflexivity|exact H5].
Qed.

(** ** Left multiplication and normal lists *)
Fixpoint lm a l : list T :=
  match l with
  | [] => [a]
  | x :: l' => let (y, b) := rn a x in y :: lm b l'
  end.

Fixpoint nf l : Prop :=
  match l with
  | [] => True
  | x :: l' => match l' with [] => True | y :: _ => nrm G x y end /\ nf l'
  end.

Definition NF l : list T := fold_right lm [] l.

Lemma lm_length a l : length (lm a l) = S (length l).
Proof.
  revert a; induction l as [|x l IH]; intros a; cbn [lm]; [reflexivity|].
  destruct (rn a x) as [y b]. cbn [length]. now rewrite IH.
Qed.

Lemma NF_length l : length (NF l) = length l.
Proof.
  induction l as [|x l IH]; cbn [NF fold_right length]; [reflexivity|].
  change (fold_right lm [] l) with (NF l). now rewrite lm_length, IH.
Qed.

Lemma nf_tail x l : nf (x :: l) -> nf l.
Proof. now intros [_ H]. Qed.

Lemma nf_cons2 x y l : nf (x :: y :: l) <-> nrm G x y /\ nf (y :: l).
Proof. reflexivity. Qed.

Lemma lm_nf a l : nf l -> nf (lm a l).
Proof.
  revert a; induction l as [|x l IH]; intros a H; cbn [lm].
  - now split.
  - destruct (rn a x) as [y b] eqn:E. pose proof (rn_ok2 _ _ _ _ E) as K.
    split; [|apply IH; now apply (nf_tail x)].
    destruct l as [|x' l]; cbn [lm].
    + now apply (rnspec_nrm G) in K.
    + destruct (rn b x') as [y' b'] eqn:E'. apply rn_ok2 in E'.
      destruct H as [H _]. eapply domino1; eassumption.
Qed.

Lemma NF_nf l : nf (NF l).
Proof.
  induction l as [|x l IH]; cbn [NF fold_right]; [exact I|]. now apply lm_nf.
Qed.

Lemma lm_compose a b l : red a b -> lm a (lm b l) = lm (a ** b) l ++ [one].
Proof.
  revert a b; induction l as [|x l IH]; intros a b H; cbn [lm].
  - rewrite (rn_eq a b (a ** b) one) by now apply rn_red. reflexivity.
  - destruct (rn b x) as [y1 b1] eqn:E1. cbn [lm].
    destruct (rn a y1) as [z1 a1] eqn:E2.
    apply rn_ok2 in E1, E2.
    destruct (rn_compose G a b x y1 b1 z1 a1 H E1 E2) as [K1 K2].
    rewrite (rn_eq _ _ _ _ K2). cbn [List.app]. now rewrite IH.
Qed.

Lemma rn_one_l x : rn one x = (x, one).
Proof.
  apply rn_eq. rewrite <- (mul_1l G x) at 2. apply rn_red. apply red_1l.
Qed.

Lemma rn_one_r x : rn x one = (x, one).
Proof. apply rn_eq. apply rn_nrm. apply nrm_one. Qed.

Lemma rn_D_l x : rn D x = (D, x).
Proof. apply rn_eq. apply rn_nrm. apply nrm_D_l. Qed.

Lemma lm_one l : lm one l = l ++ [one].
Proof.
  induction l as [|x l IH]; cbn [lm]; [reflexivity|]. rewrite rn_one_l. cbn [List.app]. now rewrite IH.
Qed.

Lemma lm_snoc_one a l : lm a (l ++ [one]) = lm a l ++ [one].
Proof.
  revert a; induction l as [|x l IH]; intros a; cbn [List.app lm].
  - now rewrite rn_one_r.
  - destruct (rn a x) as [y b]. cbn [List.app]. now rewrite IH.
Qed.

Lemma lm_app_ones a l m : lm a (l ++ repeat one m) = lm a l ++ repeat one m.
Proof.
  revert l; induction m as [|m IH]; intros l; cbn [repeat].
  - now rewrite !app_nil_r.
  - replace (l ++ one :: repeat one m) with ((l ++ [one]) ++ repeat one m)
      by (rewrite <- app_assoc; reflexivity).
    rewrite IH, lm_snoc_one, <- app_assoc. reflexivity.
Qed.

Lemma lm_nf_id x l : nf (x :: l) -> lm x l = x :: l.
Proof.
  revert x; induction l as [|y l IH]; intros x H; cbn [lm]; [reflexivity|].
  destruct H as [H1 H2]. rewrite (rn_eq x y x y) by now apply rn_nrm. now rewrite IH.
Qed.

Lemma lm_D l : nf l -> lm D l = D :: l.
Proof.
  intros H. apply lm_nf_id. split; [|exact H]. destruct l; [exact I|apply nrm_D_l].
Qed.

Lemma NF_fix l : nf l -> NF l = l.
Proof.
  induction l as [|x l IH]; intros H; cbn [NF fold_right]; [reflexivity|].
  change (fold_right lm [] l) with (NF l). rewrite IH by now apply (nf_tail x). now apply lm_nf_id.
Qed.

(** ** Elementary renormalisation at position i *)
Fixpoint Nst (i : nat) l : list T :=
  match i, l with
  | 0, x :: y :: l' => let (w, z) := rn x y in w :: z :: l'
  | S i', x :: l' => x :: Nst i' l'
  | _, _ => l
  end.

Lemma Nst_length i l : length (Nst i l) = length l.
Proof.
  revert l; induction i as [|i IH]; intros [|x l]; cbn [Nst]; try reflexivity.
  - destruct l as [|y l]; [reflexivity|]. destruct (rn x y); reflexivity.
  - cbn [length]. now rewrite IH.
Qed.

Lemma lm_step x y w z l : rn x y = (w, z) -> lm w (lm z l) = lm x (lm y l).
Proof.
  intros E. apply rn_ok2 in E. destruct E as [c [H1 [H2 [H3 [H4 _]]]]]. subst w y.
  apply (app_inv_tail [one]).
  rewrite <- (lm_compose x c) by exact H1. rewrite (lm_compose c z) by exact H3.
  now rewrite lm_snoc_one.
Qed.

Lemma NF_Nst i l : NF (Nst i l) = NF l.
Proof.
  revert l; induction i as [|i IH]; intros [|x l]; cbn [Nst]; try reflexivity.
  - destruct l as [|y l]; [reflexivity|]. destruct (rn x y) as [w z] eqn:E.
    cbn [NF fold_right]. now apply lm_step.
  - cbn [NF fold_right]. fold (NF (Nst i l)). fold (NF l). now rewrite IH.
Qed.

Definition apw (ws : list nat) l : list T := fold_left (fun l i => Nst i l) ws l.

Lemma apw_app u v l : apw (u ++ v) l = apw v (apw u l).
Proof. apply fold_left_app. Qed.
Lemma apw_length u l : length (apw u l) = length l.
Proof.
  revert l; induction u as [|i u IH]; intros l; cbn [apw fold_left]; [reflexivity|].
  fold (apw u (Nst i l)). rewrite IH. apply Nst_length.
Qed.
Lemma NF_apw u l : NF (apw u l) = NF l.
Proof.
  revert l; induction u as [|i u IH]; intros l; cbn [apw fold_left]; [reflexivity|].
  fold (apw u (Nst i l)). rewrite IH. apply NF_Nst.
Qed.
Lemma apw_cons_S u x l : apw (map S u) (x :: l) = x :: apw u l.
Proof.
  revert l; induction u as [|i u IH]; intros l; cbn [apw fold_left map]; [reflexivity|].
  apply IH.
Qed.

(** Uniqueness of normal lists under moves. *)
Lemma nf_unique l l' : nf l -> nf l' -> NF l = NF l' -> l = l'.
Proof. intros H H' E. now rewrite <- (NF_fix l H), E, NF_fix. Qed.

(** ** Right multiplication *)
Fixpoint rm p x : list T :=
  match p with
  | [] => [x]
  | s :: p' =>
      match rm p' x with
      | [] => [s]
      | y :: q => let (w, z) := rn s y in w :: z :: q
      end
  end.

Lemma rm_length p x : length (rm p x) = S (length p).
Proof.
  induction p as [|s p IH]; cbn [rm]; [reflexivity|].
  destruct (rm p x) as [|y q]; [discriminate|].
  destruct (rn s y). cbn [length] in *. lia.
Qed.

Lemma rm_nf p x : nf p -> nf (rm p x).
Proof.
  assert (K : nf p -> nf (rm p x) /\
     match p with
     | [] => True
     | s :: p' => exists y w z q, rm p' x = y :: q /\ rn s y = (w, z) /\ rm p x = w :: z :: q
     end).
  { induction p as [|s p IH]; intros H.
    - split; [split; exact I|exact I].
    - destruct (IH (nf_tail _ _ H)) as [H1 H2]. clear IH.
      destruct (rm p x) as [|y q] eqn:E.
      { pose proof (rm_length p x) as L. rewrite E in L. discriminate. }
      cbn [rm]. rewrite E. destruct (rn s y) as [w z] eqn:E1.
      split; [|exists y, w, z, q; repeat split; auto].
      apply nf_cons2. split; [eapply rnspec_nrm; eapply rn_ok2; exact E1|].
      split; [|now apply (nf_tail y)].
      destruct q as [|t' q]; [exact I|].
      destruct p as [|s' p].
      { cbn [rm] in E. discriminate. }
      destruct H2 as [y0 [w0 [z0 [q0 [A1 [A2 A3]]]]]].
      injection A3 as -> -> ->.
      destruct H as [H _].
      eapply domino2; [exact H|apply rn_ok2; exact A2|apply rn_ok2; exact E1]. }
  intros H. now apply K.
Qed.

Lemma rm_apw p x r :
  apw (rev (seq 0 (length p))) (p ++ x :: r) = rm p x ++ r.
Proof.
  induction p as [|s p IH]; [reflexivity|].
  cbn [length seq rev].
  replace (rev (seq 1 (length p))) with (map S (rev (seq 0 (length p))))
    by (now rewrite map_rev, seq_shift).
  rewrite apw_app. cbn [List.app]. rewrite apw_cons_S, IH.
  cbn [apw fold_left rm]. pose proof (rm_length p x) as L.
  destruct (rm p x) as [|y q]; [discriminate|]. cbn [List.app Nst].
  destruct (rn s y). reflexivity.
Qed.

(** Early exit: if the pair is unchanged the rest of the comb does nothing. *)
Lemma rm_nochange p x s y : nf (p ++ [s]) -> rn s x = (s, y) -> rm (p ++ [s]) x = p ++ [s; x].
Proof.
  intros Hp E. destruct (rn_fst_eq _ _ _ E) as [-> Hn].
  induction p as [|t p IH].
  - cbn [List.app rm]. now rewrite E.
  - cbn [List.app rm]. cbn [List.app] in Hp. rewrite (IH (nf_tail _ _ Hp)).
    destruct p as [|t' p]; cbn [List.app] in *.
    + rewrite (rn_eq t s t s) by (apply rn_nrm; apply Hp). reflexivity.
    + rewrite (rn_eq t t' t t') by (apply rn_nrm; apply Hp). reflexivity.
Qed.

(** ** The 0-Hecke relations, on lists of a fixed length. *)
Lemma Nst_idem i l : Nst i (Nst i l) = Nst i l.
Proof.
  revert l; induction i as [|i IH]; intros [|x l]; cbn [Nst]; try reflexivity.
  - destruct l as [|y l]; [reflexivity|]. destruct (rn x y) as [w z] eqn:E. cbn [Nst].
    rewrite (rn_eq w z w z); [reflexivity|]. apply rn_nrm. eapply rnspec_nrm, rn_ok2; exact E.
  - now rewrite IH.
Qed.

Lemma Nst_comm i j l : i + 2 <= j -> Nst i (Nst j l) = Nst j (Nst i l).
Proof.
  revert j l; induction i as [|i IH]; intros j l H.
  - destruct j as [|[|j]]; try lia. destruct l as [|x [|y l]]; cbn [Nst]; try reflexivity.
    destruct (rn x y). cbn [Nst]. reflexivity.
  - destruct j as [|j]; [lia|]. destruct l as [|x l]; cbn [Nst]; [reflexivity|].
    rewrite IH by lia. reflexivity.
Qed.

Lemma Nst_braid0 x y z :
  Nst 0 (Nst 1 (Nst 0 [x; y; z])) = Nst 1 (Nst 0 (Nst 1 [x; y; z])).
Proof.
  apply nf_unique.
  - cbn [Nst]. destruct (rn x y) as [a b] eqn:E1. 
    assert (H : nf (rm [a; b] z)).
    { apply rm_nf. repeat split. eapply rnspec_nrm, rn_ok2; exact E1. }
    cbn [rm] in H. destruct (rn b z) as [c d]. cbn [rm] in H.
    destruct (rn a c) as [e f]. exact H.
  - cbn [Nst]. destruct (rn y z) as [a b] eqn:E1.
    assert (H : nf (lm x [a; b])).
    { apply lm_nf. repeat split. eapply rnspec_nrm, rn_ok2; exact E1. }
    cbn [lm] in H. destruct (rn x a) as [c d]. cbn [lm] in H.
    destruct (rn d b) as [e f]. exact H.
  - change (NF (apw [0; 1; 0] [x; y; z]) = NF (apw [1; 0; 1] [x; y; z])).
    now rewrite !NF_apw.
Qed.

Lemma Nst_braid i l : Nst i (Nst (S i) (Nst i l)) = Nst (S i) (Nst i (Nst (S i) l)).
Proof.
  revert l; induction i as [|i IH]; intros l.
  - destruct l as [|x [|y [|z l]]]; cbn [Nst]; try reflexivity.
    + destruct (rn x y) eqn:E. cbn [Nst]. 
      change (Nst 0 (Nst 0 [x; y]) = Nst 0 [x;y]) with (Nst 0 (Nst 0 [x; y]) = Nst 0 [x;y]).
      pose proof (Nst_idem 0 [x; y]) as K. cbn [Nst] in K. rewrite E in K. exact K.
    + pose proof (Nst_braid0 x y z) as K. cbn [Nst] in K.
      destruct (rn x y) as [a b]. cbn [Nst] in *. destruct (rn b z) as [c d]. cbn [Nst] in *.
      destruct (rn a c) as [e f]. destruct (rn y z) as [g h]. cbn [Nst] in *.
      destruct (rn x g) as [k m]. cbn [Nst] in *. destruct (rn m h).
      injection K as -> -> ->. reflexivity.
  - destruct l as [|x l]; cbn [Nst]; [reflexivity|]. f_equal. apply IH.
Qed.

Definition weq (u v : list nat) : Prop := forall l, apw u l = apw v l.

Lemma weq_refl u : weq u u. Proof. now intros l. Qed.
Lemma weq_trans (u v t : list nat) : weq u v -> weq v t -> weq u t.
Proof. intros H K l. now rewrite H. Qed.
Lemma weq_app u u' v v' : weq u u' -> weq v v' -> weq (u ++ v) (u' ++ v').
Proof. intros H K l. now rewrite !apw_app, H, K. Qed.

Lemma weq_comm_word m C : Forall (fun i => m + 2 <= i) C -> weq (m :: C) (C ++ [m]).
Proof.
  induction C as [|i C IH]; intros H; [apply weq_refl|].
  inversion H as [|? ? Hi HC]; subst.
  apply (weq_trans _ (i :: m :: C)).
  - intros l. cbn [apw fold_left]. now rewrite (Nst_comm m i) by lia.
  - apply (weq_app [i] [i] (m :: C) (C ++ [m])); [apply weq_refl|now apply IH].
Qed.

Lemma weq_comm_words B C m :
  Forall (fun i => i <= m) B -> Forall (fun i => m + 2 <= i) C -> weq (B ++ C) (C ++ B).
Proof.
  intros HB HC. induction B as [|b B IH]; cbn [List.app].
  - rewrite app_nil_r. apply weq_refl.
  - inversion HB as [|? ? Hb HB']; subst.
    apply (weq_trans _ (b :: C ++ B)).
    + apply (weq_app [b] [b]); [apply weq_refl|now apply IH].
    + change (b :: C ++ B) with ((b :: C) ++ B).
      replace (C ++ b :: B) with ((C ++ [b]) ++ B) by (rewrite <- app_assoc; reflexivity).
      apply weq_app; [|apply weq_refl]. apply weq_comm_word.
      eapply Forall_impl; [|exact HC]. cbn. lia.
Qed.

(** A word in letters in [m, M) containing m can be written with exactly one m. *)
Lemma Forall_strict m M B :
  ~ In m B -> Forall (fun i => m <= i < M) B -> Forall (fun i => m + 1 <= i < M) B.
Proof.
  intros H F. rewrite Forall_forall in *. intros i Hi. specialize (F i Hi).
  assert (i <> m) by (intros ->; contradiction). lia.
Qed.

Lemma one_letter k m M B :
  M <= m + k -> Forall (fun i => m <= i < M) B -> In m B ->
  exists B1 B2, Forall (fun i => m + 1 <= i < M) B1 /\ Forall (fun i => m + 1 <= i < M) B2 /\
      weq B (B1 ++ m :: B2).
Proof.
  revert m B; induction k as [|k IHk]; intros m B Hk HB Hin.
  - rewrite Forall_forall in HB. specialize (HB m Hin). lia.
  - induction B as [|x B IH]; [destruct Hin|].
    inversion HB as [|? ? Hx HB']; subst.
    destruct (Nat.eq_dec x m) as [->|Nx].
    + (* x = m *)
      destruct (in_dec Nat.eq_dec m B) as [Hm|Hm].
      2:{ exists [], B. split; [apply Forall_nil|]. split; [now apply Forall_strict|apply weq_refl]. }
      destruct (IH HB' Hm) as [B1 [B2 [F1 [F2 E1]]]].
      destruct (in_dec Nat.eq_dec (m + 1) B1) as [Hm1|Hm1].
      * destruct (IHk (m + 1) B1) as [C1 [C2 [G1 [G2 E2]]]]; [lia|exact F1|exact Hm1|].
        assert (m + 1 < M) by (rewrite Forall_forall in F1; specialize (F1 _ Hm1); lia).
        exists (C1 ++ [m + 1]), (m + 1 :: C2 ++ B2). repeat split.
        -- apply Forall_app. split.
           ++ eapply Forall_impl; [|exact G1]. cbn; lia.
           ++ repeat constructor; lia.
        -- constructor; [lia|]. apply Forall_app. split; [|exact F2].
           eapply Forall_impl; [|exact G2]. cbn; lia.
        -- (* m C1 (m+1) C2 m B2 ~ C1 m (m+1) m C2 B2 *)
           apply (weq_trans _ ([m] ++ (C1 ++ m + 1 :: C2) ++ m :: B2)).
           { apply (weq_app [m] [m]); [apply weq_refl|].
             apply (weq_trans _ _ _ E1). apply weq_app; [exact E2|apply weq_refl]. }
           apply (weq_trans _ ((m :: C1) ++ [m + 1] ++ (C2 ++ [m]) ++ B2)).
           { intros l. f_equal. cbn [List.app]. rewrite <- !app_assoc. reflexivity. }
           apply (weq_trans _ ((C1 ++ [m]) ++ [m + 1] ++ (m :: C2) ++ B2)).
           { apply weq_app; [apply weq_comm_word; eapply Forall_impl; [|exact G1]; cbn; lia|].
             apply weq_app; [apply weq_refl|]. apply weq_app; [|apply weq_refl].
             intros l. symmetry. apply weq_comm_word. eapply Forall_impl; [|exact G2]; cbn; lia. }
           apply (weq_trans _ (C1 ++ [m; m + 1; m] ++ C2 ++ B2)).
           { intros l. f_equal. rewrite <- !app_assoc. reflexivity. }
           apply (weq_trans _ (C1 ++ [m + 1; m; m + 1] ++ C2 ++ B2)).
           { apply weq_app; [apply weq_refl|]. apply weq_app; [|apply weq_refl].
             intros l. cbn [apw fold_left]. replace (m + 1) with (S m) by lia. apply Nst_braid. }
           intros l. f_equal. rewrite <- !app_assoc. reflexivity.
      * pose proof (Forall_strict _ _ _ Hm1 F1) as G1.
        exists B1, B2. repeat split; [exact F1|exact F2|].
        (* m B ~ m B1 m B2 ~ B1 m m B2 ~ B1 m B2 *)
        apply (weq_trans _ ([m] ++ B1 ++ m :: B2)).
        { apply (weq_app [m] [m]); [apply weq_refl|exact E1]. }
        apply (weq_trans _ ((B1 ++ [m]) ++ m :: B2)).
        { rewrite app_assoc. apply weq_app; [|apply weq_refl].
          apply weq_comm_word. eapply Forall_impl; [|exact G1]. cbn; lia. }
        rewrite <- app_assoc. apply weq_app; [apply weq_refl|].
        intros l. cbn [List.app apw fold_left]. now rewrite Nst_idem.
    + destruct Hin as [->|Hin]; [contradiction|].
      destruct (IH HB' Hin) as [B1 [B2 [F1 [F2 E1]]]].
      exists (x :: B1), B2. repeat split; [constructor; [lia|exact F1]|exact F2|].
      apply (weq_app [x] [x] B (B1 ++ m :: B2)); [apply weq_refl|exact E1].
Qed.

(** ** normalise_factors: word of renormalisation positions it applies. *)
Definition algo_iter (L i : nat) : list nat := rev (seq 0 (i + 1)) ++ seq (i + 1) (L - 1 - (i + 1)).
Definition algo_word (L k : nat) : list nat := flat_map (algo_iter L) (seq 0 k).

Lemma Nst_app_l p q i : i + 1 < length p -> Nst i (p ++ q) = Nst i p ++ q.
Proof.
  revert p; induction i as [|i IH]; intros p H.
  - destruct p as [|x [|y p]]; cbn in H; try lia. cbn [List.app Nst]. destruct (rn x y). reflexivity.
  - destruct p as [|x p]; cbn in H; [lia|]. cbn [List.app Nst]. now rewrite IH by lia.
Qed.

Lemma Nst_app_r p q i : length p <= i -> Nst i (p ++ q) = p ++ Nst (i - length p) q.
Proof.
  revert i; induction p as [|x p IH]; intros i H; cbn [List.app length].
  - now rewrite Nat.sub_0_r.
  - destruct i as [|i]; [cbn in H; lia|]. cbn [Nst Nat.sub]. rewrite IH by (cbn in H; lia). reflexivity.
Qed.

Lemma apw_app_r p q u : Forall (fun i => length p <= i) u ->
  apw u (p ++ q) = p ++ apw (map (fun i => i - length p) u) q.
Proof.
  revert q; induction u as [|i u IH]; intros q H; cbn [apw fold_left map]; [reflexivity|].
  inversion H; subst. rewrite Nst_app_r by assumption. now apply IH.
Qed.

Lemma algo_inv L l k : length l = L -> k + 1 <= L ->
  exists p q B, apw (algo_word L k) l = apw B (p ++ q) /\ length p = k + 1 /\ nf p /\
    length (p ++ q) = L /\ Forall (fun i => k <= i < L - 1) B.
Proof.
  intros HL. induction k as [|k IH]; intros Hk.
  - destruct l as [|x l]; [cbn in *; lia|].
    exists [x], l, []. cbn. repeat split; auto.
  - destruct IH as [p [q [B [E [Hp [Hnf [HLen HB]]]]]]]; [lia|].
    unfold algo_word. rewrite seq_S, flat_map_app. cbn [flat_map plus]. rewrite app_nil_r.
    rewrite apw_app. fold (algo_word L k). rewrite E. clear E. rewrite <- apw_app.
    unfold algo_iter. rewrite seq_app. cbn [plus]. rewrite rev_app_distr. cbn [rev List.app seq].
    (* B ++ k :: down ++ up ; use one_letter on B ++ [k] *)
    assert (HBk : Forall (fun i => k <= i < L - 1) (B ++ [k])).
    { apply Forall_app. split; [exact HB|]. repeat constructor; lia. }
    destruct (one_letter (L - 1) k (L - 1) (B ++ [k])) as [B1 [B2 [F1 [F2 E1]]]];
      [lia|exact HBk|apply in_or_app; right; now left|].
    (* p ++ q -> B1 acts on the right of p; then k, k-1, .., 0; then B2, up *)
    destruct q as [|x q]; [rewrite app_nil_r in HLen; lia|].
    assert (Lq : S (length q) = L - (k + 1)) by (rewrite app_length in HLen; cbn [length] in HLen; lia).
    assert (E2 : exists x' q', apw B1 (p ++ x :: q) = p ++ x' :: q' /\ length q' = length q).
    { rewrite apw_app_r by (eapply Forall_impl; [|exact F1]; cbn; lia).
      pose proof (apw_length (map (fun i => i - length p) B1) (x :: q)) as LL.
      destruct (apw (map (fun i => i - length p) B1) (x :: q)) as [|x' q']; [discriminate|].
      exists x', q'. split; [reflexivity|]. cbn [length] in LL. lia. }
    destruct E2 as [x' [q' [E2 Lq']]].
    exists (rm p x'), q', (B2 ++ seq (k + 1) (L - 1 - (k + 1))).
    repeat split.
    + (* rearrangement *)
      transitivity (apw ((B1 ++ [k]) ++ (rev (seq 0 k)) ++ B2 ++ seq (k + 1) (L - 1 - (k + 1))) (p ++ x :: q)).
      * transitivity (apw ((B ++ [k]) ++ rev (seq 0 k) ++ seq (k + 1) (L - 1 - (k + 1))) (p ++ x :: q)).
        { f_equal. rewrite <- app_assoc. cbn [List.app]. f_equal. }
        assert (W : weq ((B ++ [k]) ++ rev (seq 0 k) ++ seq (k + 1) (L - 1 - (k + 1)))
                        ((B1 ++ [k]) ++ rev (seq 0 k) ++ B2 ++ seq (k + 1) (L - 1 - (k + 1)))).
        { apply (weq_trans _ ((B1 ++ k :: B2) ++ rev (seq 0 k) ++ seq (k + 1) (L - 1 - (k + 1)))).
          { apply weq_app; [exact E1|apply weq_refl]. }
          apply (weq_trans _ ((B1 ++ [k]) ++ (B2 ++ rev (seq 0 k)) ++ seq (k + 1) (L - 1 - (k + 1)))).
          { intros t. f_equal. rewrite <- !app_assoc. reflexivity. }
          apply (weq_trans _ ((B1 ++ [k]) ++ (rev (seq 0 k) ++ B2) ++ seq (k + 1) (L - 1 - (k + 1)))).
          2:{ intros t. f_equal. rewrite <- !app_assoc. reflexivity. }
          apply weq_app; [apply weq_refl|]. apply weq_app; [|apply weq_refl].
          intros t. symmetry. destruct k as [|k].
          { cbn [seq rev List.app]. now rewrite app_nil_r. }
          apply (weq_comm_words _ _ k).
          - apply Forall_forall. intros i Hi. apply in_rev, in_seq in Hi. lia.
          - eapply Forall_impl; [|exact F2]. cbn; lia. }
        exact (W _).
      * rewrite <- app_assoc, apw_app, E2. cbn [List.app].
        replace (apw (k :: rev (seq 0 k) ++ B2 ++ seq (k + 1) (L - 1 - (k + 1))) (p ++ x' :: q'))
          with (apw (rev (seq 0 (length p)) ++ B2 ++ seq (k + 1) (L - 1 - (k + 1))) (p ++ x' :: q')).
        { now rewrite apw_app, rm_apw. }
        f_equal. rewrite Hp, seq_app, rev_app_distr. reflexivity.
    + rewrite rm_length. lia.
    + now apply rm_nf.
    + rewrite app_length, rm_length. lia.
    + apply Forall_app. split; [eapply Forall_impl; [|exact F2]; cbn; lia|].
      apply Forall_forall. intros i Hi. apply in_seq in Hi. lia.
Qed.

Theorem algo_nf l : nf (apw (algo_word (length l) (length l - 1)) l).
Proof.
  destruct l as [|x0 l0] eqn:El; [exact I|]. rewrite <- El.
  assert (HL : 1 <= length l) by (subst; cbn; lia).
  destruct (algo_inv (length l) l (length l - 1) eq_refl) as [p [q [B [E [Hp [Hnf [HLen HB]]]]]]]; [lia|].
  rewrite E. assert (q = []).
  { destruct q; [reflexivity|]. rewrite app_length in HLen. cbn [length] in HLen. lia. }
  subst q. rewrite app_nil_r.
  assert (B = []).
  { destruct B as [|b B]; [reflexivity|]. inversion HB; subst; lia. }
  subst B. exact Hnf.
Qed.

Theorem algo_NF l : apw (algo_word (length l) (length l - 1)) l = NF l.
Proof.
  rewrite <- (NF_fix _ (algo_nf l)). apply NF_apw.
Qed.
End NFTheory.
