(** NFApi.v – the theorems of TableTheory restated in terms of the public API
    only (constructor, artin_word, multiplication ...), for any class whose
    table tabulates a germ.  Used for both GNF and DGNF. *)
From Verif Require Import Base ModelPerm ModelBraid SpecBraid BraidTheory Germ GermNF GermAct GermBraid TableTheory.

(** A normal form value of B_n: the constructor accepts it and its factors are
    indices into the table. *)
Definition nf_value {A} (tb : nat -> res (nftable A)) (n : nat) (b : nfobj) : Prop :=
  exists t p f, tb n = Ok t /\ Forall (fun x => 0 <= x < Z.of_nat (t_order t))%Z f /\ mk tb n p f = Ok b.

(** [b] stands for the braid [w]: its own artin_word is a word of B_n equal to [w] there. *)
Definition denotes {A} (tb : nat -> res (nftable A)) (n : nat) (b : nfobj) (w : bword) : Prop :=
  nf_value tb n b /\ exists u, artin_word tb b = Ok u /\ word_ok n u /\ braid_eq n (expand u) w.

Section Api.
Context {A : Type}.
Variable tbl : nftable A.
Variable G : Germ.
Variable rn : T G -> T G -> T G * T G.
Variable eqd : forall x y : T G, {x = y} + {x <> y}.
Variable n : nat.
Variable wd : T G -> list (Z * Z).
Variable atom : nat -> T G.
Variable idx : T G -> Z.
Variable div : T G -> A.
Hypothesis TK : table_ok tbl G rn eqd n wd atom idx div.
Variable tb : nat -> res (nftable A).
Hypothesis Htb : tb n = Ok tbl.
Notation reps := (reps G eqd n wd idx).
Notation enc := (enc G n idx).

Lemma reps_value b w : reps b w -> nf_value tb n b.
Proof.
  intros [[d l] [Ho [-> _]]]. exists tbl, d, (map idx l). split; [exact Htb|]. split.
  - rewrite Forall_map. apply Forall_forall. intros x _. apply (tk_bound tbl G rn eqd n wd atom idx div TK).
  - eapply mk_ok; eassumption.
Qed.
Lemma value_reps b : nf_value tb n b -> exists w, reps b w /\ in_range n w.
Proof.
  intros [t [p [f [Et [Hf Hm]]]]]. rewrite Htb in Et. injection Et as <-.
  destruct (mk_inv tbl G rn eqd n wd atom idx div TK tb Htb p f b Hf Hm) as [l [_ [Ho ->]]].
  exists (word_of G (lift G wd) (p, l)). split; [now apply reps_word|].
  apply word_of_range. intros x. apply (tk_range tbl G rn eqd n wd atom idx div TK).
Qed.
Lemma reps_denotes b w : reps b w -> denotes tb n b w.
Proof.
  intros H. split; [eapply reps_value; eassumption|].
  destruct (reps_artin_word tbl G rn eqd n wd atom idx div TK tb Htb b w H) as [u [E1 [E2 [E3 E4]]]].
  exists u. auto.
Qed.
Lemma denotes_reps b w : denotes tb n b w -> reps b w.
Proof.
  intros [V [u [E [_ B]]]]. destruct (value_reps b V) as [v [R Rv]].
  destruct (reps_artin_word tbl G rn eqd n wd atom idx div TK tb Htb b v R) as [u' [E1 [E2 _]]].
  rewrite E in E1. injection E1 as <-. eapply reps_mor; [|exact R].
  eapply be_trans; [apply be_sym; exact E2|exact B].
Qed.
Lemma denotes_iff b w : denotes tb n b w <-> reps b w.
Proof. split; [apply denotes_reps|apply reps_denotes]. Qed.
Lemma value_denotes b : nf_value tb n b -> exists w, denotes tb n b w /\ in_range n w.
Proof. intros V. destruct (value_reps b V) as [w [R Rw]]. exists w. split; [now apply reps_denotes|exact Rw]. Qed.

Theorem api_word b : nf_value tb n b -> exists u, artin_word tb b = Ok u /\ word_ok n u /\
  Forall (fun l => Z.abs (snd l) = 1%Z) u /\ denotes tb n b (expand u).
Proof.
  intros V. destruct (value_reps b V) as [v [R _]].
  destruct (reps_artin_word tbl G rn eqd n wd atom idx div TK tb Htb b v R) as [u [E1 [E2 [E3 E4]]]].
  exists u. repeat split; auto. exists u. repeat split; auto. apply be_refl.
Qed.
Theorem api_eq a b u v : denotes tb n a u -> denotes tb n b v -> (a = b <-> braid_eq n u v).
Proof. rewrite !denotes_iff. eapply reps_eq; eassumption. Qed.
Theorem api_mul a b u v : denotes tb n a u -> denotes tb n b v ->
  exists c, nf_mul tb a b = Ok c /\ denotes tb n c (u ++ v).
Proof.
  rewrite !denotes_iff. intros H1 H2.
  destruct (reps_mul tbl G rn eqd n wd atom idx div TK tb Htb a b u v H1 H2) as [c [E R]].
  exists c. rewrite denotes_iff. auto.
Qed.
Theorem api_inv a u : denotes tb n a u -> exists c, nf_inv tb a = Ok c /\ denotes tb n c (winv u).
Proof.
  rewrite !denotes_iff. intros H1.
  destruct (reps_inv tbl G rn eqd n wd atom idx div TK tb Htb a u H1) as [c [E R]].
  exists c. rewrite denotes_iff. auto.
Qed.
Theorem api_id : exists c, nf_identity tb n = Ok c /\ denotes tb n c [].
Proof.
  destruct (reps_id tbl G rn eqd n wd atom idx div TK tb Htb) as [c [E R]]. exists c. rewrite denotes_iff. auto.
Qed.
Theorem api_pow a u k : denotes tb n a u -> exists c, nf_pow tb a k = Ok c /\ denotes tb n c (wpow u k).
Proof.
  rewrite denotes_iff. intros H.
  destruct (reps_pow tbl G rn eqd n wd atom idx div TK tb Htb a u k H) as [c [E R]].
  exists c. rewrite denotes_iff. auto.
Qed.
Theorem api_from_word w : word_ok n w -> exists b, from_artin_word tb n w = Ok b /\ denotes tb n b (expand w).
Proof.
  intros H. eexists. split; [eapply from_artin_word_ok; eassumption|]. apply denotes_iff.
  eapply reps_nfw; [eassumption|]. eapply word_ok_range; eassumption.
Qed.

(** the complete group-theoretic interface *)
Theorem api_decides u w : word_ok n u -> word_ok n w -> exists a b,
  from_artin_word tb n u = Ok a /\ from_artin_word tb n w = Ok b /\ (a = b <-> braid_eq n (expand u) (expand w)).
Proof.
  intros Hu Hw. destruct (api_from_word u Hu) as [a [E1 D1]]. destruct (api_from_word w Hw) as [b [E2 D2]].
  exists a, b. split; [exact E1|]. split; [exact E2|]. now apply api_eq.
Qed.
Theorem api_mul_word a b : nf_value tb n a -> nf_value tb n b -> exists c wa wb wc,
  nf_mul tb a b = Ok c /\ nf_value tb n c /\
  artin_word tb a = Ok wa /\ artin_word tb b = Ok wb /\ artin_word tb c = Ok wc /\
  braid_eq n (expand wc) (expand wa ++ expand wb).
Proof.
  intros Ha Hb. destruct (api_word a Ha) as [wa [Ea [_ [_ Da]]]]. destruct (api_word b Hb) as [wb [Eb [_ [_ Db]]]].
  destruct (api_mul a b _ _ Da Db) as [c [Ec [Vc [wc [Ewc [_ Bc]]]]]]. exists c, wa, wb, wc. auto 8.
Qed.
Theorem api_inv_word a : nf_value tb n a -> exists c wa wc,
  nf_inv tb a = Ok c /\ nf_value tb n c /\
  artin_word tb a = Ok wa /\ artin_word tb c = Ok wc /\ braid_eq n (expand wc) (winv (expand wa)).
Proof.
  intros Ha. destruct (api_word a Ha) as [wa [Ea [_ [_ Da]]]].
  destruct (api_inv a _ Da) as [c [Ec [Vc [wc [Ewc [_ Bc]]]]]]. exists c, wa, wc. auto 8.
Qed.
Theorem api_assoc a b c : nf_value tb n a -> nf_value tb n b -> nf_value tb n c ->
  exists ab bc abc, nf_mul tb a b = Ok ab /\ nf_mul tb b c = Ok bc /\
    nf_mul tb ab c = Ok abc /\ nf_mul tb a bc = Ok abc.
Proof.
  intros Ha Hb Hc. destruct (value_denotes a Ha) as [u [Da _]]. destruct (value_denotes b Hb) as [v [Db _]].
  destruct (value_denotes c Hc) as [w [Dc _]].
  destruct (api_mul a b u v Da Db) as [ab [E1 D1]]. destruct (api_mul b c v w Db Dc) as [bc [E2 D2]].
  destruct (api_mul ab c _ _ D1 Dc) as [x [E3 D3]]. destruct (api_mul a bc _ _ Da D2) as [y [E4 D4]].
  assert (x = y) as -> by (apply (api_eq x y _ _ D3 D4); rewrite app_assoc; apply be_refl).
  exists ab, bc, y. auto.
Qed.
Theorem api_id_neutral a : nf_value tb n a -> exists e, nf_identity tb n = Ok e /\ nf_value tb n e /\
  nf_mul tb a e = Ok a /\ nf_mul tb e a = Ok a.
Proof.
  intros Ha. destruct (value_denotes a Ha) as [u [Da _]]. destruct api_id as [e [E De]].
  destruct (api_mul a e _ _ Da De) as [x [E1 D1]]. destruct (api_mul e a _ _ De Da) as [y [E2 D2]].
  assert (x = a) as -> by (apply (api_eq x a _ _ D1 Da); rewrite app_nil_r; apply be_refl).
  assert (y = a) as -> by (apply (api_eq y a _ _ D2 Da); apply be_refl).
  exists e. split; [exact E|]. split; [apply De|]. auto.
Qed.
Theorem api_inverse a : nf_value tb n a -> exists i e, nf_inv tb a = Ok i /\ nf_value tb n i /\ nf_identity tb n = Ok e /\
  nf_mul tb a i = Ok e /\ nf_mul tb i a = Ok e.
Proof.
  intros Ha. destruct (value_denotes a Ha) as [u [Da Ru]]. destruct api_id as [e [E De]].
  destruct (api_inv a u Da) as [i [Ei Di]].
  destruct (api_mul a i _ _ Da Di) as [x [E1 D1]]. destruct (api_mul i a _ _ Di Da) as [y [E2 D2]].
  assert (x = e) as -> by (apply (api_eq x e _ _ D1 De); now apply be_inv_r).
  assert (y = e) as -> by (apply (api_eq y e _ _ D2 De); now apply be_inv_l).
  exists i, e. split; [exact Ei|]. split; [apply Di|]. auto.
Qed.

(** powers: the k-fold product, as values *)
Theorem api_pow_rules a : nf_value tb n a ->
  exists e, nf_identity tb n = Ok e /\ nf_pow tb a 0 = Ok e /\
  (forall k, exists x, nf_pow tb a k = Ok x /\ nf_value tb n x /\
     exists y, nf_pow tb a (k + 1) = Ok y /\ nf_mul tb x a = Ok y /\ nf_mul tb a x = Ok y) /\
  nf_pow tb a (-1) = nf_inv tb a.
Proof.
  intros Ha. destruct (value_denotes a Ha) as [u [Da Ru]]. destruct api_id as [e [E De]].
  exists e. split; [exact E|].
  destruct (api_pow a u 0 Da) as [z [Ez Dz]].
  assert (z = e) as -> by (apply (api_eq z e _ _ Dz De); apply be_refl).
  split; [exact Ez|]. split.
  - intros k. destruct (api_pow a u k Da) as [x [Ex Dx]]. exists x. split; [exact Ex|]. split; [apply Dx|].
    destruct (api_pow a u (k + 1) Da) as [y [Ey Dy]]. exists y. split; [exact Ey|].
    destruct (api_mul x a _ _ Dx Da) as [p [Ep Dp]]. destruct (api_mul a x _ _ Da Dx) as [q [Eq Dq]].
    assert (B1 : braid_eq n (wpow u (k + 1)) (wpow u k ++ u)).
    { eapply be_trans; [apply wpow_add; exact Ru|]. apply be_app; [apply be_refl|].
      rewrite wpow_1. apply be_refl. }
    assert (B2 : braid_eq n (wpow u (k + 1)) (u ++ wpow u k)).
    { rewrite Z.add_comm. eapply be_trans; [apply wpow_add; exact Ru|]. apply be_app; [|apply be_refl].
      rewrite wpow_1. apply be_refl. }
    assert (p = y) as -> by (apply (api_eq p y _ _ Dp Dy); apply be_sym; exact B1).
    assert (q = y) as -> by (apply (api_eq q y _ _ Dq Dy); apply be_sym; exact B2).
    split; assumption.
  - destruct (api_pow a u (-1) Da) as [x [Ex Dx]]. destruct (api_inv a u Da) as [i [Ei Di]].
    assert (x = i) as -> by (apply (api_eq x i _ _ Dx Di); rewrite wpow_m1; apply be_refl).
    congruence.
Qed.

(** round trips *)
Theorem api_round_trip b : nf_value tb n b -> exists w, artin_word tb b = Ok w /\ from_artin_word tb n w = Ok b.
Proof.
  intros V. destruct (api_word b V) as [w [E [Hw [_ D]]]]. exists w. split; [exact E|].
  destruct (api_from_word w Hw) as [b' [E' D']]. rewrite E'. f_equal. apply (api_eq b' b _ _ D' D). apply be_refl.
Qed.
Theorem api_round_trip_word w : word_ok n w -> exists b w', from_artin_word tb n w = Ok b /\
  nf_value tb n b /\ artin_word tb b = Ok w' /\ braid_eq n (expand w') (expand w).
Proof.
  intros H. destruct (api_from_word w H) as [b [E [V [u [Eu [_ B]]]]]]. exists b, u. auto.
Qed.
Theorem api_magma b : nf_value tb n b -> exists w m, artin_word tb b = Ok w /\ magma_artin_word tb b = Ok m /\
  Forall2 (fun (l : Z * Z) k => (fst l, snd l) = ((Z.abs k - 1)%Z, Z.sgn k) /\ (1 <= Z.abs k < Z.of_nat n)%Z) w m.
Proof.
  intros V. destruct (api_word b V) as [w [E [Hw [Hu _]]]]. exists w. eexists. split; [exact E|].
  unfold magma_artin_word. rewrite E. cbn [bind].
  replace (forallb _ w) with true.
  2:{ symmetry. apply forallb_forall. intros l Hl. apply Z.eqb_eq. rewrite Forall_forall in Hu. now apply Hu. }
  cbn [assert_ bind]. split; [reflexivity|].
  clear E. induction w as [|[i e] w IH]; cbn [map]; constructor.
  - inversion Hw; subst. inversion Hu; subst. cbn [fst snd] in *.
    assert (e = 1 \/ e = -1)%Z as [-> | ->] by lia; split; try (f_equal; lia); lia.
  - apply IH; [now inversion Hw|now inversion Hu].
Qed.
End Api.
