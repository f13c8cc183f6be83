(** PermTable.v – the table built by [perm_table] tabulates the germ of
    permutations, so everything in TableTheory applies to it. *)
From Verif Require Import Base ModelPerm PermTheory WeakOrder PermWords SpecBraid BraidTheory
  Germ GermNF GermAct GermBraid ModelBraid TableTheory PermGerm.
From Coq Require Import Permutation Setoid FinFun.

Lemma list_eqb_ok x y : list_eqb x y = true <-> x = y.
Proof.
  revert y; induction x as [|a x IH]; intros [|b y]; cbn; split; intros H; try discriminate; try reflexivity.
  - apply andb_true_iff in H. destruct H as [H1 H2]. apply Nat.eqb_eq in H1. apply IH in H2. congruence.
  - injection H as -> ->. rewrite Nat.eqb_refl. now apply IH.
Qed.

Lemma combine_map_r {A B} (f : A -> B) l : combine l (map f l) = map (fun x => (x, f x)) l.
Proof. induction l as [|x l IH]; [reflexivity|]. cbn. now rewrite IH. Qed.

Lemma concat_sel {A B} (p : A -> bool) (f : A -> B) l :
  concat (map (fun x => if p x then [f x] else []) l) = map f (filter p l).
Proof.
  induction l as [|x l IH]; [reflexivity|]. cbn [map concat filter]. rewrite IH. destruct (p x); reflexivity.
Qed.

Section PTab.
Variable n : nat.
Notation P := (isperm n).
Notation E := (elements n).
Notation PG := (PG n).
Notation val := (val n).
Notation mkT := (mkT n).
Notation prn := (prn n).
Notation w0 := (longest_element n).

Definition pos (w : list nat) : nat := match dict_index list_eqb E w with Ok k => k | Err _ => 0 end.
Definition gi (w : list nat) : Z := Z.of_nat (pos w).
Definition idx (x : PT n) : Z := gi (val x).

Lemma pos_ok w : P w -> dict_index list_eqb E w = Ok (pos w) /\ nth_error E (pos w) = Some w.
Proof.
  intros H. apply elements_in in H. apply In_nth_error in H. destruct H as [i Hi].
  pose proof (dict_index_ok list_eqb list_eqb_ok E w i (elements_NoDup n) Hi) as D.
  unfold pos. rewrite D. split; [reflexivity|exact Hi].
Qed.
Lemma gi_ok w : P w -> (k <- dict_index list_eqb E w ;; Ok (Z.of_nat k)) = Ok (gi w).
Proof. intros H. destruct (pos_ok w H) as [D _]. rewrite D. reflexivity. Qed.
Lemma gi_inj v w : P v -> P w -> gi v = gi w -> v = w.
Proof.
  intros Hv Hw H. apply Nat2Z.inj in H. destruct (pos_ok v Hv) as [_ A]. destruct (pos_ok w Hw) as [_ B].
  rewrite H in A. congruence.
Qed.
Lemma gi_lt w : P w -> pos w < length E.
Proof. intros H. apply nth_error_Some. destruct (pos_ok w H) as [_ A]. congruence. Qed.
Lemma tab_get {B} (f : list nat -> B) w : P w -> pyget (map f E) (gi w) = Ok (f w).
Proof.
  intros H. unfold gi. rewrite pyget_nat, get_map. unfold get. destruct (pos_ok w H) as [_ ->]. reflexivity.
Qed.

Definition rr (x y : list nat) : list nat * list nat :=
  (val (fst (prn (mkT x) (mkT y))), val (snd (prn (mkT x) (mkT y)))).
Definition nb (x y : list nat) : bool := list_eqb x (fst (rr x y)) && list_eqb y (snd (rr x y)).

Definition ptab : nftable (list nat) :=
  {| t_n := n; t_order := length E; t_divs := E; t_eqb := list_eqb;
     t_id := gi (identity n); t_D := gi w0;
     t_gens := map gi (map (sg n) (seq 0 (n - 1)));
     t_lc := map (fun p => gi (pcomp w0 (pinv p))) E;
     t_rc := map (fun p => gi (pcomp (pinv p) w0)) E;
     t_tau_order := 2;
     t_tau_left := [map Z.of_nat (seq 0 (length E)); map (fun p => gi (pcomp (pcomp w0 p) w0)) E];
     t_tau_right := [map Z.of_nat (seq 0 (length E)); map (fun p => gi (pcomp (pcomp w0 p) w0)) E];
     t_renorm := map (fun x => map (fun y => (gi (fst (rr x y)), gi (snd (rr x y)))) E) E;
     t_isnorm := map (fun x => map (nb x) E) E;
     t_follows := map (fun x => map gi (filter (fun y => nb x y && negb (gi y =? gi (identity n))%Z && negb (gi y =? gi w0)%Z) E)) E;
     t_word := map (fun p => pwd n (mkT p)) E |}.

Hint Resolve isperm_id isperm_pcomp isperm_pinv isperm_longest isperm_sg val_P : perm.

Ltac inE H := apply elements_in in H.

Theorem perm_table_ok pick : picker_ok pick -> perm_table pick n = Ok ptab.
Proof.
  intros Hp. unfold perm_table. cbv zeta. rewrite cox_gens_ok. cbn [bind].
  rewrite !gi_ok by auto with perm. cbn [bind].
  erewrite mapM_ok; [cbn [bind]|].
  2:{ intros w Hw. apply in_map_iff in Hw. destruct Hw as [i [<- Hi]]. apply in_seq in Hi.
      apply gi_ok. apply isperm_sg. lia. }
  rewrite (mapM_ok _ (fun p => gi (pcomp w0 (pinv p)))).
  2:{ intros w Hw. inE Hw. rewrite (inverse_ok n) by exact Hw. cbn [bind].
      rewrite (compose_ok n) by auto with perm. cbn [bind]. apply gi_ok. auto with perm. }
  cbn [bind].
  rewrite (mapM_ok _ (fun p => gi (pcomp (pinv p) w0))).
  2:{ intros w Hw. inE Hw. rewrite (inverse_ok n) by exact Hw. cbn [bind].
      rewrite (compose_ok n) by auto with perm. cbn [bind]. apply gi_ok. auto with perm. }
  cbn [bind].
  rewrite (mapM_ok _ (fun p => gi (pcomp (pcomp w0 p) w0))).
  2:{ intros w Hw. inE Hw. rewrite !(compose_ok n) by auto with perm. cbn [bind].
      rewrite !(compose_ok n) by auto with perm. cbn [bind]. apply gi_ok. auto with perm. }
  cbn [bind].
  rewrite (mapM_ok _ (fun x => map (rr x) E)).
  2:{ intros x Hx. apply mapM_ok. intros y Hy. inE Hx. inE Hy. apply prn_raw_any; assumption. }
  cbn [bind].
  rewrite (mapM_ok _ (map (fun p : list nat * list nat => (gi (fst p), gi (snd p))))).
  2:{ intros row Hr. apply in_map_iff in Hr. destruct Hr as [x [<- Hx]]. apply mapM_ok.
      intros [w z] Hwz. apply in_map_iff in Hwz. destruct Hwz as [y [Ey Hy]].
      injection Ey as <- <-. rewrite !gi_ok by auto with perm. reflexivity. }
  cbn [bind].
  rewrite combine_map_r.
  set (isn := map (fun '(x, row) => map (fun '(y, (w, z)) => list_eqb x w && list_eqb y z) (combine E row))
    (map (fun x => (x, map (rr x) E)) E)).
  assert (Ei : isn = map (fun x => map (nb x) E) E).
  { unfold isn. rewrite map_map. apply map_ext. intros x. rewrite combine_map_r, map_map. apply map_ext. intros y. reflexivity. }
  rewrite Ei.
  rewrite (mapM_ok _ (fun row => map gi (map fst (filter (fun yb : list nat * bool => snd yb && negb (gi (fst yb) =? gi (identity n))%Z && negb (gi (fst yb) =? gi w0)%Z) (combine E row))))).
  2:{ intros row Hr. apply in_map_iff in Hr. destruct Hr as [x [<- Hx]]. rewrite combine_map_r.
      erewrite mapM_ok.
      2:{ intros [y b] Hy. apply in_map_iff in Hy. destruct Hy as [y' [Ey Hy]]. injection Ey as -> <-. inE Hy.
          rewrite gi_ok by exact Hy. cbn [bind].
          instantiate (1 := fun yb => if snd yb && negb (gi (fst yb) =? gi (identity n))%Z && negb (gi (fst yb) =? gi w0)%Z then [gi (fst yb)] else []).
          reflexivity. }
      cbn [bind]. rewrite concat_sel, map_map. reflexivity. }
  cbn [bind].
  rewrite (mapM_ok _ (fun p => pwd n (mkT p))).
  2:{ intros p Hpp. inE Hpp. unfold pwd. rewrite val_mkT by exact Hpp.
      destruct (shortlex_sl n p Hpp) as [u [-> _]]. reflexivity. }
  cbn [bind]. unfold ptab. rewrite !map_map. f_equal. f_equal.
  - apply map_ext. intros x. now rewrite map_map.
  - apply map_ext. intros x. rewrite combine_map_r. f_equal.
    assert (K : forall l, map fst (filter (fun yb : list nat * bool => snd yb && negb (gi (fst yb) =? gi (identity n))%Z && negb (gi (fst yb) =? gi w0)%Z) (map (fun y => (y, nb x y)) l)) =
       filter (fun y => nb x y && negb (gi y =? gi (identity n))%Z && negb (gi y =? gi w0)%Z) l).
    { induction l as [|y l IH]; [reflexivity|]. cbn [map filter fst snd].
      destruct (nb x y && _ && _); cbn [map fst]; now rewrite IH. }
    apply K.
Qed.

Lemma nb_nrm x y : nb (val x) (val y) = true <-> nrm PG x y.
Proof.
  unfold nb, rr. rewrite !mkT_val. cbn [fst snd]. rewrite andb_true_iff, !list_eqb_ok. split.
  - intros [A B]. apply val_inj in A. apply val_inj in B.
    destruct (prn_ok n x y) as [c [R1 [E1 [R2 [E2 N]]]]]. now rewrite <- A, <- B in N.
  - intros N. destruct (rn_unique PG _ _ _ _ _ _ (prn_ok n x y)
      (ltac:(exists (one PG); repeat split; try exact N; [apply red_1r|apply mul_1r|apply red_1l|apply mul_1l]) : rnspec PG x y x y)) as [-> ->].
    now split.
Qed.

Hypothesis n2 : 2 <= n.

Lemma tau_right_ok k x : tau_right_at ptab k (idx x) = Ok (idx (taupow PG k x)).
Proof.
  unfold tau_right_at, lookup2, ptab. cbn [t_tau_right t_tau_order]. rewrite (taupow_mod2 n) by exact n2.
  pose proof (Z.mod_pos_bound k 2 ltac:(lia)).
  destruct (Z.eqb_spec (k mod 2) 0) as [M|M].
  - rewrite M. cbn [pyget Z.leb Z.compare Z.to_nat get nth_error bind]. unfold idx, gi.
    rewrite pyget_nat. pose proof (gi_lt (val x) (val_P n x)) as L.
    rewrite (get_ok _ _ 0%Z) by (rewrite map_length, seq_length; exact L).
    now rewrite nth_map_seq.
  - replace (k mod 2)%Z with (Z.of_nat 1) by lia. rewrite pyget_nat. cbn [get nth_error bind].
    unfold idx. rewrite tab_get by apply val_P. now rewrite val_tau by exact n2.
Qed.

Theorem ptab_ok : table_ok ptab PG prn (peqd n) n (pwd n) (atom n) idx val.
Proof.
  constructor.
  - apply prn_ok.
  - now apply pD_ne_one.
  - apply lift_range_.
  - intros a b H. now apply lift_mul_.
  - intros i Hi. now apply lift_atom_.
  - intros i s Hi Hs. now apply act_braid_.
  - intros i j s H1 H2 Hs. now apply act_far_.
  - intros x s Hs. now apply act_lift_.
  - reflexivity.
  - intros x y H. apply val_inj. apply gi_inj; auto with perm.
  - intros x. cbn [t_order ptab]. unfold idx, gi. pose proof (gi_lt (val x) (val_P n x)). lia.
  - intros k Hk. cbn [t_order ptab] in Hk. destruct (nth_error E (Z.to_nat k)) as [w|] eqn:Ew.
    2:{ apply nth_error_None in Ew. lia. }
    assert (Pw : P w) by (apply elements_in; eapply nth_error_In; eassumption).
    exists (mkT w). unfold idx, gi. rewrite val_mkT by exact Pw.
    destruct (pos_ok w Pw) as [D _].
    rewrite (dict_index_ok list_eqb list_eqb_ok E w _ (elements_NoDup n) Ew) in D. injection D as <-. lia.
  - intros x. cbn [t_divs ptab]. rewrite <- (map_id E). unfold idx. now rewrite tab_get by apply val_P.
  - intros x. unfold index. cbn [t_eqb t_divs ptab]. apply gi_ok, val_P.
  - cbn [t_id ptab]. unfold idx. cbn. now rewrite val_one.
  - cbn [t_D ptab]. unfold idx. cbn. now rewrite val_D.
  - intros i Hi. cbn [t_gens ptab]. rewrite pyget_nat, get_map, gens_get by exact Hi. cbn [bind].
    unfold idx. now rewrite val_atom.
  - cbn [t_gens ptab]. rewrite !map_length, seq_length. reflexivity.
  - intros x. cbn [t_lc ptab]. unfold idx at 1. rewrite tab_get by apply val_P. unfold idx. cbn. now rewrite val_lc.
  - intros x. cbn [t_rc ptab]. unfold idx at 1. rewrite tab_get by apply val_P. unfold idx. cbn. now rewrite val_rc.
  - apply tau_right_ok.
  - intros x y. unfold lookup2. cbn [t_renorm ptab]. unfold idx. rewrite tab_get by apply val_P. cbn [bind].
    rewrite tab_get by apply val_P. unfold rr. rewrite !mkT_val. reflexivity.
  - intros x y. exists (nb (val x) (val y)). split; [|apply nb_nrm].
    unfold lookup2. cbn [t_isnorm ptab]. unfold idx. rewrite tab_get by apply val_P. cbn [bind].
    now rewrite tab_get by apply val_P.
  - intros x. set (f := fun y => nb (val x) y && negb (gi y =? gi (identity n))%Z && negb (gi y =? gi w0)%Z).
    exists (map mkT (filter f E)). split; [|split].
    + cbn [t_follows ptab]. unfold idx at 1. rewrite tab_get by apply val_P. f_equal. rewrite map_map.
      apply map_ext_in. intros y Hy. apply filter_In in Hy. destruct Hy as [Hy _]. inE Hy.
      unfold idx. now rewrite val_mkT.
    + pose proof (NoDup_filter f (elements_NoDup n)) as ND. 
      apply (NoDup_map_inv val). rewrite map_map. erewrite map_ext_in; [rewrite map_id; exact ND|].
      intros y Hy. apply filter_In in Hy. destruct Hy as [Hy _]. inE Hy. cbn. now apply val_mkT.
    + intros y. rewrite in_map_iff. split.
      * intros [w [<- Hw]]. apply filter_In in Hw. destruct Hw as [Hw F]. inE Hw. unfold f in F.
        rewrite !andb_true_iff, !negb_true_iff, !Z.eqb_neq in F. destruct F as [[F1 F2] F3].
        rewrite <- (val_mkT n w Hw) in F1. apply nb_nrm in F1. split; [exact F1|]. split; intros K.
        -- apply F2. apply (f_equal val) in K. cbn in K. rewrite val_mkT, val_one in K by exact Hw. now subst.
        -- apply F3. apply (f_equal val) in K. cbn in K. rewrite val_mkT, val_D in K by exact Hw. now subst.
      * intros [N [N1 ND]]. exists (val y). split; [apply mkT_val|]. apply filter_In. split; [apply elements_in, val_P|].
        unfold f. rewrite !andb_true_iff, !negb_true_iff, !Z.eqb_neq. split; [split|].
        -- now apply nb_nrm.
        -- intros K. apply gi_inj in K; auto with perm. apply N1. apply val_inj. cbn. now rewrite val_one.
        -- intros K. apply gi_inj in K; auto with perm. apply ND. apply val_inj. cbn. now rewrite val_D.
  - intros x. cbn [t_word ptab]. unfold idx. rewrite tab_get by apply val_P. now rewrite mkT_val.
  - intros x. destruct (plift n x) as [u [Eu [R _]]]. unfold pwd. rewrite Eu.
    pose proof (redw_range n u _ R) as Ru. split.
    + unfold word_ok. rewrite Forall_map. eapply Forall_impl; [|exact Ru]. cbn. intros. lia.
    + rewrite Forall_map. apply Forall_forall. reflexivity.
Qed.

Lemma plift_pos x : Forall (fun l => snd l = true) (lift PG (pwd n) x).
Proof.
  destruct (plift n x) as [u [_ [_ ->]]]. unfold pword. rewrite Forall_map. apply Forall_forall. reflexivity.
Qed.

(** for n >= 3 every divisor but the identity can be followed by a proper one *)
Lemma follow_total : 3 <= n -> forall x, x <> pone n -> exists y, nrm PG x y /\ y <> pone n /\ y <> pD n.
Proof.
  intros n3 x N. destruct (ex_Rdes n (val x) (val_P n x)) as [i [Hi R]].
  { intros K. apply N. apply val_inj. now rewrite val_one. }
  exists (atom n i). split; [|split].
  - apply nrm_loc. intros j Hj L. rewrite val_atom in L by exact Hi.
    assert (i = j) as <-; [|exact R].
    unfold Ldes in L. unfold sg in L. rewrite pinv_ptrans in L by lia.
    rewrite !app_ptrans in L by lia.
    repeat match type of L with context[?a =? ?b] => destruct (Nat.eqb_spec a b) end; lia.
  - intros K. apply (f_equal val) in K. rewrite val_atom, val_one in K by exact Hi.
    apply (f_equal (fun w => ap w i)) in K. rewrite app_sg_i, app_id in K by lia. lia.
  - intros K. apply (f_equal val) in K. rewrite val_atom, val_D in K by exact Hi.
    pose proof (f_equal (fun w => ap w 0) K) as K0. cbn in K0. pose proof (f_equal (fun w => ap w 2) K) as K2. cbn in K2.
    unfold sg in *. rewrite app_longest, app_ptrans in * by lia.
    repeat match goal with H : context[?a =? ?b] |- _ => destruct (Nat.eqb_spec a b) end; lia.
Qed.
End PTab.
