(** PermGerm.v – permutations form a germ; the permutation table built by the
    code tabulates it. *)
From Verif Require Import Base ModelPerm PermTheory WeakOrder PermWords SpecBraid BraidTheory
  Germ GermNF GermAct GermBraid ModelBraid TableTheory.
From Coq Require Import Permutation Setoid FinFun Eqdep_dec.

Section PGerm.
Variable n : nat.
Notation P := (isperm n).
Notation sg := (sg n).

Definition permb (w : list nat) : bool :=
  (length w =? n) && forallb (fun i => existsb (Nat.eqb i) w) (seq 0 n).
Lemma permb_ok w : permb w = true <-> P w.
Proof.
  unfold permb. rewrite andb_true_iff, Nat.eqb_eq, forallb_forall. split.
  - intros [L H]. apply Permutation_sym. apply NoDup_Permutation_bis.
    + apply seq_NoDup.
    + rewrite seq_length. lia.
    + intros i Hi. apply H in Hi. apply existsb_exists in Hi. destruct Hi as [j [Hj E]].
      apply Nat.eqb_eq in E. now subst.
  - intros H. split; [now apply isperm_length|]. intros i Hi. apply existsb_exists. exists i.
    split; [|apply Nat.eqb_refl]. apply in_seq in Hi. apply (isperm_in n); [exact H|lia].
Qed.

Definition PT := {w : list nat | permb w = true}.
Definition val (x : PT) : list nat := proj1_sig x.
Lemma val_P x : P (val x).
Proof. apply permb_ok. apply (proj2_sig x). Qed.
Lemma val_inj x y : val x = val y -> x = y.
Proof.
  destruct x as [x p], y as [y q]. cbn. intros <-. f_equal. apply UIP_dec. apply Bool.bool_dec.
Qed.
Lemma id_permb : permb (identity n) = true.
Proof. apply permb_ok, isperm_id. Qed.
Definition mkT (w : list nat) : PT :=
  match Bool.bool_dec (permb w) true with
  | left H => exist _ w H
  | right _ => exist _ (identity n) id_permb
  end.
Lemma val_mkT w : P w -> val (mkT w) = w.
Proof.
  intros H. unfold mkT. destruct (Bool.bool_dec (permb w) true) as [E|E]; [reflexivity|].
  exfalso. apply E. now apply permb_ok.
Qed.
Lemma mkT_val x : mkT (val x) = x.
Proof. apply val_inj. apply val_mkT, val_P. Qed.

Definition peqd (x y : PT) : {x = y} + {x <> y}.
Proof.
  destruct (list_eq_dec Nat.eq_dec (val x) (val y)) as [E|E].
  - left. now apply val_inj.
  - right. intros ->. now apply E.
Defined.

Notation w0 := (longest_element n).
Lemma P_w0 : P w0. Proof. apply isperm_longest. Qed.
Hint Resolve val_P isperm_id isperm_pcomp isperm_pinv isperm_sg P_w0 : perm.

Definition pmul (x y : PT) : PT := mkT (pcomp (val x) (val y)).
Lemma val_pmul x y : val (pmul x y) = pcomp (val x) (val y).
Proof. apply val_mkT. auto with perm. Qed.
Definition pone : PT := mkT (identity n).
Lemma val_one : val pone = identity n. Proof. apply val_mkT. auto with perm. Qed.
Definition pD : PT := mkT w0.
Lemma val_D : val pD = w0. Proof. apply val_mkT. auto with perm. Qed.
Definition plc (x : PT) : PT := mkT (pcomp w0 (pinv (val x))).
Lemma val_lc x : val (plc x) = pcomp w0 (pinv (val x)). Proof. apply val_mkT. auto with perm. Qed.
Definition prc (x : PT) : PT := mkT (pcomp (pinv (val x)) w0).
Lemma val_rc x : val (prc x) = pcomp (pinv (val x)) w0. Proof. apply val_mkT. auto with perm. Qed.
Definition pred_ (x y : PT) : Prop := pred n (val x) (val y).

Lemma w0_rev a b : a < b -> b < n -> ap w0 b < ap w0 a.
Proof. intros. rewrite !app_longest by lia. lia. Qed.

Lemma pred_lc w : P w -> pred n (pcomp w0 (pinv w)) w.
Proof.
  intros Hw. apply pred_pos; auto with perm. intros i j Hij Hj L.
  rewrite !(app_pcomp n), !(pinv_app n) by (auto using isperm_app_lt, isperm_pinv, P_w0; try (apply isperm_app_lt; auto; lia); lia).
  now apply w0_rev.
Qed.
Lemma pred_rc w : P w -> pred n w (pcomp (pinv w) w0).
Proof.
  intros Hw. apply pred_pos; auto with perm. intros i j Hij Hj L.
  assert (B : forall k, k < n -> ap w0 k < n) by (intros; apply isperm_app_lt; auto with perm).
  rewrite !(app_pcomp n), !(app_pinv n) by (auto using isperm_pinv, P_w0; try (apply B; lia); lia).
  now apply w0_rev.
Qed.

Definition PG : Germ.
Proof.
  refine {| T := PT; one := pone; D := pD; red := pred_; mul := pmul; lc := plc; rc := prc |}.
  - intros x. unfold pred_. rewrite val_one. apply pred_1l. auto with perm.
  - intros x. unfold pred_. rewrite val_one. apply pred_1r. auto with perm.
  - intros x. apply val_inj. rewrite val_pmul, val_one. apply pcomp_id_l. auto with perm.
  - intros x. apply val_inj. rewrite val_pmul, val_one. apply pcomp_id_r. auto with perm.
  - intros x y z H1 H2. unfold pred_ in *. rewrite val_pmul in *.
    destruct (pred_assoc_r n (val x) (val y) (val z)) as [A B]; auto with perm.
    split; [exact A|]. split; [exact B|]. apply val_inj. rewrite !val_pmul. apply (pcomp_assoc n); auto with perm.
  - intros x y z H1 H2. unfold pred_ in *. rewrite val_pmul in *.
    destruct (pred_assoc_l n (val x) (val y) (val z)) as [A B]; auto with perm.
    split; [exact A|]. split; [exact B|]. apply val_inj. rewrite !val_pmul. apply (pcomp_assoc n); auto with perm.
  - intros x y z _ _ E. apply (f_equal val) in E. rewrite !val_pmul in E. apply val_inj.
    apply (pcomp_cancel_l n (val x)); auto with perm.
  - intros x y z _ _ E. apply (f_equal val) in E. rewrite !val_pmul in E. apply val_inj.
    apply (pcomp_cancel_r n) in E; auto with perm.
  - intros x y H E. apply (f_equal val) in E. rewrite val_pmul, val_one in E. apply val_inj. rewrite val_one.
    unfold pred_ in H. rewrite pred_pos in H by auto with perm.
    assert (Ey : val y = identity n).
    { apply incr_id; auto with perm. intros i Hi. apply (nRdes n); auto with perm. intros K.
      specialize (H i (i + 1) ltac:(lia) Hi K).
      rewrite <- !(app_pcomp n), E, !app_id in H by (auto with perm; lia). lia. }
    rewrite Ey, pcomp_id_r in E; auto with perm.
  - intros x. unfold pred_. rewrite val_lc. apply pred_lc. auto with perm.
  - intros x. apply val_inj. rewrite val_pmul, val_lc, val_D.
    rewrite (pcomp_assoc n), (pcomp_pinv_l n), pcomp_id_r by auto with perm. reflexivity.
  - intros x. unfold pred_. rewrite val_rc. apply pred_rc. auto with perm.
  - intros x. apply val_inj. rewrite val_pmul, val_rc, val_D.
    rewrite <- (pcomp_assoc n), (pcomp_pinv_r n), pcomp_id_l by auto with perm. reflexivity.
  - intros x y. destruct (head_ex_ n (val y) (val_P y) (val x) (val_P x)) as [c [C1 [C2 [C3 C4]]]].
    destruct (pdiv_split n c (val y) C1 (val_P y) C2) as [S1 S2].
    exists (mkT c), (mkT (pcomp (pinv c) (val y))). unfold pred_.
    rewrite !val_mkT by auto with perm. split; [exact S1|]. split; [|split; [exact C3|]].
    + apply val_inj. rewrite val_pmul, !val_mkT by auto with perm. now symmetry.
    + intros e f R1 R2 R3.
      assert (De : pdiv n (val e) (val y)).
      { rewrite <- R2, val_pmul. apply pred_pdiv; auto with perm. }
      specialize (C4 (val e) (val_P e) De R3). destruct (pdiv_split n (val e) c (val_P e) C1 C4) as [Q1 Q2].
      exists (mkT (pcomp (pinv (val e)) c)). rewrite val_mkT by auto with perm. split; [exact Q1|].
      apply val_inj. rewrite val_pmul, !val_mkT by auto with perm. now symmetry.
Defined.

Lemma le_pdiv e y : le PG e y <-> pdiv n (val e) (val y).
Proof.
  split.
  - intros [f [R <-]]. cbn. rewrite val_pmul. apply pred_pdiv; auto with perm.
  - intros H. destruct (pdiv_split n (val e) (val y) (val_P e) (val_P y) H) as [Q1 Q2].
    exists (mkT (pcomp (pinv (val e)) (val y))). cbn. unfold pred_. rewrite val_mkT by auto with perm.
    split; [exact Q1|]. apply val_inj. rewrite val_pmul, val_mkT by auto with perm. now symmetry.
Qed.

Definition locnorm (w z : list nat) : Prop := forall i, i + 1 < n -> Ldes z i -> Rdes w i.

Lemma nrm_loc x y : nrm PG x y <-> locnorm (val x) (val y).
Proof.
  split.
  - intros H i Hi L. destruct (Rdes_dec (val x) i) as [R|R]; [exact R|]. exfalso.
    assert (Hs : P (sg i)) by now apply isperm_sg.
    assert (E : mkT (sg i) = pone).
    { apply (H (mkT (sg i))).
      - apply le_pdiv. rewrite val_mkT by auto. apply Ldes_div; auto with perm.
      - cbn. unfold pred_. rewrite val_mkT by auto. apply pred_sg_r; auto with perm. }
    apply (f_equal val) in E. rewrite val_mkT, val_one in E by auto.
    apply (f_equal (fun w => ap w i)) in E. rewrite app_sg_i, app_id in E by lia. lia.
  - intros H e L R. apply val_inj. cbn. rewrite val_one.
    destruct (list_eq_dec Nat.eq_dec (val e) (identity n)) as [E|N]; [exact E|]. exfalso.
    destruct (ex_Ldes n (val e) (val_P e) N) as [i [Hi Li]]. apply le_pdiv in L. cbn in R. unfold pred_ in R.
    assert (D1 : pdiv n (sg i) (val e)) by (apply Ldes_div; auto with perm).
    assert (L2 : Ldes (val y) i) by (apply (Ldes_div n); auto with perm; eapply pdiv_trans; eassumption).
    specialize (H i Hi L2). assert (R2 : pred n (val x) (sg i)) by (eapply pdiv_pred; eassumption).
    apply pred_sg_r in R2; auto with perm.
Qed.

(** ** the renormalisation loop *)
Definition pspec (x y w z : list nat) : Prop :=
  P w /\ P z /\ locnorm w z /\
  exists c, P c /\ pred n x c /\ w = pcomp x c /\ pred n c z /\ y = pcomp c z.

Lemma right_descents w i : P w -> (In i (right_descent_set w) <-> i + 1 < n /\ Rdes w i).
Proof.
  intros Hw. unfold right_descent_set. rewrite (isperm_length n w Hw), filter_In, in_seq.
  unfold Rdes. rewrite Nat.ltb_lt. split; intros [A B]; split; try lia; exact B.
Qed.
Lemma descent_diff_ok w z : P w -> P z -> exists l, descent_diff w z = Ok l /\
  forall i, In i l <-> i + 1 < n /\ Ldes z i /\ ~ Rdes w i.
Proof.
  intros Hw Hz. unfold descent_diff, left_descent_set. rewrite (inverse_ok n) by exact Hz. cbn [bind].
  eexists. split; [reflexivity|]. intros i. rewrite filter_In, right_descents by auto with perm.
  rewrite negb_true_iff. split.
  - intros [[A B] C]. split; [exact A|]. split; [exact B|]. intros R.
    assert (K : existsb (Nat.eqb i) (right_descent_set w) = true).
    { apply existsb_exists. exists i. split; [apply right_descents; auto|apply Nat.eqb_refl]. }
    congruence.
  - intros [A [B C]]. split; [split; assumption|].
    destruct (existsb (Nat.eqb i) (right_descent_set w)) eqn:K; [|reflexivity]. exfalso. apply C.
    apply existsb_exists in K. destruct K as [j [Hj E]]. apply Nat.eqb_eq in E. subst j.
    now apply right_descents in Hj.
Qed.

Lemma cox_gens_ok : cox_gens n = Ok (map sg (seq 0 (n - 1))).
Proof.
  unfold cox_gens. apply mapM_ok. intros i Hi. apply in_seq in Hi. apply transposition_ok; lia.
Qed.

Lemma gens_get i : i + 1 < n -> get (map sg (seq 0 (n - 1))) i = Ok (sg i).
Proof.
  intros H. rewrite (get_ok _ _ (sg 0)) by (rewrite map_length, seq_length; lia).
  rewrite map_nth, seq_nth by lia. reflexivity.
Qed.

Lemma renorm_loop_ok pick x y (Hp : picker_ok pick) : P x -> P y -> forall fuel k w z c,
  P w -> P z -> P c -> pred n x c -> w = pcomp x c -> pred n c z -> y = pcomp c z -> llen z < fuel ->
  exists w' z', perm_renorm_loop pick (map sg (seq 0 (n - 1))) x y fuel k w z = Ok (w', z') /\ pspec x y w' z'.
Proof.
  intros Hx Hy. induction fuel as [|fuel IH]; intros k w z c Hw Hz Hc R1 E1 R2 E2 HF; [lia|].
  cbn [perm_renorm_loop]. destruct (descent_diff_ok w z Hw Hz) as [l [El Hl]]. rewrite El. cbn [bind].
  destruct l as [|a l].
  - exists w, z. split; [reflexivity|]. split; [exact Hw|]. split; [exact Hz|]. split.
    + intros i Hi L. destruct (Rdes_dec w i) as [R|R]; [exact R|]. exfalso. apply (Hl i). tauto.
    + exists c. auto.
  - assert (In (pick x y k (a :: l)) (a :: l)) as Hin by (apply Hp; discriminate).
    set (i := pick x y k (a :: l)) in *. apply Hl in Hin. destruct Hin as [Hi [L R]].
    rewrite gens_get by exact Hi. cbn [bind]. assert (Hs : P (sg i)) by now apply isperm_sg.
    rewrite !(compose_ok n) by auto. cbn [bind].
    destruct (Ldes_split n z i Hz Hi L) as [S1 S2]. set (z' := pcomp (sg i) z) in *.
    assert (Hz' : P z') by (apply isperm_pcomp; auto).
    pose proof (llen_down n z i Hz Hi L) as LL. fold z' in LL.
    rewrite S2 in R2. destruct (pred_assoc_l n c (sg i) z') as [A1 A2]; auto.
    assert (Rw : pred n w (sg i)) by (apply pred_sg_r; auto).
    rewrite E1 in Rw. destruct (pred_assoc_r n x c (sg i)) as [B1 B2]; auto.
    destruct (IH (S k) (pcomp w (sg i)) z' (pcomp c (sg i))) as [w' [z'' [F1 F2]]]; auto with perm.
    + rewrite E1. apply (pcomp_assoc n); auto.
    + rewrite (pcomp_assoc n) by auto. now rewrite <- S2.
    + lia.
    + exists w', z''. split; assumption.
Qed.

Theorem perm_renorm_ok pick x y : picker_ok pick -> P x -> P y ->
  exists w z, perm_renorm pick n (map sg (seq 0 (n - 1))) x y = Ok (w, z) /\ pspec x y w z.
Proof.
  intros Hp Hx Hy. unfold perm_renorm. apply (renorm_loop_ok pick x y Hp Hx Hy _ _ _ _ (identity n)); auto with perm.
  - now apply pred_1r.
  - symmetry. now apply pcomp_id_r.
  - now apply pred_1l.
  - symmetry. now apply pcomp_id_l.
  - rewrite (llen_plength n) by exact Hy. pose proof (plength_bound y) as B. rewrite (isperm_length n y Hy) in B. nia.
Qed.

Lemma pspec_rnspec x y w z : pspec (val x) (val y) w z -> rnspec PG x y (mkT w) (mkT z).
Proof.
  intros [Hw [Hz [HN [c [Hc [R1 [E1 [R2 E2]]]]]]]]. exists (mkT c). cbn. unfold pred_.
  rewrite !val_mkT by assumption. split; [exact R1|]. split.
  { apply val_inj. rewrite val_pmul, !val_mkT by assumption. now symmetry. }
  split; [exact R2|]. split.
  { apply val_inj. rewrite val_pmul, !val_mkT by assumption. now symmetry. }
  apply nrm_loc. now rewrite !val_mkT.
Qed.

Definition hdpick : picker := fun _ _ _ l => hd 0 l.
Lemma hdpick_ok : picker_ok hdpick.
Proof. intros x y k [|a l] H; [contradiction|]. now left. Qed.

Definition prn_raw (pick : picker) (x y : list nat) : list nat * list nat :=
  match perm_renorm pick n (map sg (seq 0 (n - 1))) x y with Ok p => p | Err _ => (x, y) end.
Definition prn (x y : PT) : PT * PT :=
  let p := prn_raw hdpick (val x) (val y) in (mkT (fst p), mkT (snd p)).
Lemma prn_ok x y : rnspec PG x y (fst (prn x y)) (snd (prn x y)).
Proof.
  unfold prn, prn_raw. destruct (perm_renorm_ok hdpick (val x) (val y) hdpick_ok (val_P x) (val_P y)) as [w [z [E S]]].
  rewrite E. cbn [fst snd]. now apply pspec_rnspec.
Qed.
Lemma prn_raw_any pick x y : picker_ok pick -> P x -> P y -> 
  perm_renorm pick n (map sg (seq 0 (n - 1))) x y = Ok (val (fst (prn (mkT x) (mkT y))), val (snd (prn (mkT x) (mkT y)))).
Proof.
  intros Hp Hx Hy. destruct (perm_renorm_ok pick x y Hp Hx Hy) as [w [z [E S]]]. rewrite E.
  rewrite <- (val_mkT x Hx) in S at 1. rewrite <- (val_mkT y Hy) in S at 1.
  assert (Hw : P w) by apply S. assert (Hz : P z) by apply S.
  apply pspec_rnspec in S. destruct (rn_unique PG _ _ _ _ _ _ S (prn_ok (mkT x) (mkT y))) as [<- <-].
  now rewrite !val_mkT.
Qed.

(** ** words *)
Definition atom (i : nat) : PT := mkT (sg i).
Lemma val_atom i : i + 1 < n -> val (atom i) = sg i.
Proof. intros. apply val_mkT. now apply isperm_sg. Qed.
Definition pwd (x : PT) : list (Z * Z) :=
  map (fun i => (Z.of_nat i, 1%Z)) (match shortlex (val x) with Ok u => u | Err _ => [] end).
Lemma expand_pos u : expand (map (fun i => (Z.of_nat i, 1%Z)) u) = pword u.
Proof.
  induction u as [|i u IH]; [reflexivity|]. unfold expand in *. cbn [map flat_map fst snd]. rewrite IH.
  cbn. now rewrite Nat2Z.id.
Qed.
Lemma plift x : exists u, shortlex (val x) = Ok u /\ redw n u (val x) /\ lift PG pwd x = pword u.
Proof.
  destruct (shortlex_sl n (val x) (val_P x)) as [u [E S]]. exists u. split; [exact E|].
  split; [now apply sl_redw|]. unfold lift, pwd. rewrite E. apply expand_pos.
Qed.

Hypothesis n2 : 2 <= n.

Lemma pD_ne_one : pD <> pone.
Proof.
  intros E. apply (f_equal val) in E. rewrite val_D, val_one in E. apply (f_equal (fun w => ap w 0)) in E.
  rewrite app_longest, app_id in E by lia. lia.
Qed.

Notation act := (act PG prn peqd).
Notation ok := (ok PG peqd).

Lemma lift_range_ x : in_range n (lift PG pwd x).
Proof. destruct (plift x) as [u [_ [R ->]]]. apply in_range_pword. now apply redw_range in R. Qed.
Lemma lift_mul_ a b : pred_ a b -> braid_eq n (lift PG pwd (pmul a b)) (lift PG pwd a ++ lift PG pwd b).
Proof.
  intros H. destruct (plift a) as [u [_ [R1 ->]]]. destruct (plift b) as [v [_ [R2 ->]]].
  destruct (plift (pmul a b)) as [t [_ [R3 ->]]]. rewrite val_pmul in R3.
  unfold pword at 2 3. rewrite <- map_app. apply (matsumoto n _ _ _ R3). now apply redw_app.
Qed.
Lemma lift_atom_ i : i + 1 < n -> braid_eq n (lift PG pwd (atom i)) [(i, true)].
Proof.
  intros Hi. destruct (plift (atom i)) as [u [_ [R ->]]]. rewrite val_atom in R by exact Hi.
  apply (matsumoto n u [i] (sg i) R). now apply redw_sg.
Qed.

Lemma act_redw u x s : redw n u (val x) -> ok s -> actw PG prn peqd atom (pword u) s = act x s.
Proof.
  intros R Hs. remember (val x) as w eqn:E. revert x E. induction R as [|i u w Hi Hw Hp R IH]; intros x E.
  - cbn. assert (x = pone) as -> by (apply val_inj; rewrite val_one; congruence).
    symmetry. now apply (act_one PG prn prn_ok peqd pD_ne_one).
  - cbn [pword map GermBraid.actw fold_right]. unfold GermBraid.actletter at 1. cbn [fst snd].
    change (fold_right (actletter PG prn peqd atom) s (map (fun i0 => (i0, true)) u)) with (actw PG prn peqd atom (pword u) s).
    rewrite (IH (mkT w)) by now rewrite val_mkT.
    assert (x = pmul (atom i) (mkT w)) as ->.
    { apply val_inj. rewrite val_pmul, val_atom, val_mkT by assumption. congruence. }
    apply (act_mul PG prn prn_ok peqd pD_ne_one). cbn. unfold pred_. now rewrite val_atom, val_mkT.
Qed.

Lemma act_lift_ x s : ok s -> actw PG prn peqd atom (lift PG pwd x) s = act x s.
Proof. intros Hs. destruct (plift x) as [u [_ [R ->]]]. now apply act_redw. Qed.

Lemma act_lcm2 i j : i + 1 < n -> j + 1 < n -> i <> j -> forall u v m x y, lcm2 n i j u v m x y -> forall s, ok s ->
  actw PG prn peqd atom (pword (i :: u)) s = actw PG prn peqd atom (pword (j :: v)) s.
Proof.
  intros Hi Hj N u v m x y LC s Hs.
  assert (Px : P x) by (eapply redw_perm; apply (l2_u _ _ _ _ _ _ _ _ LC)).
  assert (Py : P y) by (eapply redw_perm; apply (l2_v _ _ _ _ _ _ _ _ LC)).
  assert (Pm : P m) by (rewrite (l2_mx _ _ _ _ _ _ _ _ LC); auto with perm).
  rewrite (act_redw (i :: u) (mkT m)), (act_redw (j :: v) (mkT m)); auto; rewrite val_mkT by exact Pm.
  - rewrite (l2_my _ _ _ _ _ _ _ _ LC). apply rw_cons; auto; apply LC.
  - rewrite (l2_mx _ _ _ _ _ _ _ _ LC). apply rw_cons; auto; apply LC.
Qed.
Lemma act_braid_ i s : i + 2 < n -> ok s ->
  act (atom i) (act (atom (i + 1)) (act (atom i) s)) = act (atom (i + 1)) (act (atom i) (act (atom (i + 1)) s)).
Proof. intros Hi Hs. apply (act_lcm2 i (i + 1) ltac:(lia) ltac:(lia) ltac:(lia) _ _ _ _ _ (lcm2_adj n i Hi) s Hs). Qed.
Lemma act_far_ i j s : i + 2 <= j -> j + 1 < n -> ok s ->
  act (atom i) (act (atom j) s) = act (atom j) (act (atom i) s).
Proof. intros Hi Hj Hs. apply (act_lcm2 i j ltac:(lia) ltac:(lia) ltac:(lia) _ _ _ _ _ (lcm2_far n i j Hi Hj) s Hs). Qed.

(** tau *)
Lemma val_tau x : val (tau PG x) = pcomp (pcomp w0 (val x)) w0.
Proof.
  unfold tau. cbn. rewrite !val_rc. rewrite (pinv_pcomp n), (pinv_pinv n) by auto with perm.
  now rewrite (pinv_longest n).
Qed.
Lemma tau_tau x : tau PG (tau PG x) = x.
Proof.
  apply val_inj. rewrite !val_tau.
  rewrite !(pcomp_assoc n) by auto with perm. rewrite longest_invol, pcomp_id_r by auto with perm.
  rewrite <- (pcomp_assoc n), longest_invol, pcomp_id_l by auto with perm. reflexivity.
Qed.
Lemma taupow_mod2 k x : taupow PG k x = if (k mod 2 =? 0)%Z then x else tau PG x.
Proof.
  assert (E : forall q y, taupow PG (2 * q) y = y).
  { intros q. pattern q. apply Zind2; [reflexivity| |].
    - intros m IH y. replace (2 * (m + 1))%Z with (2 * m + 1 + 1)%Z by lia.
      rewrite !taupow_succ, IH. apply tau_tau.
    - intros m IH y. replace (2 * m)%Z with (2 * (m - 1) + 1 + 1)%Z in IH by lia.
      specialize (IH y). rewrite !taupow_succ, tau_tau in IH. exact IH. }
  pose proof (Z.div_mod k 2 ltac:(lia)) as DM. pose proof (Z.mod_pos_bound k 2 ltac:(lia)).
  destruct (Z.eqb_spec (k mod 2) 0) as [M|M].
  - rewrite DM, M, Z.add_0_r. apply E.
  - rewrite DM. replace (k mod 2)%Z with 1%Z by lia. rewrite taupow_succ, E. reflexivity.
Qed.
End PGerm.
