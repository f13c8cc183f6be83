(** PropsReflect.v – C129: the symmetries of the Jones representations.  Delta reflects
    the basis in a vertical line, and a mirror image replaces v by its inverse. *)
From Verif Require Import Base ModelPoly SpecPoly PolyTheory PropsPoly ModelTL SpecTL TLTheory TLCells PropsTL ModelMatrix SpecMatrix MatrixTheory ModelTLMor TLMorTheory PropsTLMor2 JonesTheory TLGens TLFlip MarkovTheory.
From Coq Require Import Ring Setoid Morphisms Permutation.
From Verif Require Import ModelPerm PermTheory WeakOrder SpecPerm SpecPermTheory PermWords ModelBraid SpecBraid BraidTheory FullTwistBraid FullTwist ModelRep SpecRep NumTheory RepTheory RepCanon PropsRep FullTwistRep PropsPolymat3 PropsTwist PolyRepTheory EmbedTheory PropsStable TableTheory HalfTwist PropsBranch.
Local Open Scope nat_scope.
#[local] Existing Instance neqp_equiv.
#[local] Existing Instance pmeq_equiv.

(** ** words *)
Definition flipl (n : nat) (w : bword) : bword := map (fun l => (n - 2 - fst l, snd l)) w.
Lemma flipl_range n w : in_range n w -> in_range n (flipl n w).
Proof. intros H. unfold flipl, in_range. rewrite Forall_map. eapply Forall_impl; [|exact H]. cbn. intros [i e]. cbn. lia. Qed.
Lemma hw_flip n w : in_range n w -> braid_eq n (w ++ hw n) (hw n ++ flipl n w).
Proof.
  induction 1 as [|[i e] w Hi Hw IH]; [cbn [flipl map app]; rewrite app_nil_r; reflexivity|]. cbn [fst] in Hi. pose proof (hw_conj n i Hi) as K.
  assert (C : braid_eq n ([(i, e)] ++ hw n) (hw n ++ [(n - 2 - i, e)])).
  { destruct e; [exact K|]. pose proof (be_cancel n i false Hi) as C1. pose proof (be_cancel n (n - 2 - i) true ltac:(lia)) as C2. cbn [negb] in C1, C2.
    assert (Q : braid_eq n ([(i, false)] ++ ([(i, true)] ++ hw n) ++ [(n - 2 - i, false)]) ([(i, false)] ++ (hw n ++ [(n - 2 - i, true)]) ++ [(n - 2 - i, false)])) by (rewrite K; reflexivity).
    rewrite <- !app_assoc in Q. change ([(n - 2 - i, true)] ++ [(n - 2 - i, false)]) with [(n - 2 - i, true); (n - 2 - i, false)] in Q. rewrite C2, app_nil_r in Q. rewrite app_assoc in Q. change ([(i, false)] ++ [(i, true)]) with [(i, false); (i, true)] in Q. rewrite C1 in Q. symmetry. exact Q. }
  cbn [flipl map fst snd]. fold (flipl n w). change ((i, e) :: w) with ([(i, e)] ++ w). change ((n - 2 - i, e) :: flipl n w) with ([(n - 2 - i, e)] ++ flipl n w). rewrite <- app_assoc, IH, app_assoc, C. now rewrite app_assoc.
Qed.
Definition mirl (w : bword) : bword := map (fun l => (fst l, negb (snd l))) w.
Lemma mirl_range n w : in_range n w -> in_range n (mirl w).
Proof. intros H. unfold mirl, in_range. rewrite Forall_map. eapply Forall_impl; [|exact H]. auto. Qed.

(** ** the functions a word acts on *)
Lemma only_sgm n m F l : fst l + 1 < n -> onlythrough n m F -> onlythrough n m (sgm n F l).
Proof.
  destruct l as [i e]. cbn [fst]. intros Hi H d Td N. unfold sgm. cbn [fst snd]. rewrite (H d Td N). unfold EE, DE. assert (Te : typed n n (de i n)) by now apply de_type.
  rewrite (H (fst (dprod (de i n) d)) (dprod_typed _ _ _ _ _ Te Td)); [ring|]. intros K. apply N. destruct Te as (A1 & A2 & A3), Td as (B1 & B2 & B3). apply (dprod_through (de i n) d m); auto; congruence.
Qed.
Lemma only_ev n m w : in_range n w -> forall F, onlythrough n m F -> onlythrough n m (ev n w F).
Proof. induction 1 as [|l w Hl Hw IH]; intros F O; [exact O|]. cbn [ev fold_left]. apply IH. now apply only_sgm. Qed.
Lemma lbar_ext p q : leq p q -> leq (lbar p) (lbar q).
Proof. intros H. apply leq_L. intros g. rewrite !L_bar. now apply leq_L. Qed.
Lemma cf_bar e : leq (cf (negb e)) (lbar (cf e)). Proof. destruct e; reflexivity. Qed.
Lemma ev_bar n m w : in_range n w -> forall F, eqf n m (ev n (mirl w) (fun d => lbar (F d))) (fun d => lbar (ev n w F d)).
Proof.
  induction 1 as [|l w Hl Hw IH]; intros F; [apply eqf_refl|]. cbn [mirl map ev fold_left]. eapply eqf_trans; [|apply IH].
  apply (ev_ext n m (mirl w) (mirl_range n w Hw)). intros d Td. unfold sgm, EE, DE. cbn [fst snd]. rewrite lbar_add, !lbar_mul, lbar_q2, cf_bar. reflexivity.
Qed.

(** ** reflection of the basis *)
Definition reflD (d : diag) : diag := mkD (dtop d) (dbot d) (map (fun i => rp (dtop d) (dbot d) (nth (rp (dtop d) (dbot d) i) (dseq d) 0)) (seq 0 (dtop d + dbot d))).
Lemma reflD_eq n m d d' : typed n m d -> typed n m d' -> reflects d d' -> d' = reflD d.
Proof.
  intros ((C & L) & T1 & T2) ((C' & L') & T1' & T2') (E1 & E2 & E3). destruct d' as [t' b' s']. cbn [dtop dbot dseq] in *. subst t' b'. unfold reflD. rewrite E1, E2. f_equal. rewrite E1, E2 in L'.
  apply nth_ext with (d := 0) (d' := 0); [rewrite map_length, seq_length; lia|]. intros i Hi. assert (Hi' : i < dtop d + dbot d) by lia.
  rewrite (nth_indep (map _ _) 0 (rp (dtop d) (dbot d) (nth (rp (dtop d) (dbot d) 0) (dseq d) 0))) by (rewrite map_length, seq_length; lia). rewrite (map_nth (fun i => rp (dtop d) (dbot d) (nth (rp (dtop d) (dbot d) i) (dseq d) 0))), seq_nth by lia. cbn [Nat.add].
  rewrite <- E3 by now apply rp_lt. now rewrite rp_rp.
Qed.
Section R.
Variables (n r : nat).
Hypothesis (Hr : 2 * r <= n).
Let m := n - 2 * r.
Let d := length (Wb n r).
Let b (i : nat) : diag := nth i (Wb n r) (did 0).
Definition pi (i : nat) : nat := ix (Wb n r) (reflD (nth i (Wb n r) (did 0))).
Definition hs : lpoly := vht (n - 2 * r) r.
Lemma b_in i : i < d -> typed n m (b i) /\ through_all m (dseq (b i)).
Proof using Hr. intros Hi. apply (Wb_spec n r Hr). now apply nth_In. Qed.
Lemma b_half i : i < d -> typed n m (b (pi i)) /\ through_all m (dseq (b (pi i))) /\ reflects (b i) (b (pi i)) /\ pi i < d /\
  forall F, onlythrough n m F -> leq (ev n (hw n) F (b i)) (lmul hs (F (b (pi i)))).
Proof using Hr.
  intros Hi. destruct (b_in i Hi) as [T Th]. assert (En : m + 2 * r = n) by (unfold m; lia). pose proof (half_twist m r (b i)) as H. rewrite En in H. destruct (H T Th) as (x & Tx & Hx & Rx & HF).
  pose proof (reflD_eq n m _ _ T Tx Rx) as Ex. assert (Ix : In x (Wb n r)) by (apply (Wb_spec n r Hr); auto). assert (E : b (pi i) = x /\ pi i < d).
  { unfold b, pi. fold (b i). rewrite <- Ex. destruct (ix_ok _ _ Ix). auto. }
  destruct E as [-> E]. auto.
Qed.
Lemma pi_lt i : i < d -> pi i < d. Proof using Hr. intros Hi. now apply b_half. Qed.
Lemma b_inj i j : i < d -> j < d -> b i = b j -> i = j.
Proof using Hr. intros Hi Hj E. apply (proj1 (NoDup_nth (Wb n r) (did 0)) (proj1 (Wb_spec n r Hr))); auto. Qed.
Lemma pi_pi i : i < d -> pi (pi i) = i.
Proof using Hr.
  intros Hi. destruct (b_half i Hi) as (T & Th & Rf & L & _). destruct (b_half (pi i) L) as (T2 & Th2 & Rf2 & L2 & _). apply b_inj; auto.
  apply (reflects_uniq n m (b (pi i))); auto; [apply b_in; auto|]. apply (reflects_sym n m); auto. now apply b_in.
Qed.
Lemma dd_eq i k : i < d -> k < d -> ddelta (b i) (b k) = if i =? k then lint 1 else lint 0.
Proof using Hr. intros Hi Hk. unfold ddelta. destruct (diag_eqb_spec (b i) (b k)) as [E|N], (Nat.eqb_spec i k) as [E'|N']; try reflexivity; [destruct N'; now apply b_inj|destruct N; now rewrite E']. Qed.
Lemma only_b i : i < d -> onlythrough n m (ddelta (b i)).
Proof using Hr. intros Hi y Ty N. unfold ddelta. destruct (diag_eqb_spec (b i) y) as [E|_]; [|reflexivity]. destruct N. rewrite <- E. now apply b_in. Qed.
Lemma delta_refl i : i < d -> eqf n m (ev n (hw n) (ddelta (b i))) (fun y => lmul hs (ddelta (b (pi i)) y)).
Proof using Hr.
  intros Hi y Ty. destruct (existsb (diag_eqb y) (Wb n r)) eqn:Ex.
  - apply existsb_exists in Ex. destruct Ex as (x & Ix & Ex). destruct (diag_eqb_spec y x) as [<-|]; [|discriminate]. destruct (In_nth _ _ (did 0) Ix) as (k & Hk & Ek). fold (b k) in Ek. rewrite <- Ek.
    destruct (b_half k Hk) as (_ & _ & _ & L & HF). rewrite HF by now apply only_b. rewrite !dd_eq by (auto; now apply pi_lt).
    destruct (Nat.eqb_spec i (pi k)) as [E|N], (Nat.eqb_spec (pi i) k) as [E'|N']; try reflexivity; [destruct N'; rewrite E; now apply pi_pi|destruct N; rewrite <- E'; symmetry; now apply pi_pi].
  - assert (NT : ~ through_all m (dseq y)).
    { intros Th. assert (Iy : In y (Wb n r)) by (apply (Wb_spec n r Hr); auto). assert (existsb (diag_eqb y) (Wb n r) = true); [|congruence]. apply existsb_exists. exists y. split; [exact Iy|]. destruct (diag_eqb_spec y y); congruence. }
    rewrite (only_ev n m (hw n) (hw_range n) _ (only_b i Hi) y Ty NT), (only_b (pi i) (pi_lt i Hi) y Ty NT). ring.
Qed.
Local Notation Y w i j := (ev n w (ddelta (b i)) (b j)).
Lemma Y_left w i j : in_range n w -> i < d -> j < d -> leq (Y (hw n ++ w) i j) (lmul hs (Y w (pi i) j)).
Proof using Hr.
  intros Hw Hi Hj. destruct (b_in j Hj) as [T _]. rewrite ev_app. rewrite (ev_ext n m w Hw _ _ (delta_refl i Hi) (b j) T). apply ev_scale.
Qed.
Lemma Y_right w i j : in_range n w -> i < d -> j < d -> leq (Y (w ++ hw n) i j) (lmul hs (Y w i (pi j))).
Proof using Hr. intros Hw Hi Hj. rewrite ev_app. apply b_half; [exact Hj|]. apply only_ev; [exact Hw|now apply only_b]. Qed.
Lemma hs_pow : leq hs (lmul (lint ((-1) ^ Z.of_nat (r * (n - 1)))) (vpow (Z.of_nat (r * (n - r + 1))))).
Proof using Hr.
  unfold hs. rewrite vht_pow. replace (n - 2 * r + r + 1) with (n - r + 1) by lia. destruct r as [|r']; [reflexivity|].
  replace (Z.of_nat (S r' * (n - 1))) with (Z.of_nat (S r' * (n - 2 * S r' + 1)) + 2 * (Z.of_nat (S r') * (Z.of_nat (S r') - 1)))%Z
    by (clear - Hr; destruct (Nat.le_exists_sub (2 * S r') n Hr) as (k & -> & _); replace (k + 2 * S r' - 2 * S r' + 1) with (k + 1) by lia; replace (k + 2 * S r' - 1) with (k + 1 + 2 * r') by lia; rewrite !Nat2Z.inj_mul, !Nat2Z.inj_add, !Nat2Z.inj_mul, !Nat2Z.inj_succ; cbn [Z.of_nat]; ring).
  rewrite Z.pow_add_r by nia. rewrite (Z.pow_mul_r (-1) 2) by nia. change ((-1) ^ 2)%Z with 1%Z. rewrite Z.pow_1_l by nia. now rewrite Z.mul_1_r.
Qed.
Lemma hs_unit : exists u, leq (lmul u hs) (lint 1).
Proof using Hr.
  exists (lmul (lint ((-1) ^ Z.of_nat (r * (n - 1)))) (vpow (- Z.of_nat (r * (n - r + 1))))). rewrite hs_pow.
  assert (V : forall a, leq (lmul (vpow (- a)) (vpow a)) (lint 1)). { intros a. apply leq_L. intros g. unfold vpow, lint. rewrite L_mul, !L_make. cbn [lin]. rewrite !L_make. cbn [lin]. replace (- a + a)%Z with 0%Z by lia. ring. }
  set (s := ((-1) ^ Z.of_nat (r * (n - 1)))%Z). transitivity (lmul (lmul (lint s) (lint s)) (lmul (vpow (- Z.of_nat (r * (n - r + 1)))) (vpow (Z.of_nat (r * (n - r + 1)))))); [ring|].
  rewrite V, lint_mul. unfold s. rewrite <- Z.pow_mul_l. change (-1 * -1)%Z with 1%Z. rewrite Z.pow_1_l by apply Nat2Z.is_nonneg. ring.
Qed.
Lemma Y_flip w i j : in_range n w -> i < d -> j < d -> leq (Y (flipl n w) i j) (Y w (pi i) (pi j)).
Proof using Hr.
  intros Hw Hi Hj. destruct hs_unit as [u Hu]. destruct (b_in j Hj) as [T _]. pose proof (ev_braid n m _ _ (hw_flip n w Hw) ltac:(apply in_range_app; auto using hw_range) (ddelta (b (pi i))) (b j) T) as K.
  assert (A : leq (lmul hs (Y w (pi i) (pi j))) (lmul hs (Y (flipl n w) i j))).
  { pose proof (Y_right w (pi i) j Hw (pi_lt i Hi) Hj) as A1. pose proof (Y_left (flipl n w) (pi i) j (flipl_range n w Hw) (pi_lt i Hi) Hj) as A2. rewrite pi_pi in A2 by exact Hi. now rewrite <- A1, <- A2. }
  transitivity (lmul (lmul u hs) (Y (flipl n w) i j)); [rewrite Hu; ring|]. transitivity (lmul u (lmul hs (Y (flipl n w) i j))); [ring|]. rewrite <- A. transitivity (lmul (lmul u hs) (Y w (pi i) (pi j))); [ring|]. rewrite Hu. ring.
Qed.
Lemma Y_mirror w i j : in_range n w -> i < d -> j < d -> leq (Y (mirl w) i j) (lbar (Y w i j)).
Proof using Hr.
  intros Hw Hi Hj. destruct (b_in j Hj) as [T _]. rewrite <- (ev_bar n m w Hw (ddelta (b i)) (b j) T). apply (ev_ext n m (mirl w) (mirl_range n w Hw)); [|exact T].
  intros y _. unfold ddelta. destruct (diag_eqb (b i) y); symmetry; apply lbar_int.
Qed.
Lemma Y_hw i j : i < d -> j < d -> leq (Y (hw n) i j) (if j =? pi i then hs else lint 0).
Proof using Hr. intros Hi Hj. destruct (b_in j Hj) as [T _]. rewrite (delta_refl i Hi (b j) T). rewrite dd_eq by (auto; now apply pi_lt). rewrite Nat.eqb_sym. destruct (j =? pi i); ring. Qed.
End R.

(** ** statements *)
(** [pi] reflects the basis of the cell module W(n, r): the i-th basis diagram,
    seen in a mirror placed to its right, is the pi(i)-th one.  ([reflects x y]: the
    diagrams have the same size, and y joins the reversed points exactly where x
    joins the points.) *)
Definition basis_mirror (n r d : nat) (pi : nat -> nat) : Prop :=
  exists B, cell_basis n r = Ok B /\ length B = d /\ forall i, i < d -> pi i < d /\ pi (pi i) = i /\ reflects (nth i B (did 0)) (nth (pi i) B (did 0)).
(** sigma_i becomes sigma_(n-2-i): the braid seen from behind *)
Definition flip_word (n : nat) (w : list (Z * Z)) : list (Z * Z) := map (fun l => (Z.of_nat n - 2 - fst l, snd l)%Z) w.
(** every crossing is changed: the mirror image of the braid *)
Definition mirror_word (w : list (Z * Z)) : list (Z * Z) := map (fun l => (fst l, - snd l)%Z) w.

Lemma flip_word_ok n w : word_ok n w -> word_ok n (flip_word n w).
Proof. intros H. unfold word_ok, flip_word. rewrite Forall_map. eapply Forall_impl; [|exact H]. cbn. intros [i e]. cbn. lia. Qed.
Lemma mirror_word_ok n w : word_ok n w -> word_ok n (mirror_word w).
Proof. intros H. unfold word_ok, mirror_word. rewrite Forall_map. eapply Forall_impl; [|exact H]. auto. Qed.
Lemma map_rep {A B} (f : A -> B) x k : map f (repeat x k) = repeat (f x) k. Proof. induction k; cbn; congruence. Qed.
Lemma expand_flip n w : word_ok n w -> expand (flip_word n w) = flipl n (expand w).
Proof.
  induction 1 as [|[i e] w Hi Hw IH]; [reflexivity|]. cbn [fst] in Hi. unfold flip_word, expand. cbn [map flat_map fst snd]. unfold flipl. rewrite map_app, map_rep. cbn [fst snd]. f_equal; [|exact IH]. f_equal. f_equal. lia.
Qed.
Lemma expand_mirror w : expand (mirror_word w) = mirl (expand w).
Proof.
  induction w as [|[i e] w IH]; [reflexivity|]. unfold mirror_word, expand. cbn [map flat_map fst snd]. unfold mirl. rewrite map_app, map_rep. cbn [fst snd]. f_equal; [|exact IH].
  destruct (Z.eq_dec e 0) as [->|N]; [reflexivity|]. replace (Z.abs_nat (- e)) with (Z.abs_nat e) by lia. f_equal. f_equal. destruct (Z.leb_spec 0 e), (Z.leb_spec 0 (- e)); cbn; lia.
Qed.

Section API.
Variables (n r : nat) (p : Z) (R : rep) (d : nat).
Hypothesis (EJ : jones_rep n r p = Ok R) (ED : rep_dimension R = Ok (Z.of_nat d)).
Let Hn : 1 <= n := proj1 (jones_rep_ok n r p R EJ).
Let Hr : 2 * r <= n := proj1 (proj2 (jones_rep_ok n r p R EJ)).
Lemma d_Wb : d = length (Wb n r).
Proof using All. destruct (Xfacts n r p R EJ) as (gens & invs & E & ED' & _). rewrite ED in ED'. injection ED' as ED'. lia. Qed.
Lemma pi_mirror : basis_mirror n r d (pi n r).
Proof using All.
  pose proof d_Wb as Ed. destruct (C32_cell_basis n r Hr) as [B [EB _]]. assert (EW : Wb n r = B) by (unfold Wb; now rewrite EB). exists B. split; [exact EB|]. rewrite <- EW. split; [now symmetry|].
  intros i Hi. rewrite Ed in *. split; [now apply pi_lt|]. split; [now apply pi_pi|]. now apply b_half.
Qed.
Lemma mirror_pi f : basis_mirror n r d f -> forall i, i < d -> f i = pi n r i.
Proof using All.
  intros (B & EB & EL & H) i Hi. pose proof d_Wb as Ed. assert (EW : Wb n r = B) by (unfold Wb; now rewrite EB). destruct (H i Hi) as (H1 & _ & H3). rewrite <- EW in H3. rewrite Ed in *.
  apply (b_inj n r Hr); [exact H1|now apply pi_lt|]. apply (reflects_uniq n (n - 2 * r) (nth i (Wb n r) (did 0))); auto; try (now apply b_in); [apply b_in; [exact Hr|now apply pi_lt]|now apply b_half].
Qed.
Lemma hw_delta u : lifts n (rev (seq 0 n)) u -> braid_eq n u (hw n).
Proof using All. intros LU. apply lifts_iff in LU. destruct LU as [x [Rx ->]]. rewrite <- longest_rev in Rx. exact (Delta_word n x Hn Rx). Qed.
Lemma entry_Y w : word_ok n w -> exists A, rep_evaluate_artin_word R w = Ok A /\ square d A /\ forall v i j, braid_eq n (expand w) v -> in_range n v -> i < d -> j < d -> neqp p (mentry A i j) (Xe n r v i j).
Proof using All.
  intros Hw. destruct (X_eval n r p R w EJ Hw) as (A & EA & SA & XA). rewrite <- d_Wb in *. exists A. split; [exact EA|]. split; [now apply sq_square|]. intros v i j BE Hv Hi Hj. rewrite XA by auto. apply (X_braid n r p R); auto; try (rewrite <- d_Wb; auto). now apply word_ok_range.
Qed.
Lemma leq_neqp a b : leq a b -> neqp p (NL a) (NL b).
Proof using Type. intros H. apply neq_neqp. exact H. Qed.
Lemma coef_hs x e : coef (lmul (hs n r) x) e = ((-1) ^ Z.of_nat (r * (n - 1)) * coef x (e - Z.of_nat (r * (n - r + 1))))%Z.
Proof using All.
  assert (E : leq (lmul (hs n r) x) (lmul (lint ((-1) ^ Z.of_nat (r * (n - 1)))) (lmul (vpow (Z.of_nat (r * (n - r + 1)))) x))) by (rewrite (hs_pow n r Hr); ring). rewrite (E e). rewrite coef_scale. f_equal.
  set (c := Z.of_nat (r * (n - r + 1))). rewrite !coef_L, L_mul. unfold vpow. rewrite L_make. cbn [lin]. rewrite Z.add_0_r, Z.mul_1_l. apply L_ext. intros f. unfold delta. destruct (Z.eqb_spec f (e - c)), (Z.eqb_spec (c + f) e); lia.
Qed.
End API.

(** The reflection exists. *)
Theorem C129_basis n r p R d : jones_rep n r p = Ok R -> rep_dimension R = Ok (Z.of_nat d) -> exists pi, basis_mirror n r d pi.
Proof. intros EJ ED. exists (pi n r). now apply (pi_mirror n r p R). Qed.
(** C129.  Whatever word spells Delta, its matrix is (-1)^(r (n-1)) v^(r (n-r+1))
    times the permutation matrix of the reflection, modulo p. *)
Theorem C129_garside n r p R d pi u w : jones_rep n r p = Ok R -> rep_dimension R = Ok (Z.of_nat d) -> basis_mirror n r d pi -> lifts n (rev (seq 0 n)) u -> word_ok n w -> braid_eq n (expand w) u ->
  exists A, rep_evaluate_artin_word R w = Ok A /\ square d A /\
    forall i j e, i < d -> j < d -> (p | numcoef (mentry A i j) e - (if (j =? pi i)%nat && (e =? Z.of_nat (r * (n - r + 1))) then (-1) ^ Z.of_nat (r * (n - 1)) else 0))%Z.
Proof.
  intros EJ ED HP LU Hw BE. destruct (entry_Y n r p R d EJ ED w Hw) as (A & EA & SA & XA). exists A. split; [exact EA|]. split; [exact SA|]. intros i j e Hi Hj. rewrite (mirror_pi n r p R d EJ ED pi HP) by exact Hi.
  pose proof (hw_delta n r p R d EJ ED u LU) as Hu. rewrite Hu in BE. pose proof (XA _ i j BE (hw_range n) Hi Hj) as Q. pose proof (proj1 (proj2 (jones_rep_ok n r p R EJ))) as Hr. pose proof (d_Wb n r p R d EJ ED) as Ed. rewrite Ed in Hi, Hj.
  pose proof (leq_neqp p _ _ (Y_hw n r Hr i j Hi Hj)) as Q2. unfold Xe in Q. rewrite Q2 in Q. apply neqp_congr in Q. specialize (Q e). rewrite (numcoef_coerce (NL _)) in Q. cbn [coerce] in Q.
  destruct (j =? PropsReflect.pi n r i)%nat; cbn [andb]; [|rewrite coef_L, L_int, Z.mul_0_l in Q; exact Q].
  assert (E : leq (hs n r) (lmul (hs n r) (lint 1))) by ring. rewrite (E e), (coef_hs n r p R d EJ ED) in Q. rewrite coef_L, L_int in Q. unfold delta in Q.
  replace (e =? Z.of_nat (r * (n - r + 1)))%Z with (0 =? e - Z.of_nat (r * (n - r + 1)))%Z by (destruct (Z.eqb_spec 0 (e - Z.of_nat (r * (n - r + 1)))), (Z.eqb_spec e (Z.of_nat (r * (n - r + 1)))); lia).
  destruct (0 =? e - Z.of_nat (r * (n - r + 1)))%Z; [now rewrite Z.mul_1_l, Z.mul_1_r in Q|now rewrite ?Z.mul_0_r in Q].
Qed.
(** hence multiplying by Delta on the left permutes the rows, and on the right the columns, up to that power of v *)
Theorem C129_multiply n r p R d pi u w wl wr : jones_rep n r p = Ok R -> rep_dimension R = Ok (Z.of_nat d) -> basis_mirror n r d pi -> lifts n (rev (seq 0 n)) u ->
  word_ok n w -> word_ok n wl -> word_ok n wr -> braid_eq n (expand wl) (u ++ expand w) -> braid_eq n (expand wr) (expand w ++ u) ->
  exists A Al Ar, rep_evaluate_artin_word R w = Ok A /\ rep_evaluate_artin_word R wl = Ok Al /\ rep_evaluate_artin_word R wr = Ok Ar /\
    forall i j e, i < d -> j < d ->
      (p | numcoef (mentry Al i j) e - (-1) ^ Z.of_nat (r * (n - 1)) * numcoef (mentry A (pi i) j) (e - Z.of_nat (r * (n - r + 1))))%Z /\
      (p | numcoef (mentry Ar i j) e - (-1) ^ Z.of_nat (r * (n - 1)) * numcoef (mentry A i (pi j)) (e - Z.of_nat (r * (n - r + 1))))%Z.
Proof.
  intros EJ ED HP LU Hw Hl Hr' BL BR. destruct (entry_Y n r p R d EJ ED w Hw) as (A & EA & SA & XA). destruct (entry_Y n r p R d EJ ED wl Hl) as (Al & EAl & _ & XL). destruct (entry_Y n r p R d EJ ED wr Hr') as (Ar & EAr & _ & XR).
  exists A, Al, Ar. do 3 (split; [assumption|]). pose proof (hw_delta n r p R d EJ ED u LU) as Hu. rewrite Hu in BL, BR. pose proof (proj1 (proj2 (jones_rep_ok n r p R EJ))) as Hr. pose proof (d_Wb n r p R d EJ ED) as Ed. pose proof (word_ok_range n w Hw) as Rw.
  intros i j e Hi Hj. rewrite (mirror_pi n r p R d EJ ED pi HP i Hi), (mirror_pi n r p R d EJ ED pi HP j Hj). set (f := PropsReflect.pi n r) in *.
  assert (FL : forall k, k < d -> f k < d) by (rewrite Ed; intros k Hk; now apply pi_lt).
  assert (Main : forall (X : num) a b (Q : neqp p X (NL (lmul (hs n r) (ev n (expand w) (ddelta (nth a (Wb n r) (did 0))) (nth b (Wb n r) (did 0)))))), a < d -> b < d ->
    (p | numcoef X e - (-1) ^ Z.of_nat (r * (n - 1)) * numcoef (mentry A a b) (e - Z.of_nat (r * (n - r + 1))))%Z).
  { intros X a b Q Ha Hb. apply neqp_congr in Q. specialize (Q e). rewrite (numcoef_coerce (NL _)) in Q. cbn [coerce] in Q. rewrite (coef_hs n r p R d EJ ED) in Q.
    pose proof (XA _ a b (be_refl n _) Rw Ha Hb) as K. apply neqp_congr in K. specialize (K (e - Z.of_nat (r * (n - r + 1)))%Z). unfold Xe in K. rewrite (numcoef_coerce (NL _)) in K. cbn [coerce] in K.
    revert Q K. generalize (numcoef X e) ((-1) ^ Z.of_nat (r * (n - 1)))%Z. generalize (numcoef (mentry A a b) (e - Z.of_nat (r * (n - r + 1)))). intros x y z [s S] [t T]. exists (s - z * t)%Z. nia. }
  split; (apply Main; auto).
  - rewrite (XL _ i j BL) by (auto; apply in_range_app; auto using hw_range). apply leq_neqp. rewrite Ed in *. now apply Y_left.
  - rewrite (XR _ i j BR) by (auto; apply in_range_app; auto using hw_range). apply leq_neqp. rewrite Ed in *. now apply Y_right.
Qed.
(** the braid seen from behind: rows and columns are permuted by the reflection *)
Theorem C129_flip n r p R d pi w : jones_rep n r p = Ok R -> rep_dimension R = Ok (Z.of_nat d) -> basis_mirror n r d pi -> word_ok n w ->
  exists A B, rep_evaluate_artin_word R w = Ok A /\ rep_evaluate_artin_word R (flip_word n w) = Ok B /\ square d A /\ square d B /\
    forall i j e, i < d -> j < d -> (p | numcoef (mentry B i j) e - numcoef (mentry A (pi i) (pi j)) e)%Z.
Proof.
  intros EJ ED HP Hw. pose proof (flip_word_ok n w Hw) as Hf. destruct (entry_Y n r p R d EJ ED w Hw) as (A & EA & SA & XA). destruct (entry_Y n r p R d EJ ED _ Hf) as (B & EB & SB & XB). exists A, B. do 4 (split; [assumption|]).
  pose proof (proj1 (proj2 (jones_rep_ok n r p R EJ))) as Hr. pose proof (d_Wb n r p R d EJ ED) as Ed. pose proof (word_ok_range n w Hw) as Rw.
  intros i j e Hi Hj. rewrite (mirror_pi n r p R d EJ ED pi HP i Hi), (mirror_pi n r p R d EJ ED pi HP j Hj). apply neqp_congr.
  rewrite (XB _ i j (be_refl n _) (word_ok_range n _ Hf) Hi Hj). rewrite (XA _ _ _ (be_refl n _) Rw) by (rewrite Ed in *; now apply pi_lt). apply leq_neqp. rewrite expand_flip by exact Hw. rewrite Ed in *. now apply Y_flip.
Qed.
(** the mirror image of the braid: v is replaced by its inverse *)
Theorem C129_mirror n r p R d w : jones_rep n r p = Ok R -> rep_dimension R = Ok (Z.of_nat d) -> word_ok n w ->
  exists A B, rep_evaluate_artin_word R w = Ok A /\ rep_evaluate_artin_word R (mirror_word w) = Ok B /\ square d A /\ square d B /\
    forall i j e, i < d -> j < d -> (p | numcoef (mentry B i j) e - numcoef (mentry A i j) (- e))%Z.
Proof.
  intros EJ ED Hw. pose proof (mirror_word_ok n w Hw) as Hf. destruct (entry_Y n r p R d EJ ED w Hw) as (A & EA & SA & XA). destruct (entry_Y n r p R d EJ ED _ Hf) as (B & EB & SB & XB). exists A, B. do 4 (split; [assumption|]).
  pose proof (proj1 (proj2 (jones_rep_ok n r p R EJ))) as Hr. pose proof (d_Wb n r p R d EJ ED) as Ed. pose proof (word_ok_range n w Hw) as Rw. intros i j e Hi Hj.
  pose proof (XA _ i j (be_refl n _) Rw Hi Hj) as K. apply neqp_congr in K. specialize (K (- e)%Z). pose proof (XB _ i j (be_refl n _) (word_ok_range n _ Hf) Hi Hj) as Q. rewrite expand_mirror in Q. rewrite Ed in Hi, Hj. pose proof (leq_neqp p _ _ (Y_mirror n r Hr (expand w) i j Rw Hi Hj)) as Q2. unfold Xe in Q. rewrite Q2 in Q.
  apply neqp_congr in Q. specialize (Q e). unfold Xe in K. rewrite (numcoef_coerce (NL _)) in K. rewrite (numcoef_coerce (NL _)) in Q. cbn [coerce] in K, Q. rewrite coef_bar in Q. destruct K as [x K], Q as [y Q]. exists (y - x)%Z. lia.
Qed.
Example C129_case : exists R A F M, jones_rep 4 1 0 = Ok R /\ rep_dimension R = Ok 3%Z /\ basis_mirror 4 1 3 (fun i => 2 - i) /\ lifts 4 (rev (seq 0 4)) (pword [0; 1; 0; 2; 1; 0]) /\
  rep_evaluate_artin_word R (map (fun i => (Z.of_nat i, 1%Z)) [0; 1; 0; 2; 1; 0]) = Ok A /\ mdata A = map NL [mkL 0 []; mkL 0 []; mkL 4 [-1]; mkL 0 []; mkL 4 [-1]; mkL 0 []; mkL 4 [-1]; mkL 0 []; mkL 0 []]%Z /\
  (exists B, rep_evaluate_artin_word R [(0, 1); (1, -1)]%Z = Ok B /\ mentry B 0 0 = NL (mkL 0 [1; 0; -1])%Z) /\
  rep_evaluate_artin_word R (flip_word 4 [(0, 1); (1, -1)]%Z) = Ok F /\ mentry F 2 2 = NL (mkL 0 [1; 0; -1])%Z /\ rep_evaluate_artin_word R (mirror_word [(0, 1); (1, -1)]%Z) = Ok M /\ mentry M 0 0 = NL (mkL (-2) [-1; 0; 1])%Z.
Proof.
  do 4 eexists. split; [reflexivity|]. split; [reflexivity|]. split; [|split].
  - destruct (jones_rep 4 1 0) as [R|] eqn:EJ; [|discriminate]. assert (ED : rep_dimension R = Ok (Z.of_nat 3)) by (injection EJ as <-; reflexivity). eexists. split; [reflexivity|]. split; [reflexivity|].
    intros i Hi. split; [lia|]. split; [lia|]. destruct i as [|[|[|]]]; [| | |lia]; (split; [reflexivity|]; split; [reflexivity|]; cbn [dtop dbot dseq nth]; intros j Hj; destruct j as [|[|[|[|[|[|]]]]]]; [reflexivity..|cbn in Hj; lia]).
  - apply lifts_iff. exists [0; 1; 0; 2; 1; 0]. split; [|reflexivity]. change (rev (seq 0 4)) with (prodw 4 [0; 1; 0; 2; 1; 0]). apply minimal_redw; [repeat constructor|vm_compute; lia].
  - split; [vm_compute; reflexivity|]. split; [reflexivity|]. split; [eexists; split; [vm_compute; reflexivity|reflexivity]|]. split; [vm_compute; reflexivity|]. split; [reflexivity|]. split; [vm_compute; reflexivity|reflexivity].
Qed.
