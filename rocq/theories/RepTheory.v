(** RepTheory.v – matrices of Python numbers modulo p, and words evaluated in
    matrices that satisfy the braid relations modulo p. *)
From Verif Require Import Base ModelPoly SpecPoly PolyTheory PolyDiv EvalTheory PropsPoly NumTheory ModelMatrix SpecMatrix MatrixTheory PropsMatrix SpecBraid ModelTL ModelTLMor ModelPerm ModelBraid ModelRep SpecRep.
From Coq Require Import Ring Setoid Morphisms.
Local Open Scope nat_scope.

Lemma numcoef_coerce x k : numcoef x k = coef (coerce x) k.
Proof.
  destruct x as [c|l]; [|reflexivity]. cbn [numcoef coerce]. rewrite coef_L, L_int. unfold delta. rewrite (Z.eqb_sym 0 k). destruct (k =? 0)%Z; lia.
Qed.
Lemma coef_scale p z k : coef (lmul (lint p) z) k = (p * coef z k)%Z.
Proof. rewrite (coef_L (lmul _ _)), L_mul, L_int, coef_L. reflexivity. Qed.

Section Mod.
Variable p : Z.
Definition neqp (x y : num) : Prop := exists z, leq (coerce x) (ladd (coerce y) (lmul (lint p) z)).
Lemma neqp_congr x y : neqp x y <-> congr p x y.
Proof.
  unfold congr. split.
  - intros [z H] k. rewrite !numcoef_coerce, (H k), C13_add_coefficients, coef_scale. exists (coef z k). lia.
  - intros H. exists (lmap (fun c => c / p)%Z (lsub (coerce x) (coerce y))). intros k. rewrite C13_add_coefficients, coef_scale, coef_lmap by apply Zdiv_0_l.
    specialize (H k). rewrite !numcoef_coerce in H. assert (S : coef (lsub (coerce x) (coerce y)) k = (coef (coerce x) k - coef (coerce y) k)%Z).
    { rewrite !coef_L, L_sub. reflexivity. }
    rewrite S. destruct (Z.eq_dec p 0) as [->|N]; [destruct H as [q H]; lia|]. rewrite <- (Z_div_exact_full_2 _ p N); [lia|]. now apply Z.mod_divide.
Qed.
Lemma neq_neqp x y : neq x y -> neqp x y.
Proof. intros H. exists (lint 0). unfold neq in H. rewrite H. ring. Qed.
#[local] Instance neqp_equiv : Equivalence neqp.
Proof.
  split.
  - intros x. now apply neq_neqp.
  - intros x y [z H]. exists (lneg z). rewrite H. ring.
  - intros x y w [z H] [z' K]. exists (ladd z z'). rewrite H, K. ring.
Qed.
Lemma nringp_ext : ring_eq_ext nadd nmul nneg neqp.
Proof.
  split; intros x x' [a H]; [intros y y' [b K]|intros y y' [b K]|].
  - exists (ladd a b). rewrite !coerce_add, H, K. ring.
  - exists (ladd (ladd (lmul (coerce x') b) (lmul a (coerce y'))) (lmul (lint p) (lmul a b))). rewrite !coerce_mul, H, K. ring.
  - exists (lneg a). rewrite !coerce_neg, H. ring.
Qed.
Lemma nringp : ring_theory (NI 0) (NI 1) nadd nmul nsub nneg neqp.
Proof. destruct nring. split; intros; apply neq_neqp; auto. Qed.
Definition pmeq : mat num -> mat num -> Prop := meq neqp.
Lemma pmeq_congr A B : pmeq A B <-> mat_congr p A B.
Proof.
  unfold pmeq, meq, mat_congr. assert (F : forall a b, Forall2 neqp a b <-> Forall2 (congr p) a b).
  { intros a b. split; induction 1; constructor; auto; now apply neqp_congr. }
  rewrite F. tauto.
Qed.
#[local] Instance pmeq_equiv : Equivalence pmeq. Proof. apply meq_equiv. apply neqp_equiv. Qed.
Local Notation pr := (MatrixTheory.prod (NI 0) nadd nmul).
Definition sq (d : nat) (A : mat num) : Prop := mwf A /\ mrows A = d /\ mcols A = d.
Lemma sq_square d A : sq d A <-> square d A.
Proof. unfold sq, square, mwf. split; intros [H [K L]]; repeat split; congruence. Qed.
Lemma sq_pr d A B : sq d A -> sq d B -> sq d (pr A B).
Proof. intros [_ [H _]] [_ [_ K]]. split; [apply prod_wf|]. split; assumption. Qed.
Lemma pr_meq d A A' B B' : sq d A -> sq d A' -> sq d B -> sq d B' -> pmeq A A' -> pmeq B B' -> pmeq (pr A B) (pr A' B').
Proof. intros [? [? ?]] [? [? ?]] [? [? ?]] [? [? ?]]. apply (prod_meq (NI 0) nadd nmul nneg neqp _ nringp_ext); auto; congruence. Qed.
Lemma pr_assoc d A B C : sq d A -> sq d B -> sq d C -> pmeq (pr (pr A B) C) (pr A (pr B C)).
Proof. intros [? [? ?]] [? [? ?]] [? [? ?]]. apply (prod_assoc (NI 0) (NI 1) nadd nmul nsub nneg neqp _ nringp_ext nringp); congruence. Qed.
Local Notation isid := (MatrixTheory.is_identity (NI 0) (NI 1)).
Lemma isid_sq d E : isid d E -> sq d E. Proof. intros [? [? [? _]]]. repeat split; auto. Qed.
Lemma pr_id_l d E A : isid d E -> sq d A -> pmeq (pr E A) A.
Proof. intros HE [? [? ?]]. now apply (prod_id_l (NI 0) (NI 1) nadd nmul nsub nneg neqp _ nringp_ext nringp d). Qed.
Lemma pr_id_r d E A : isid d E -> sq d A -> pmeq (pr A E) A.
Proof. intros HE [? [? ?]]. now apply (prod_id_r (NI 0) (NI 1) nadd nmul nsub nneg neqp _ nringp_ext nringp d). Qed.
Lemma nmul_ok d A B : sq d A -> sq d B -> nmat_mul A B = Ok (pr A B).
Proof. intros [? [? ?]] [? [? ?]]. apply mul_ok. congruence. Qed.
Lemma nid_ok d : exists E, nmat_identity (Z.of_nat d) = Ok E /\ isid d E.
Proof. apply identity_ok. Qed.
Local Notation mp := (mpow_nat (NI 0) nadd nmul).
Lemma mp_sq d E m k : isid d E -> sq d m -> sq d (mp E m k).
Proof. intros HE [? [? ?]]. now apply (mpow_shape (NI 0) (NI 1) nadd nmul). Qed.
Lemma npow_ok d E m k : isid d E -> sq d m -> (0 <= k)%Z -> exists r, nmat_pow m k = Ok r /\ sq d r /\ pmeq r (mp E m (Z.to_nat k)).
Proof.
  intros HE [W [R C]] Hk. unfold nmat_pow, mat_pow. rewrite R, C, Nat.eqb_refl. cbn [negb]. destruct (Z.ltb_spec k 0); [lia|].
  destruct (nid_ok d) as [E' [EE' HE']]. unfold nmat_identity in EE'. rewrite EE'. cbn [bind].
  assert (EE : E = E'). { destruct HE as [W1 [R1 [C1 H1]]], HE' as [W2 [R2 [C2 H2]]]. apply (mat_ext (NI 0)); auto; try congruence. intros i j Hi Hj. rewrite H1, H2 by congruence. reflexivity. }
  subst E'. destruct (isid_sq d E HE) as [WE [RE CE]].
  destruct (pow_loop_ok (NI 0) (NI 1) nadd nmul nsub nneg neqp _ nringp_ext nringp d E m HE W R C (S (S (Z.to_nat (Z.log2 k)))) k E m 0 1) as [r [Er [Wr [Rr [Cr Mr]]]]]; auto; try lia.
  - reflexivity.
  - cbn [mpow_nat]. symmetry. apply (pr_id_r d); [exact HE|repeat split; auto].
  - exists r. split; [exact Er|]. split; [repeat split; auto|]. rewrite Nat.add_0_l, Nat.mul_1_l in Mr. exact Mr.
Qed.

(** ** words *)
Section Words.
Variables (n d : nat) (gens invs : list (mat num)) (E : mat num).
Hypothesis HE : isid d E.
Hypothesis (Lg : length gens = n - 1) (Lh : length invs = n - 1).
Hypothesis (Sg : Forall (sq d) gens) (Sh : Forall (sq d) invs).
Definition G i := nth i gens E.
Definition H i := nth i invs E.
Lemma G_sq i : sq d (G i).
Proof using HE Sg. unfold G. destruct (nth_in_or_default i gens E) as [K| ->]; [|now apply isid_sq]. rewrite Forall_forall in Sg. auto. Qed.
Lemma H_sq i : sq d (H i).
Proof using HE Sh. unfold H. destruct (nth_in_or_default i invs E) as [K| ->]; [|now apply isid_sq]. rewrite Forall_forall in Sh. auto. Qed.
Definition lt (l : nat * bool) : mat num := if snd l then G (fst l) else H (fst l).
Lemma lt_sq l : sq d (lt l). Proof using HE Sg Sh. unfold lt. destruct (snd l); [apply G_sq|apply H_sq]. Qed.
Definition M (w : bword) : mat num := fold_right (fun l acc => pr (lt l) acc) E w.
Lemma M_sq w : sq d (M w).
Proof using HE Sg Sh. induction w as [|l w IH]; cbn [M fold_right]; [now apply isid_sq|]. apply sq_pr; [apply lt_sq|exact IH]. Qed.
Lemma M_app u v : pmeq (M (u ++ v)) (pr (M u) (M v)).
Proof using HE Sg Sh.
  induction u as [|l u IH]; cbn [List.app M fold_right].
  - symmetry. apply (pr_id_l d); [exact HE|apply M_sq].
  - transitivity (pr (lt l) (pr (M u) (M v))).
    + apply (pr_meq d); auto using lt_sq, M_sq, sq_pr; reflexivity.
    + symmetry. apply (pr_assoc d); auto using lt_sq, M_sq.
Qed.
Lemma M_one l : pmeq (M [l]) (lt l).
Proof using HE Sg Sh. cbn [M fold_right]. apply (pr_id_r d); auto using lt_sq. Qed.
Hypothesis relGH : forall i, i + 1 < n -> pmeq (pr (G i) (H i)) E /\ pmeq (pr (H i) (G i)) E.
Hypothesis relFar : forall i j, i + 2 <= j -> j + 1 < n -> pmeq (pr (G i) (G j)) (pr (G j) (G i)).
Hypothesis relBraid : forall i, i + 2 < n -> pmeq (pr (pr (G i) (G (i + 1))) (G i)) (pr (pr (G (i + 1)) (G i)) (G (i + 1))).
Lemma M_two a b : pmeq (M [a; b]) (pr (lt a) (lt b)).
Proof using HE Sg Sh. change (M [a; b]) with (pr (lt a) (M [b])). apply (pr_meq d); auto using lt_sq, M_sq; [reflexivity|apply M_one]. Qed.
Lemma M_three a b c : pmeq (M [a; b; c]) (pr (pr (lt a) (lt b)) (lt c)).
Proof using HE Sg Sh.
  change (M [a; b; c]) with (pr (lt a) (M [b; c])). transitivity (pr (lt a) (pr (lt b) (lt c))).
  - apply (pr_meq d); auto using lt_sq, M_sq, sq_pr; [reflexivity|apply M_two].
  - symmetry. apply (pr_assoc d); auto using lt_sq.
Qed.
Lemma M_braid u v : braid_eq n u v -> pmeq (M u) (M v).
Proof using HE Sg Sh relGH relFar relBraid.
  induction 1 as [u|u v _ IH|u v w _ IH1 _ IH2|u u' v v' _ IH1 _ IH2|i e Hi|i j Hi Hj|i Hi].
  - reflexivity.
  - now symmetry.
  - etransitivity; eauto.
  - rewrite !M_app. apply (pr_meq d); auto using M_sq.
  - rewrite M_two. unfold lt. cbn [fst snd]. destruct e; cbn [negb]; apply (relGH i Hi).
  - rewrite !M_two. unfold lt. cbn [fst snd]. auto.
  - rewrite !M_three. unfold lt. cbn [fst snd]. auto.
Qed.
Lemma M_repeat l k : pmeq (M (repeat l k)) (mp E (lt l) k).
Proof using HE Sg Sh.
  induction k as [|k IH]; cbn [repeat M fold_right mpow_nat]; [reflexivity|]. apply (pr_meq d); auto using lt_sq, M_sq; [now apply mp_sq; auto using lt_sq|reflexivity].
Qed.
(** the loop of evaluate_artin_word *)
Lemma letter_ok i e : (0 <= i)%Z -> (i + 1 < Z.of_nat n)%Z -> exists r, rep_letter gens invs (i, e) = Ok r /\ sq d r /\ pmeq r (M (expand [(i, e)])).
Proof using HE Lg Lh Sg Sh.
  intros Hi Hi'. assert (X : expand [(i, e)] = repeat (Z.to_nat i, (0 <=? e)%Z) (Z.abs_nat e)) by (unfold expand; cbn [flat_map fst snd]; apply app_nil_r). rewrite X.
  assert (Pg : pyget gens i = Ok (G (Z.to_nat i))). { unfold pyget. destruct (Z.leb_spec 0 i); [|lia]. unfold get, G. rewrite (nth_error_nth' _ E) by lia. reflexivity. }
  assert (Ph : pyget invs i = Ok (H (Z.to_nat i))). { unfold pyget. destruct (Z.leb_spec 0 i); [|lia]. unfold get, H. rewrite (nth_error_nth' _ E) by lia. reflexivity. }
  unfold rep_letter. destruct (Z.leb_spec 0 e) as [He|He].
  - rewrite Pg. cbn [bind]. destruct (npow_ok d E (G (Z.to_nat i)) e HE (G_sq _) He) as [r [Er [Sr Mr]]]. exists r. split; [exact Er|]. split; [exact Sr|].
    rewrite Mr. replace (Z.abs_nat e) with (Z.to_nat e) by lia. symmetry. apply M_repeat.
  - rewrite Ph. cbn [bind]. destruct (npow_ok d E (H (Z.to_nat i)) (Z.abs e) HE (H_sq _) ltac:(lia)) as [r [Er [Sr Mr]]]. exists r. split; [exact Er|]. split; [exact Sr|].
    rewrite Mr. replace (Z.abs_nat e) with (Z.to_nat (Z.abs e)) by lia. symmetry. apply M_repeat.
Qed.
Lemma expand_cons l w : expand (l :: w) = expand [l] ++ expand w.
Proof using Type. unfold expand. cbn [flat_map]. now rewrite app_nil_r. Qed.
Lemma letters_ok w : word_ok n w -> exists ms, mapM (rep_letter gens invs) w = Ok ms /\ Forall (sq d) ms /\
  forall acc u, sq d acc -> pmeq acc (M u) -> exists r, foldM nmat_mul ms acc = Ok r /\ sq d r /\ pmeq r (M (u ++ expand w)).
Proof using HE Lg Lh Sg Sh.
  induction w as [|[i e] w IH]; intros Hw.
  - exists []. split; [reflexivity|]. split; [constructor|]. intros acc u Sa Ma. exists acc. split; [reflexivity|]. split; [exact Sa|]. cbn. now rewrite app_nil_r.
  - inversion Hw as [|? ? [H1 H2] Hw']; subst. cbn [fst] in H1, H2. destruct (letter_ok i e H1 H2) as [r [Er [Sr Mr]]]. destruct (IH Hw') as [ms [Ems [Sms F]]].
    exists (r :: ms). cbn [mapM]. rewrite Er, Ems. cbn [bind]. split; [reflexivity|]. split; [now constructor|]. intros acc u Sa Ma. cbn [foldM]. rewrite (nmul_ok d acc r Sa Sr). cbn [bind].
    destruct (F (pr acc r) (u ++ expand [(i, e)])) as [r' [E' [S' M']]]; [now apply sq_pr| |exists r'; split; [exact E'|]; split; [exact S'|]; rewrite (expand_cons (i, e) w), app_assoc; exact M'].
    rewrite M_app. apply (pr_meq d); auto using M_sq.
Qed.
End Words.
(** reducing the entries does not change them modulo p *)
Lemma nreduce_neqp x : (0 < p)%Z -> neqp (nreduce p x) x.
Proof.
  intros Hp. destruct x as [c|l]; [reflexivity|]. symmetry. cbn [nreduce]. exists (lmap (fun c => c / p)%Z l). cbn [coerce]. apply (lmod_split p l Hp).
Qed.
Lemma map_reduce_pmeq A : (0 < p)%Z -> pmeq (mat_map (nreduce p) A) A.
Proof.
  intros Hp. split; [reflexivity|]. split; [reflexivity|]. cbn [mat_map mdata]. induction (mdata A); constructor; [now apply nreduce_neqp|assumption].
Qed.
Lemma sq_map f d A : sq d A -> sq d (mat_map f A).
Proof. intros [W [R C]]. unfold sq, mwf in *. cbn [mat_map mrows mcols mdata]. rewrite map_length. auto. Qed.
End Mod.
