(** RepCanon.v – which products of matrices consist of LPoly objects in canonical
    form, and when congruence modulo p is equality of objects. *)
From Verif Require Import Base ModelPoly SpecPoly PolyTheory PolyDiv EvalTheory PropsPoly NumTheory ModelMatrix SpecMatrix MatrixTheory PropsMatrix SpecBraid ModelTL ModelTLMor ModelPerm ModelBraid ModelRep SpecRep RepTheory.
From Coq Require Import Ring Setoid Morphisms.
Local Open Scope nat_scope.

Definition lent (x : num) : Prop := exists l, x = NL l /\ lcanon l.
Definition lentm (A : mat num) : Prop := Forall lent (mdata A).
Lemma lent_mul_l x y : lent x -> lent (nmul x y).
Proof. intros [l [-> Hl]]. destruct y; cbn [nmul]; eexists; (split; [reflexivity|]); apply canon_make. Qed.
Lemma lent_mul_r x y : lent y -> lent (nmul x y).
Proof. intros [l [-> Hl]]. destruct x; cbn [nmul]; eexists; (split; [reflexivity|]); apply canon_make. Qed.
Lemma lent_add_r x y : lent y -> lent (nadd x y).
Proof. intros [l [-> Hl]]. destruct x; cbn [nadd]; eexists; (split; [reflexivity|]); apply canon_make. Qed.
Local Notation pr := (MatrixTheory.prod (NI 0) nadd nmul).
Local Notation isid := (MatrixTheory.is_identity (NI 0) (NI 1)).
Lemma lentm_ent d A : sq d A -> (lentm A <-> forall i j, i < d -> j < d -> lent (ent (NI 0) A i j)).
Proof.
  intros [W [R C]]. unfold lentm, ent, entry, mwf in *. rewrite R, C in *. split.
  - intros F i j Hi Hj. rewrite Forall_forall in F. apply F, nth_In. rewrite W. now apply pos_lt.
  - intros F. apply Forall_forall. intros x Hx. apply (In_nth _ _ (NI 0)) in Hx. destruct Hx as [q [Hq <-]]. rewrite W in Hq. destruct (pos_split d d q Hq) as [A1 [B1 C1]]. rewrite C1. auto.
Qed.
Lemma lentm_pr d A B : 0 < d -> sq d A -> sq d B -> lentm A \/ lentm B -> lentm (pr A B).
Proof.
  intros Hd SA SB H. apply (lentm_ent d); [now apply sq_pr|]. intros i j Hi Hj. rewrite (prod_e (NI 0) nadd nmul A B i j) by (destruct SA as [? [? ?]], SB as [? [? ?]]; congruence).
  assert (CA : mcols A = d) by apply SA. rewrite CA. destruct d as [|d']; [lia|]. cbn [rsum]. apply lent_add_r. destruct H as [H|H].
  - apply lent_mul_l. apply (proj1 (lentm_ent _ A SA) H); lia.
  - apply lent_mul_r. apply (proj1 (lentm_ent _ B SB) H); lia.
Qed.
Lemma lentm_pow_loop d : 0 < d -> forall fuel e acc p2 r, sq d acc -> sq d p2 -> lentm p2 -> (0 <= e)%Z -> lentm acc \/ (0 < e)%Z -> mat_pow_loop (NI 0) nadd nmul fuel e acc p2 = Ok r -> lentm r.
Proof.
  intros Hd. induction fuel as [|fuel IH]; intros e acc p2 r Sa Sp Lp He H; cbn [mat_pow_loop]; [discriminate|].
  destruct (Z.eqb_spec e 0) as [E0|E0]; [intros [= <-]; destruct H; [assumption|lia]|].
  pose proof (nmul_ok d p2 p2 Sp Sp) as E2. unfold nmat_mul in E2. pose proof (nmul_ok d acc p2 Sa Sp) as E1. unfold nmat_mul in E1. rewrite E1, E2.
  pose proof (Z.div_mod e 2 ltac:(lia)) as DM. pose proof (Z.mod_pos_bound e 2 ltac:(lia)) as MB.
  destruct (Z.eqb_spec (e mod 2) 1) as [M1|M1]; cbn [bind]; intros E; (eapply IH in E; [exact E|auto using sq_pr|auto using sq_pr|apply (lentm_pr d); auto|lia|]).
  - left. apply (lentm_pr d); auto.
  - right. lia.
Qed.
Lemma lentm_pow d m k r : 0 < d -> sq d m -> lentm m -> (0 < k)%Z -> nmat_pow m k = Ok r -> lentm r.
Proof.
  intros Hd Sm Lm Hk. unfold nmat_pow, mat_pow. destruct Sm as [W [R C]]. rewrite R, C, Nat.eqb_refl. cbn [negb]. destruct (Z.ltb_spec k 0); [lia|].
  destruct (nid_ok d) as [E [EE HE]]. unfold nmat_identity in EE. rewrite EE. cbn [bind]. intros Er. apply (lentm_pow_loop d Hd) in Er; auto; [now apply isid_sq|now repeat split].
Qed.
Lemma lentm_fold d ms : 0 < d -> Forall (sq d) ms -> forall acc r, sq d acc -> lentm acc \/ Exists lentm ms -> foldM nmat_mul ms acc = Ok r -> lentm r.
Proof.
  intros Hd. induction 1 as [|m ms Sm Sms IH]; intros acc r Sa H; cbn [foldM].
  - intros [= <-]. destruct H as [H|H]; [exact H|inversion H].
  - rewrite (nmul_ok d acc m Sa Sm). cbn [bind]. intros E. apply IH in E; [exact E|now apply sq_pr|]. destruct H as [H|H]; [left; apply (lentm_pr d); auto|].
    inversion H; subst; [left; apply (lentm_pr d); auto|now right].
Qed.
(** reduced entries *)
Lemma canon_fix l : lcanon l <-> lpoly_make (lval l) (lcoeffs l) = l.
Proof.
  split; intros H.
  - apply canon_eq; [apply canon_make|exact H|]. apply leq_L. intros g. rewrite L_make. reflexivity.
  - rewrite <- H. apply canon_make.
Qed.
Lemma in_coeffs_coef l c : In c (lcoeffs l) -> exists k, coef l k = c.
Proof.
  intros H. apply (In_nth _ _ 0%Z) in H. destruct H as [i [Hi <-]]. exists (lval l + Z.of_nat i)%Z. unfold coef, coeff_at. destruct (Z.ltb_spec (lval l + Z.of_nat i) (lval l)); [lia|]. f_equal. lia.
Qed.
Lemma lent_reduced0 x : lent x -> reduced_entry 0 x.
Proof. intros [l [-> H]]. exists l. split; [reflexivity|]. split; [now apply canon_fix|]. intros N. now destruct N. Qed.
Lemma lent_reduce p x : (0 < p)%Z -> lent x -> reduced_entry p (nreduce p x).
Proof.
  intros Hp [l [-> H]]. cbn [nreduce]. exists (lmod p l). split; [reflexivity|]. split; [apply canon_fix, canon_make|]. intros _ c Hc. apply in_coeffs_coef in Hc. destruct Hc as [k <-]. now apply C19_coefficients.
Qed.
Lemma reduced_lent p x : reduced_entry p x -> lent x.
Proof. intros [l [-> [H _]]]. exists l. split; [reflexivity|now apply canon_fix]. Qed.
Lemma coef_range p l : (p <> 0 -> forall c, In c (lcoeffs l) -> 0 <= c < p)%Z -> (0 < p)%Z -> forall k, (0 <= coef l k < p)%Z.
Proof.
  intros H Hp k. unfold coef, coeff_at. destruct (k <? lval l)%Z; [lia|]. destruct (nth_in_or_default (Z.to_nat (k - lval l)) (lcoeffs l) 0%Z) as [K| ->]; [apply H; [lia|exact K]|lia].
Qed.
Lemma reduced_inj p x y : (0 <= p)%Z -> reduced_entry p x -> reduced_entry p y -> congr p x y -> x = y.
Proof.
  intros Hp [l [-> [Cl Rl]]] [m [-> [Cm Rm]]] H. f_equal. apply canon_eq; [now apply canon_fix|now apply canon_fix|]. intros k. specialize (H k). change (p | coef l k - coef m k)%Z in H.
  destruct (Z.eq_dec p 0) as [E|N]; [subst p; destruct H as [q H]; lia|]. pose proof (coef_range p l Rl ltac:(lia) k). pose proof (coef_range p m Rm ltac:(lia) k). destruct H as [q H]. assert (q = 0)%Z by nia. subst q. lia.
Qed.
Lemma reduced_matrix_inj p A B : (0 <= p)%Z -> reduced_matrix p A -> reduced_matrix p B -> mat_congr p A B -> A = B.
Proof.
  intros Hp. destruct A as [r c a], B as [r' c' b]. unfold reduced_matrix, mat_congr. cbn [mrows mcols mdata]. intros HA HB [<- [<- H]]. f_equal.
  induction H as [|x y a b Hxy _ IH]; [reflexivity|]. inversion HA; inversion HB; subst. f_equal; [now apply (reduced_inj p)|auto].
Qed.
