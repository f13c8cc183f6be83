(** BurauThree.v – the two-dimensional representation of B_3: the columns of the
    image of a normal form, factor by factor. *)
From Verif Require Import Base ModelPoly SpecPoly PolyTheory PropsPoly ModelMatrix SpecMatrix MatrixTheory NumTheory PropsPolymat3.
From Coq Require Import Ring Setoid Morphisms.
From Verif Require Import ModelPerm Germ GermNF GermAct GermBraid PermTheory WeakOrder PermWords SpecBraid BraidTheory ModelBraid ModelTL ModelTLMor ModelRep SpecRep RepTheory RepCanon PropsRep TableTheory NFApi SpecPerm PermGerm PermTable PropsGNF PropsGNF2 PolyRepTheory PolyRepSpan.
Local Open Scope nat_scope.
#[local] Existing Instance neqp_equiv.
#[local] Existing Instance pmeq_equiv.

Lemma mono x c s e : numcoef (nmul x (NL (mkL s [c]))) e = (c * numcoef x (e - s))%Z.
Proof.
  rewrite !numcoef_coerce, (coerce_mul x (NL (mkL s [c])) e). cbn [coerce].
  assert (Q : leq (mkL s [c]) (lmul (lint c) (vpow s))).
  { intros k. rewrite coef_scale, !coef_L. unfold vpow. rewrite L_make. unfold L. cbn [lval lcoeffs lin]. lia. }
  assert (Q2 : leq (lmul (coerce x) (mkL s [c])) (lmul (lint c) (lmul (vpow s) (coerce x)))) by (rewrite Q; ring).
  rewrite (Q2 e), coef_scale, vpow_coef. reflexivity.
Qed.
Lemma mono0 x s e : numcoef (nmul x (NL (mkL s []))) e = 0%Z.
Proof.
  rewrite !numcoef_coerce, (coerce_mul x (NL (mkL s [])) e). cbn [coerce].
  assert (Q : leq (mkL s []) (lint 0)) by (intros k; rewrite !coef_L, L_int; unfold L; cbn [lval lcoeffs lin]; lia).
  assert (Q2 : leq (lmul (coerce x) (mkL s [])) (lmul (lint 0) (coerce x))) by (rewrite Q; ring).
  rewrite (Q2 e), coef_scale. lia.
Qed.
Lemma numcoef_nadd x y e : numcoef (nadd x y) e = (numcoef x e + numcoef y e)%Z.
Proof. rewrite !numcoef_coerce, (coerce_add x y e). apply coef_ladd. Qed.

Definition B1 : mat num := mkM 2 2 [NL (mkL 2 [(-1)%Z]); NL (mkL 1 [(-1)%Z]); NL (mkL 0 []); NL (mkL 0 [1%Z])].
Definition B2 : mat num := mkM 2 2 [NL (mkL 0 [1%Z]); NL (mkL 0 []); NL (mkL 1 [(-1)%Z]); NL (mkL 2 [(-1)%Z])].
Lemma three_gens p gens invs : (0 <= p)%Z -> jones_gens_invs 3 1 p = Ok (gens, invs) -> exists g1 g2, gens = [g1; g2] /\ pmeq p g1 B1 /\ pmeq p g2 B2.
Proof.
  intros Hp EG. assert (C : exists inv, cell_matrices 3 1 = Ok ([mkM 2 2 [mkL 2 [(-1)%Z]; mkL 1 [(-1)%Z]; mkL 0 []; mkL 0 [1%Z]]; mkM 2 2 [mkL 0 [1%Z]; mkL 0 []; mkL 1 [(-1)%Z]; mkL 2 [(-1)%Z]]], inv)) by (eexists; vm_compute; reflexivity).
  destruct C as [inv C]. unfold jones_gens_invs in EG. rewrite C in EG. cbn [bind map] in EG. change (mat_map NL (mkM 2 2 [mkL 2 [(-1)%Z]; mkL 1 [(-1)%Z]; mkL 0 []; mkL 0 [1%Z]])) with B1 in EG. change (mat_map NL (mkM 2 2 [mkL 0 [1%Z]; mkL 0 []; mkL 1 [(-1)%Z]; mkL 2 [(-1)%Z]])) with B2 in EG.
  destruct (Z.eqb_spec p 0) as [->|P0]; injection EG as <- _; [exists B1, B2; repeat split; try reflexivity; repeat constructor; reflexivity|].
  exists (mat_map (nreduce p) B1), (mat_map (nreduce p) B2). split; [reflexivity|]. split; apply map_reduce_pmeq; lia.
Qed.

Section Three.
Variables (p : Z) (R : rep) (gens invs : list (mat num)) (E : mat num).
Hypothesis (EJ : jones_rep 3 1 p = Ok R) (ED : rep_dimension R = Ok (Z.of_nat 2)) (EG : rep_artin_gens_invs R = Ok (gens, invs)) (EI : rep_id R = Ok E).
Hypothesis Hp1 : p <> 1%Z.
(** the coefficient of v^e in entry (i, j) of the image of a word *)
Definition C (w : bword) (i j : nat) (e : Z) : Z := numcoef (mentry (M gens invs E w) i j) e.
Lemma C_braid u v i j e : i < 2 -> j < 2 -> braid_eq 3 u v -> (p | C u i j e - C v i j e)%Z.
Proof using EJ ED EG EI.
  intros Hi Hj B. destruct (Mfacts 3 1 p R 2 gens invs E EJ ED EG EI) as (_ & _ & Hp & _ & HE & SM & BM & PM).
  pose proof (BM u v B) as K. apply (meq_ent (NI 0) (neqp p)) in K; [|apply SM|apply SM]. destruct K as (_ & _ & K). destruct (SM u) as (_ & R1 & C1). specialize (K i j ltac:(lia) ltac:(lia)). apply neqp_congr in K. exact (K e).
Qed.
Lemma C_gen w k B : k < 2 -> B = nth k [B1; B2] B1 -> forall i j e, i < 2 -> j < 2 ->
  (p | C (w ++ [(k, true)]) i j e - (numcoef (nmul (mentry (M gens invs E w) i 0) (mentry B 0 j)) e + numcoef (nmul (mentry (M gens invs E w) i 1) (mentry B 1 j)) e))%Z.
Proof using EJ ED EG EI.
  intros Hk EB i j e Hi Hj. destruct (Mfacts 3 1 p R 2 gens invs E EJ ED EG EI) as (_ & _ & Hp & _ & HE & SM & BM & PM).
  assert (EG' : jones_gens_invs 3 1 p = Ok (gens, invs)). { destruct (jones_rep_ok 3 1 p R EJ) as (_ & _ & _ & ->). exact EG. }
  destruct (three_gens p gens invs Hp EG') as (g1 & g2 & Eg & K1 & K2).
  assert (PB : pmeq p (M gens invs E [(k, true)]) B).
  { cbn [M fold_right lt fst snd]. unfold lt. cbn [fst snd]. unfold RepTheory.G. rewrite Eg. assert (k = 0 \/ k = 1) as [->| ->] by lia; cbn [nth] in *; subst B.
    - etransitivity; [|exact K1]. apply (pr_id_r p 2); [exact HE|]. pose proof (SM [(0%nat, true)]) as Q. destruct K1 as (R1 & R2 & R3). split; [|split; [exact R1|exact R2]]. unfold mwf. rewrite R1, R2. apply Forall2_length' in R3. exact R3.
    - etransitivity; [|exact K2]. apply (pr_id_r p 2); [exact HE|]. pose proof (SM [(0%nat, true)]) as Q. destruct K2 as (R1 & R2 & R3). split; [|split; [exact R1|exact R2]]. unfold mwf. rewrite R1, R2. apply Forall2_length' in R3. exact R3. }
  assert (SB : sq 2 B) by (assert (k = 0 \/ k = 1) as [->| ->] by lia; cbn [nth] in EB; subst B; repeat split).
  assert (K : pmeq p (M gens invs E (w ++ [(k, true)])) (prod (NI 0) nadd nmul (M gens invs E w) B)). { etransitivity; [apply PM|]. apply (pr_meq p 2); auto. reflexivity. }
  apply (meq_ent (NI 0) (neqp p)) in K; [|apply SM|apply prod_wf]. destruct K as (_ & _ & K). destruct (SM w) as (_ & R1 & C1). destruct (SM (w ++ [(k, true)])) as (_ & R2 & C2). destruct SB as (_ & R3 & C3). specialize (K i j ltac:(lia) ltac:(lia)). rewrite prod_e in K by lia. rewrite C1 in K. cbn [rsum] in K.
  apply neqp_congr in K. specialize (K e). rewrite !numcoef_nadd in K. replace (numcoef (NI 0) e) with 0%Z in K by (cbn; destruct (e =? 0)%Z; reflexivity). rewrite Z.add_0_l in K. exact K.
Qed.

(** the two columns after one more generator *)
Lemma C_same w i e : i < 2 -> (p | C (w ++ [(0%nat, true)]) i 0 e - - C w i 0 (e - 2))%Z /\ (p | C (w ++ [(0%nat, true)]) i 1 e - (C w i 1 e - C w i 0 (e - 1)))%Z /\
  (p | C (w ++ [(1%nat, true)]) i 1 e - - C w i 1 (e - 2))%Z /\ (p | C (w ++ [(1%nat, true)]) i 0 e - (C w i 0 e - C w i 1 (e - 1)))%Z.
Proof using EJ ED EG EI.
  intros Hi. assert (K : forall k j, k < 2 -> j < 2 -> _) by (intros k j Hk Hj; exact (C_gen w k _ Hk eq_refl i j e Hi Hj)).
  pose proof (K 0 0 ltac:(lia) ltac:(lia)) as K00. pose proof (K 0 1 ltac:(lia) ltac:(lia)) as K01. pose proof (K 1 0 ltac:(lia) ltac:(lia)) as K10. pose proof (K 1 1 ltac:(lia) ltac:(lia)) as K11. clear K.
  cbn [nth] in K00, K01, K10, K11.
  change (mentry B1 0 0) with (NL (mkL 2 [(-1)%Z])) in *. change (mentry B1 0 1) with (NL (mkL 1 [(-1)%Z])) in *. change (mentry B1 1 0) with (NL (mkL 0 [])) in *. change (mentry B1 1 1) with (NL (mkL 0 [1%Z])) in *.
  change (mentry B2 0 0) with (NL (mkL 0 [1%Z])) in *. change (mentry B2 0 1) with (NL (mkL 0 [])) in *. change (mentry B2 1 0) with (NL (mkL 1 [(-1)%Z])) in *. change (mentry B2 1 1) with (NL (mkL 2 [(-1)%Z])) in *.
  rewrite mono, mono0 in K00. rewrite !mono in K01. rewrite !mono in K10. rewrite mono0, mono in K11.
  repeat split; match goal with |- (_ | C ?w ?i ?j ?e - _)%Z => match goal with K : (_ | C w i j e - _)%Z |- _ => refine (eq_ind _ (fun z => (p | z)%Z) K _ _) end end; fold (C w i 0 (e - 2)) (C w i 1 (e - 2)) (C w i 0 (e - 1)) (C w i 1 (e - 1)) (C w i 0 (e - 0)) (C w i 1 (e - 0)); rewrite ?Z.sub_0_r; try ring.
Qed.
Definition other (c : nat) : nat := 1 - c.
Lemma C_step w c i e : c < 2 -> i < 2 -> (p | C (w ++ [(c, true)]) i c e - - C w i c (e - 2))%Z /\ (p | C (w ++ [(c, true)]) i (other c) e - (C w i (other c) e - C w i c (e - 1)))%Z.
Proof using EJ ED EG EI.
  intros Hc Hi. destruct (C_same w i e Hi) as (K1 & K2 & K3 & K4). assert (c = 0 \/ c = 1) as [->| ->] by lia; cbn [other Nat.sub]; auto.
Qed.
Lemma C_step2 w c i e : c < 2 -> i < 2 -> (p | C (w ++ [(c, true); (other c, true)]) i c e - - C w i (other c) (e - 1))%Z /\ (p | C (w ++ [(c, true); (other c, true)]) i (other c) e - (C w i c (e - 3) - C w i (other c) (e - 2)))%Z.
Proof using EJ ED EG EI.
  intros Hc Hi. assert (Ho : other c < 2) by (unfold other; lia). assert (Hoo : other (other c) = c) by (unfold other; lia). change [(c, true); (other c, true)] with ([(c, true)] ++ [(other c, true)]). rewrite app_assoc.
  destruct (C_step (w ++ [(c, true)]) (other c) i e Ho Hi) as (K1 & K2). rewrite Hoo in K2.
  destruct (C_step w c i e Hc Hi) as (A1 & _). destruct (C_step w c i (e - 1) Hc Hi) as (_ & A2). destruct (C_step w c i (e - 2) Hc Hi) as (_ & A3).
  replace (e - 1 - 1)%Z with (e - 2)%Z in * by lia. replace (e - 2 - 1)%Z with (e - 3)%Z in * by lia. split.
  - destruct K2 as [a Ka], A1 as [b Kb], A2 as [d Kd]. exists (a + b - d)%Z. lia.
  - destruct K1 as [a Ka], A3 as [b Kb]. exists (a - b)%Z. lia.
Qed.
Lemma C_delta w i e : i < 2 -> (p | C (w ++ [(0%nat, true); (1%nat, true); (0%nat, true)]) i 0 e - C w i 1 (e - 3))%Z /\ (p | C (w ++ [(0%nat, true); (1%nat, true); (0%nat, true)]) i 1 e - C w i 0 (e - 3))%Z.
Proof using EJ ED EG EI.
  intros Hi. change [(0%nat, true); (1%nat, true); (0%nat, true)] with ([(0%nat, true); (other 0, true)] ++ [(0%nat, true)]). rewrite app_assoc.
  destruct (C_step (w ++ [(0%nat, true); (other 0, true)]) 0 i e ltac:(lia) Hi) as (K1 & K2). destruct (C_step2 w 0 i (e - 2) ltac:(lia) Hi) as (A1 & _). destruct (C_step2 w 0 i (e - 1) ltac:(lia) Hi) as (A3 & _). destruct (C_step2 w 0 i e ltac:(lia) Hi) as (_ & A2). change (other 0) with 1 in *.
  replace (e - 2 - 1)%Z with (e - 3)%Z in * by lia. replace (e - 1 - 1)%Z with (e - 2)%Z in * by lia. split.
  - destruct K1 as [a Ka], A1 as [b Kb]. exists (a - b)%Z. lia.
  - destruct K2 as [a Ka], A2 as [b Kb], A3 as [d Kd]. exists (a + b - d)%Z. lia.
Qed.
(** column j of the image is zero, or not, in degree e *)
Definition z (w : bword) (j : nat) (e : Z) : Prop := forall i, i < 2 -> (p | C w i j e)%Z.
Definition nz (w : bword) (j : nat) (e : Z) : Prop := exists i, i < 2 /\ ~ (p | C w i j e)%Z.
Definition Inv (w : bword) (c : nat) (a b : Z) : Prop :=
  nz w c a /\ (forall e, (a < e)%Z -> z w c e) /\ (forall e, (a <= e)%Z -> z w (other c) e) /\
  nz w (other c) b /\ (forall e, (e < b)%Z -> z w (other c) e) /\ (forall e, (e <= b)%Z -> z w c e).
Definition Flat (w : bword) (a : Z) : Prop := forall j, j < 2 -> nz w j a /\ forall e, e <> a -> z w j e.
Lemma z_eq u v j k e e' s : (forall i, i < 2 -> (p | C u i j e - s * C v i k e')%Z) -> z v k e' -> z u j e.
Proof using Type. intros K H i Hi. specialize (K i Hi). specialize (H i Hi). destruct K as [a Ka], H as [b Kb]. exists (a + s * b)%Z. lia. Qed.
Lemma z_eq2 u v j k k' e e' e'' s t : (forall i, i < 2 -> (p | C u i j e - (s * C v i k e' + t * C v i k' e''))%Z) -> z v k e' -> z v k' e'' -> z u j e.
Proof using Type. intros K H H' i Hi. specialize (K i Hi). specialize (H i Hi). specialize (H' i Hi). destruct K as [a Ka], H as [b Kb], H' as [d Kd]. exists (a + s * b + t * d)%Z. lia. Qed.
Lemma nz_eq u v j k e e' s : (s * s = 1)%Z -> (forall i, i < 2 -> (p | C u i j e - s * C v i k e')%Z) -> nz v k e' -> nz u j e.
Proof using Type. intros S1 K (i & Hi & N). exists i. split; [exact Hi|]. intros D. apply N. specialize (K i Hi). destruct K as [a Ka], D as [b Kb]. exists (s * b - s * a)%Z. assert (s * (s * C v i k e') = (s * b - s * a) * p)%Z by (replace (s * C v i k e')%Z with ((b - a) * p)%Z by lia; ring). rewrite Z.mul_assoc, S1, Z.mul_1_l in H. exact H. Qed.
Lemma nz_eq2 u v j k k' e e' e'' s t : (s * s = 1)%Z -> (forall i, i < 2 -> (p | C u i j e - (s * C v i k e' + t * C v i k' e''))%Z) -> nz v k e' -> z v k' e'' -> nz u j e.
Proof using Type. intros S1 K (i & Hi & N) Z1. exists i. split; [exact Hi|]. intros D. apply N. specialize (K i Hi). specialize (Z1 i Hi). destruct K as [a Ka], D as [b Kb], Z1 as [d Kd]. exists (s * (b - a - t * d))%Z. assert (s * (s * C v i k e') = s * (b - a - t * d) * p)%Z by (replace (s * C v i k e')%Z with ((b - a - t * d) * p)%Z by lia; ring). rewrite Z.mul_assoc, S1, Z.mul_1_l in H. exact H. Qed.
Section Step.
Variables (w : bword) (c : nat).
Hypothesis Hc : c < 2.
Lemma s_same : forall e i, i < 2 -> (p | C (w ++ [(c, true)]) i c e - (-1) * C w i c (e - 2))%Z.
Proof using All. intros e i Hi. destruct (C_step w c i e Hc Hi) as [K _]. replace (-1 * C w i c (e - 2))%Z with (- C w i c (e - 2))%Z by ring. exact K. Qed.
Lemma s_other : forall e i, i < 2 -> (p | C (w ++ [(c, true)]) i (other c) e - (1 * C w i (other c) e + (-1) * C w i c (e - 1)))%Z.
Proof using All. intros e i Hi. destruct (C_step w c i e Hc Hi) as [_ K]. replace (1 * C w i (other c) e + -1 * C w i c (e - 1))%Z with (C w i (other c) e - C w i c (e - 1))%Z by ring. exact K. Qed.
Lemma l_same : forall e i, i < 2 -> (p | C (w ++ [(c, true); (other c, true)]) i c e - (-1) * C w i (other c) (e - 1))%Z.
Proof using All. intros e i Hi. destruct (C_step2 w c i e Hc Hi) as [K _]. replace (-1 * C w i (other c) (e - 1))%Z with (- C w i (other c) (e - 1))%Z by ring. exact K. Qed.
Lemma l_other : forall e i, i < 2 -> (p | C (w ++ [(c, true); (other c, true)]) i (other c) e - (1 * C w i c (e - 3) + (-1) * C w i (other c) (e - 2)))%Z.
Proof using All. intros e i Hi. destruct (C_step2 w c i e Hc Hi) as [_ K]. replace (1 * C w i c (e - 3) + -1 * C w i (other c) (e - 2))%Z with (C w i c (e - 3) - C w i (other c) (e - 2))%Z by ring. exact K. Qed.
Lemma short_ok a b : Inv w c a b -> Inv (w ++ [(c, true)]) c (a + 2) b.
Proof using All.
  intros (N1 & Z1 & Z2 & N2 & Z3 & Z4). split; [|split; [|split; [|split; [|split]]]].
  - eapply (nz_eq _ _ _ _ _ _ (-1)); [reflexivity|apply s_same|]. now replace (a + 2 - 2)%Z with a by lia.
  - intros e He. eapply z_eq; [apply s_same|]. apply Z1. lia.
  - intros e He. eapply z_eq2; [apply s_other|apply Z2; lia|apply Z1; lia].
  - eapply (nz_eq2 _ _ _ _ _ _ _ _ 1); [reflexivity|apply s_other|exact N2|apply Z4; lia].
  - intros e He. eapply z_eq2; [apply s_other|apply Z3; lia|apply Z4; lia].
  - intros e He. eapply z_eq; [apply s_same|]. apply Z4. lia.
Qed.
Lemma long_ok a b : Inv w c a b -> Inv (w ++ [(c, true); (other c, true)]) (other c) (a + 3) (b + 1).
Proof using All.
  intros (N1 & Z1 & Z2 & N2 & Z3 & Z4). assert (Hoo : other (other c) = c) by (unfold other; lia). unfold Inv. rewrite Hoo. split; [|split; [|split; [|split; [|split]]]].
  - eapply (nz_eq2 _ _ _ _ _ _ _ _ 1); [reflexivity|apply l_other|now replace (a + 3 - 3)%Z with a by lia|apply Z2; lia].
  - intros e He. eapply z_eq2; [apply l_other|apply Z1; lia|apply Z2; lia].
  - intros e He. eapply z_eq; [apply l_same|]. apply Z2. lia.
  - eapply (nz_eq _ _ _ _ _ _ (-1)); [reflexivity|apply l_same|]. now replace (b + 1 - 1)%Z with b by lia.
  - intros e He. eapply z_eq; [apply l_same|]. apply Z3. lia.
  - intros e He. eapply z_eq2; [apply l_other|apply Z4; lia|apply Z3; lia].
Qed.
Lemma short_flat a : Flat w a -> Inv (w ++ [(c, true)]) c (a + 2) a.
Proof using All.
  intros F. assert (Ho : other c < 2) by (unfold other; lia). destruct (F c Hc) as [N1 Z1], (F (other c) Ho) as [N2 Z2]. split; [|split; [|split; [|split; [|split]]]].
  - eapply (nz_eq _ _ _ _ _ _ (-1)); [reflexivity|apply s_same|]. now replace (a + 2 - 2)%Z with a by lia.
  - intros e He. eapply z_eq; [apply s_same|]. apply Z1. lia.
  - intros e He. eapply z_eq2; [apply s_other|apply Z2; lia|apply Z1; lia].
  - eapply (nz_eq2 _ _ _ _ _ _ _ _ 1); [reflexivity|apply s_other|exact N2|apply Z1; lia].
  - intros e He. eapply z_eq2; [apply s_other|apply Z2; lia|apply Z1; lia].
  - intros e He. eapply z_eq; [apply s_same|]. apply Z1. lia.
Qed.
Lemma long_flat a : Flat w a -> Inv (w ++ [(c, true); (other c, true)]) (other c) (a + 3) (a + 1).
Proof using All.
  intros F. assert (Ho : other c < 2) by (unfold other; lia). destruct (F c Hc) as [N1 Z1], (F (other c) Ho) as [N2 Z2]. assert (Hoo : other (other c) = c) by (unfold other; lia). unfold Inv. rewrite Hoo. split; [|split; [|split; [|split; [|split]]]].
  - eapply (nz_eq2 _ _ _ _ _ _ _ _ 1); [reflexivity|apply l_other|now replace (a + 3 - 3)%Z with a by lia|apply Z2; lia].
  - intros e He. eapply z_eq2; [apply l_other|apply Z1; lia|apply Z2; lia].
  - intros e He. eapply z_eq; [apply l_same|]. apply Z2. lia.
  - eapply (nz_eq _ _ _ _ _ _ (-1)); [reflexivity|apply l_same|]. now replace (a + 1 - 1)%Z with a by lia.
  - intros e He. eapply z_eq; [apply l_same|]. apply Z2. lia.
  - intros e He. eapply z_eq2; [apply l_other|apply Z1; lia|apply Z2; lia].
Qed.
End Step.

(** ** powers of Delta *)
Lemma flat_braid u v a : braid_eq 3 u v -> Flat u a -> Flat v a.
Proof using EJ ED EG EI.
  intros B F j Hj. destruct (F j Hj) as [N Z1]. split.
  - destruct N as (i & Hi & N). exists i. split; [exact Hi|]. intros D. apply N. destruct (C_braid u v i j a Hi Hj B) as [x Kx], D as [y Ky]. exists (x + y)%Z. lia.
  - intros e He i Hi. destruct (C_braid u v i j e Hi Hj B) as [x Kx], (Z1 e He i Hi) as [y Ky]. exists (y - x)%Z. lia.
Qed.
Definition Dl : bword := [(0%nat, true); (1%nat, true); (0%nat, true)].
Lemma Dl_range : in_range 3 Dl. Proof using Type. repeat constructor. Qed.
Lemma d_col w j e i : j < 2 -> i < 2 -> (p | C (w ++ Dl) i j e - C w i (other j) (e - 3))%Z.
Proof using EJ ED EG EI. intros Hj Hi. destruct (C_delta w i e Hi) as [K1 K2]. assert (j = 0 \/ j = 1) as [->| ->] by lia; assumption. Qed.
Lemma flat_delta w a : Flat w a <-> Flat (w ++ Dl) (a + 3).
Proof using EJ ED EG EI.
  assert (Hoo : forall j, j < 2 -> other j < 2 /\ other (other j) = j) by (intros j Hj; unfold other; lia). split; intros F j Hj; destruct (Hoo j Hj) as [Ho Ej]; destruct (F (other j) Ho) as [N Z1]; split.
  - eapply (nz_eq _ _ _ _ _ _ 1); [reflexivity| |exact N]. intros i Hi. pose proof (d_col w j (a + 3) i Hj Hi) as K. replace (a + 3 - 3)%Z with a in K by lia. rewrite Z.mul_1_l. exact K.
  - intros e He. eapply (z_eq _ _ _ _ _ _ 1); [|apply (Z1 (e - 3)%Z); lia]. intros i Hi. rewrite Z.mul_1_l. apply (d_col w j e i Hj Hi).
  - eapply (nz_eq _ _ _ _ _ _ 1); [reflexivity| |exact N]. intros i Hi. pose proof (d_col w (other j) (a + 3) i Ho Hi) as K. rewrite Ej in K. replace (a + 3 - 3)%Z with a in K by lia. destruct K as [x K]. exists (- x)%Z. lia.
  - intros e He. eapply (z_eq _ _ _ _ _ _ 1); [|apply (Z1 (e + 3)%Z); lia]. intros i Hi. pose proof (d_col w (other j) (e + 3) i Ho Hi) as K. rewrite Ej in K. replace (e + 3 - 3)%Z with e in K by lia. destruct K as [x K]. exists (- x)%Z. lia.
Qed.
Lemma flat_nil : Flat [] 0.
Proof using EJ ED EG EI Hp1.
  destruct (Mfacts 3 1 p R 2 gens invs E EJ ED EG EI) as (_ & _ & Hp & _ & HE & _). destruct HE as (_ & _ & _ & K).
  assert (CE : forall i j e, i < 2 -> j < 2 -> C [] i j e = if (i =? j) then (if (e =? 0)%Z then 1%Z else 0%Z) else 0%Z).
  { intros i j e Hi Hj. unfold C. cbn [M fold_right]. specialize (K i j Hi Hj). change (ent (NI 0) E i j) with (mentry E i j) in K. rewrite K. destruct (i =? j); cbn [numcoef]; destruct (e =? 0)%Z; reflexivity. }
  intros j Hj. split.
  - exists j. split; [exact Hj|]. rewrite CE, Nat.eqb_refl by assumption. cbn. intros D. apply Hp1. assert (K1 : (p | 1)%Z) by exact D. apply Z.divide_1_r_nonneg in K1; lia.
  - intros e He i Hi. rewrite CE by assumption. destruct (i =? j), (Z.eqb_spec e 0); try lia; apply Z.divide_0_r.
Qed.
Lemma flat_pow k : Flat (wpow Dl k) (3 * k).
Proof using EJ ED EG EI Hp1.
  induction k as [|k IH|k IH] using Zind2.
  - exact flat_nil.
  - apply flat_delta in IH. replace (3 * (k + 1))%Z with (3 * k + 3)%Z by lia. eapply flat_braid; [|exact IH]. rewrite (wpow_add 3 Dl k 1) by apply Dl_range. rewrite wpow_1. apply be_refl.
  - apply flat_delta. replace (3 * (k - 1) + 3)%Z with (3 * k)%Z by lia. eapply flat_braid; [|exact IH]. rewrite <- (wpow_1 Dl) at 3. rewrite <- (wpow_add 3) by apply Dl_range. replace (k - 1 + 1)%Z with k by lia. apply be_refl.
Qed.
(** ** factors *)
(** the first letter of a proper factor, and whether it has a second one *)
Definition shape (x : list nat) (s : nat) (long : bool) : Prop :=
  s < 2 /\ shortlex x = Ok (s :: if long then [other s] else []) /\ before x (s + 1) s /\
  forall t, t + 1 < 3 -> inversion x t (t + 1) -> t = if long then other s else s.
Lemma shape_ok x : proper_perm 3 x -> exists s long, shape x s long.
Proof using Type.
  intros (H1 & H2 & H3). assert (Px := H1). pose proof (Permutation.Permutation_length H1) as L. destruct x as [|a [|b [|c [|]]]]; try discriminate.
  assert (B : forall y, In y [a; b; c] -> y < 3) by (intros y Hy; apply (Permutation.Permutation_in _ H1) in Hy; apply in_seq in Hy; lia).
  assert (ND : NoDup [a; b; c]) by (eapply Permutation.Permutation_NoDup; [apply Permutation.Permutation_sym; exact H1|apply seq_NoDup]).
  pose proof (B a ltac:(cbn; auto)) as Ba. pose proof (B b ltac:(cbn; auto)) as Bb. pose proof (B c ltac:(cbn; auto)) as Bc. clear B Px H1 L.
  inversion ND as [|? ? N1 ND1]; subst. inversion ND1 as [|? ? N2 _]; subst. cbn in N1, N2. clear ND ND1.
  assert (BF : forall y u v q r, nth_error y q = Some u -> nth_error y r = Some v -> q < r -> before y u v) by (intros y u v q r Q1 Q2 Q3; exists q, r; auto).
  assert (IV : forall y t, inversion y t (t + 1) -> t + 1 < 3 -> nth (t + 1) y 0 < nth t y 0) by (intros y t (_ & _ & Q) _; exact Q).
  destruct a as [|[|[|]]]; try lia; destruct b as [|[|[|]]]; try lia; destruct c as [|[|[|]]]; try lia; try (exfalso; first [apply H2; reflexivity|apply H3; reflexivity|tauto]).
  - exists 1, false. split; [lia|]. split; [reflexivity|]. split; [apply (BF _ _ _ 1 2); auto|]. intros t Ht Q. apply IV in Q; [|exact Ht]. destruct t as [|[|]]; cbn in Q; lia.
  - exists 0, false. split; [lia|]. split; [reflexivity|]. split; [apply (BF _ _ _ 0 1); auto|]. intros t Ht Q. apply IV in Q; [|exact Ht]. destruct t as [|[|]]; cbn in Q; lia.
  - exists 0, true. split; [lia|]. split; [reflexivity|]. split; [apply (BF _ _ _ 0 2); auto|]. intros t Ht Q. apply IV in Q; [|exact Ht]. destruct t as [|[|]]; cbn in *; lia.
  - exists 1, true. split; [lia|]. split; [reflexivity|]. split; [apply (BF _ _ _ 0 2); auto|]. intros t Ht Q. apply IV in Q; [|exact Ht]. destruct t as [|[|]]; cbn in *; lia.
Qed.
Local Notation lft := (lift (PG 3) (pwd 3)).
Lemma shape_word x s long : shape (val 3 x) s long -> lft x = (s, true) :: if long then [(other s, true)] else [].
Proof using Type.
  intros (_ & E1 & _). unfold lift, pwd. rewrite E1. rewrite expand_pos. destruct long; reflexivity.
Qed.
Lemma shape_next x y s l s' l' : shape x s l -> shape y s' l' -> weighted 3 x y -> s' = if l then other s else s.
Proof using Type. intros (Hs & _ & _ & K) (Hs' & _ & B & _) W. apply K; [lia|]. apply W; [lia|exact B]. Qed.
Lemma run_inv l : forall x w c a b, Inv w c a b -> c < 2 -> (exists s lg, shape x s lg /\ c = if lg then other s else s) -> Forall (proper_perm 3) (map (val 3) l) -> chain (weighted 3) (x :: map (val 3) l) ->
  exists c' a' b', c' < 2 /\ Inv (w ++ liftl (PG 3) lft l) c' a' b' /\ (a' - b' = a - b + 2 * Z.of_nat (length l))%Z.
Proof using EJ ED EG EI Hp1.
  induction l as [|y l IH]; intros x w c a b HI Hc (s & lg & Hx & Ec) F Ch.
  - exists c, a, b. cbn [liftl flat_map length]. rewrite app_nil_r. split; [exact Hc|]. split; [exact HI|lia].
  - cbn [map] in F, Ch. inversion F as [|? ? Py F']; subst. destruct Ch as [W Ch]. destruct (shape_ok _ Py) as (s' & lg' & Hy). pose proof (shape_next _ _ _ _ _ _ Hx Hy W) as Es. rewrite <- Es in *.
    unfold liftl. cbn [flat_map]. rewrite (shape_word y s' lg' Hy). rewrite app_assoc. assert (Ho : other s' < 2) by (unfold other; lia). destruct lg'.
    + destruct (IH (val 3 y) (w ++ [(s', true); (other s', true)]) (other s') (a + 3)%Z (b + 1)%Z) as (c' & a' & b' & Hc' & HI' & Q); [now apply long_ok|exact Ho|exists s', true; auto|exact F'|exact Ch|].
      exists c', a', b'. split; [exact Hc'|]. split; [exact HI'|]. cbn [length]. lia.
    + destruct (IH (val 3 y) (w ++ [(s', true)]) s' (a + 2)%Z b) as (c' & a' & b' & Hc' & HI' & Q); [now apply short_ok|exact Hc|exists s', false; auto|exact F'|exact Ch|].
      exists c', a', b'. split; [exact Hc'|]. split; [exact HI'|]. cbn [length]. lia.
Qed.
Lemma run_flat l w a : Flat w a -> l <> [] -> normal_seq 3 (map (val 3) l) ->
  exists c' a' b', c' < 2 /\ Inv (w ++ liftl (PG 3) lft l) c' a' b' /\ (a' - b' = 2 * Z.of_nat (length l))%Z.
Proof using EJ ED EG EI Hp1.
  intros HF NE (F & Ch). destruct l as [|y l]; [contradiction|]. cbn [map] in F, Ch. inversion F as [|? ? Py F']; subst. destruct (shape_ok _ Py) as (s' & lg' & Hy). unfold liftl. cbn [flat_map]. rewrite (shape_word y s' lg' Hy). rewrite app_assoc.
  pose proof (proj1 Hy) as Hs. assert (Ho : other s' < 2) by (unfold other; lia). destruct lg'.
  - destruct (run_inv l (val 3 y) (w ++ [(s', true); (other s', true)]) (other s') (a + 3)%Z (a + 1)%Z) as (c' & a' & b' & Hc' & HI' & Q); [now apply long_flat|exact Ho|exists s', true; auto|exact F'|exact Ch|].
    exists c', a', b'. split; [exact Hc'|]. split; [exact HI'|]. cbn [length]. lia.
  - destruct (run_inv l (val 3 y) (w ++ [(s', true)]) s' (a + 2)%Z a) as (c' & a' & b' & Hc' & HI' & Q); [now apply short_flat|exact Hs|exists s', false; auto|exact F'|exact Ch|].
    exists c', a', b'. split; [exact Hc'|]. split; [exact HI'|]. cbn [length]. lia.
Qed.
Lemma delta_word : lft (D (PG 3)) = Dl.
Proof using Type. unfold lift, pwd. change (val 3 (D (PG 3))) with (val 3 (pD 3)). rewrite val_D. vm_compute. reflexivity. Qed.
End Three.
