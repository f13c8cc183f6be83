(** FullTwist.v – Delta^2 acts on the cell module W(n, r) of the Temperley-Lieb
    algebra as v^(2 r (n - r + 1)). *)
From Verif Require Import Base ModelPoly SpecPoly PolyTheory PolyDiv EvalTheory PropsPoly ModelTL SpecTL TLTheory TLAlg TLAlg2 TLBasis TLCells TLRel PropsTL ModelMatrix SpecMatrix MatrixTheory PropsMatrix ModelTLMor TLMorTheory TLGens TLFlip PropsTLMor JonesTheory TLTrace PropsTLMor3 MarkovTheory TLCup.
From Verif Require Import SpecBraid BraidTheory FullTwistBraid.
From Coq Require Import Ring Setoid Morphisms.
Local Open Scope nat_scope.
Local Arguments Nat.ltb : simpl never.
Local Arguments Nat.sub : simpl never.

(** functions on diagrams, pulled back along "put x on top" *)
Definition DE (x : diag) (F : diag -> lpoly) (d : diag) : lpoly := lmul (q2 (snd (dprod x d))) (F (fst (dprod x d))).
Definition eqf (n m : nat) (F G : diag -> lpoly) : Prop := forall d, typed n m d -> leq (F d) (G d).
Lemma dprod_typed a b c x d : typed a b x -> typed b c d -> typed a c (fst (dprod x d)).
Proof. intros (X1 & X2 & X3) (D1 & D2 & D3). destruct (dprod_ok x d X1 D1 ltac:(congruence)) as (_ & A & B & C). split; [exact A|split; congruence]. Qed.
Lemma DE_ext a b c x F G : typed a b x -> eqf a c F G -> eqf b c (DE x F) (DE x G).
Proof. intros T E d Td. unfold DE. rewrite (E _ (dprod_typed _ _ _ _ _ T Td)). reflexivity. Qed.
Lemma DE_lin x F G a d : leq (DE x (fun d => ladd (F d) (lmul a (G d))) d) (ladd (DE x F d) (lmul a (DE x G d))).
Proof. unfold DE. ring. Qed.
Lemma DE_scale x G a d : leq (DE x (fun d => lmul a (G d)) d) (lmul a (DE x G d)).
Proof. unfold DE. ring. Qed.
Lemma DE_comp a b c e x y z k F : typed a b x -> typed b c y -> dprod x y = (z, k) -> eqf c e (DE y (DE x F)) (fun d => lmul (q2 k) (DE z F d)).
Proof.
  intros (X1 & X2 & X3) (Y1 & Y2 & Y3) E d (D1 & D2 & D3). unfold DE at 1 2 3. pose proof (assocF x y d F X1 Y1 D1 ltac:(congruence) ltac:(congruence)) as K.
  rewrite E in K. cbn [fst snd] in K. symmetry. exact K.
Qed.
Lemma eqf_trans n m F G H : eqf n m F G -> eqf n m G H -> eqf n m F H.
Proof. intros A B d T. rewrite (A d T). now apply B. Qed.
Lemma eqf_sym n m F G : eqf n m F G -> eqf n m G F.
Proof. intros A d T. symmetry. now apply A. Qed.
Lemma eqf_refl n m F : eqf n m F F. Proof. intros d _. reflexivity. Qed.
Lemma eqf_scale n m F G a : eqf n m F G -> eqf n m (fun d => lmul a (F d)) (fun d => lmul a (G d)).
Proof. intros A d T. now rewrite (A d T). Qed.

Definition cf (e : bool) : lpoly := if e then lneg vL else lneg vinv.
Lemma v_vinv : leq (lmul vL vinv) (lint 1). Proof. reflexivity. Qed.
Lemma Q2_v : leq Q2 (ladd vL vinv). Proof. reflexivity. Qed.
Lemma cf_hecke e : leq (ladd (ladd (lint 1) (lmul (cf e) Q2)) (lmul (cf e) (cf e))) (lint 0).
Proof. destruct e; cbn [cf]; rewrite Q2_v; [transitivity (lsub (lint 1) (lmul vL vinv)); [ring|rewrite v_vinv; ring]|transitivity (lsub (lint 1) (lmul vL vinv)); [ring|rewrite v_vinv; ring]]. Qed.
Lemma cf_inv e : leq (ladd (ladd (cf e) (cf (negb e))) (lmul (lmul (cf e) (cf (negb e))) Q2)) (lint 0).
Proof.
  destruct e; cbn [cf negb]; rewrite Q2_v.
  - transitivity (lmul (lsub (lmul vL vinv) (lint 1)) (ladd vL vinv)); [ring|]. rewrite v_vinv. ring.
  - transitivity (lmul (lsub (lmul vL vinv) (lint 1)) (ladd vL vinv)); [ring|]. rewrite v_vinv. ring.
Qed.

Section NM.
Variables n m : nat.
Notation "F == G" := (eqf n m F G) (at level 70).
Definition EE (i : nat) (F : diag -> lpoly) : diag -> lpoly := DE (de i n) F.
Lemma EE_ext i F G : i + 1 < n -> F == G -> EE i F == EE i G.
Proof. intros H. apply DE_ext. now apply de_type. Qed.
Lemma EE_lin i F G a d : leq (EE i (fun d => ladd (F d) (lmul a (G d))) d) (ladd (EE i F d) (lmul a (EE i G d))).
Proof. apply DE_lin. Qed.
Lemma EE_sq i F : i + 1 < n -> EE i (EE i F) == (fun d => lmul Q2 (EE i F d)).
Proof. intros H. eapply eqf_trans; [apply (DE_comp n n n m (de i n) (de i n) (de i n) 1); auto using de_type; now apply dp_ee|]. intros d _. now rewrite q2_1. Qed.
Lemma EE_adj i F : i + 2 < n -> EE i (EE (i + 1) (EE i F)) == EE i F.
Proof.
  intros H. destruct (dp_adj n i H) as (p & q & Tp & Tq & E1 & E2 & E3 & E4).
  assert (Ti : typed n n (de i n)) by (apply de_type; lia). assert (Tj : typed n n (de (i + 1) n)) by (apply de_type; lia).
  eapply eqf_trans; [apply EE_ext; [lia|apply (DE_comp n n n m (de i n) (de (i + 1) n) p 0 F Ti Tj E1)]|].
  intros d Td. unfold EE. rewrite DE_scale. rewrite (DE_comp n n n m p (de i n) (de i n) 0 F Tp Ti E2 d Td). rewrite q2_0. ring.
Qed.
Lemma EE_adj' i F : i + 2 < n -> EE (i + 1) (EE i (EE (i + 1) F)) == EE (i + 1) F.
Proof.
  intros H. destruct (dp_adj n i H) as (p & q & Tp & Tq & E1 & E2 & E3 & E4).
  assert (Ti : typed n n (de i n)) by (apply de_type; lia). assert (Tj : typed n n (de (i + 1) n)) by (apply de_type; lia).
  eapply eqf_trans; [apply EE_ext; [lia|apply (DE_comp n n n m (de (i + 1) n) (de i n) q 0 F Tj Ti E3)]|].
  intros d Td. unfold EE. rewrite DE_scale. rewrite (DE_comp n n n m q (de (i + 1) n) (de (i + 1) n) 0 F Tq Tj E4 d Td). rewrite q2_0. ring.
Qed.
Lemma EE_far i j F : i + 1 < j -> j + 1 < n -> EE i (EE j F) == EE j (EE i F).
Proof.
  intros H1 H2. destruct (dp_far n i j H1 H2) as (p & Tp & E1 & E2).
  assert (Ti : typed n n (de i n)) by (apply de_type; lia). assert (Tj : typed n n (de j n)) by (apply de_type; lia).
  intros d Td. unfold EE. rewrite (DE_comp n n n m _ _ p 0 F Tj Ti E2 d Td), (DE_comp n n n m _ _ p 0 F Ti Tj E1 d Td). reflexivity.
Qed.
Definition sgm (F : diag -> lpoly) (l : nat * bool) : diag -> lpoly := fun d => ladd (F d) (lmul (cf (snd l)) (EE (fst l) F d)).
Lemma sgm_ext l F G : fst l + 1 < n -> F == G -> sgm F l == sgm G l.
Proof. intros H E d Td. unfold sgm. rewrite (E d Td), (EE_ext (fst l) F G H E d Td). reflexivity. Qed.
Definition ev (w : bword) (F : diag -> lpoly) : diag -> lpoly := fold_left sgm w F.
Lemma ev_app u w F : ev (u ++ w) F = ev w (ev u F). Proof. apply fold_left_app. Qed.
Lemma ev_ext w : in_range n w -> forall F G, F == G -> ev w F == ev w G.
Proof. induction 1 as [|l w H _ IH]; intros F G E; [exact E|]. cbn [ev fold_left]. apply IH. now apply sgm_ext. Qed.
Lemma EE_sgm i F l d : leq (EE i (sgm F l) d) (ladd (EE i F d) (lmul (cf (snd l)) (EE i (EE (fst l) F) d))).
Proof. unfold sgm. apply EE_lin. Qed.
Lemma EE2_sgm i j F l d : leq (EE i (EE j (sgm F l)) d) (ladd (EE i (EE j F) d) (lmul (cf (snd l)) (EE i (EE j (EE (fst l) F)) d))).
Proof. unfold sgm, EE, DE. ring. Qed.
Lemma ev_cancel i e F : i + 1 < n -> ev [(i, e); (i, negb e)] F == F.
Proof.
  intros H d Td. cbn [ev fold_left]. unfold sgm at 1. rewrite EE_sgm. unfold sgm. cbn [fst snd]. rewrite (EE_sq i F H d Td).
  transitivity (ladd (F d) (lmul (ladd (ladd (cf e) (cf (negb e))) (lmul (lmul (cf e) (cf (negb e))) Q2)) (EE i F d))); [ring|]. rewrite cf_inv. ring.
Qed.
Lemma ev_far i j F : i + 2 <= j -> j + 1 < n -> ev [(i, true); (j, true)] F == ev [(j, true); (i, true)] F.
Proof.
  intros H1 H2 d Td. cbn [ev fold_left]. unfold sgm at 1 3. rewrite !EE_sgm. unfold sgm. cbn [fst snd]. rewrite (EE_far i j F ltac:(lia) H2 d Td). ring.
Qed.
Lemma ev_three i j F d : leq (ev [(i, true); (j, true); (i, true)] F d)
  (ladd (F d) (ladd (lmul (cf true) (ladd (ladd (EE i F d) (EE j F d)) (EE i F d))) (ladd (lmul (lmul (cf true) (cf true)) (ladd (ladd (EE j (EE i F) d) (EE i (EE i F) d)) (EE i (EE j F) d))) (lmul (lmul (cf true) (lmul (cf true) (cf true))) (EE i (EE j (EE i F)) d))))).
Proof. cbn [ev fold_left]. unfold sgm at 1. rewrite EE_sgm. unfold sgm at 1. rewrite EE_sgm. cbn [fst snd]. rewrite EE2_sgm. cbn [fst snd]. rewrite EE_sgm. unfold sgm. cbn [fst snd]. ring. Qed.
Lemma ev_bra i F : i + 2 < n -> ev [(i, true); (i + 1, true); (i, true)] F == ev [(i + 1, true); (i, true); (i + 1, true)] F.
Proof.
  intros H d Td. rewrite !ev_three. rewrite (EE_adj i F H d Td), (EE_adj' i F H d Td), (EE_sq i F ltac:(lia) d Td), (EE_sq (i + 1) F ltac:(lia) d Td).
  set (a := cf true). set (X := EE i F d). set (Y := EE (i + 1) F d). set (XY := EE i (EE (i + 1) F) d). set (YX := EE (i + 1) (EE i F) d).
  transitivity (ladd (ladd (F d) (ladd (lmul a (ladd X Y)) (lmul (lmul a a) (ladd XY YX)))) (lmul (lmul a X) (ladd (ladd (lint 1) (lmul a Q2)) (lmul a a)))); [ring|].
  transitivity (ladd (ladd (F d) (ladd (lmul a (ladd X Y)) (lmul (lmul a a) (ladd XY YX)))) (lmul (lmul a Y) (ladd (ladd (lint 1) (lmul a Q2)) (lmul a a)))); [|ring].
  unfold a. rewrite !cf_hecke. ring.
Qed.
Lemma ev_braid u w : braid_eq n u w -> in_range n u -> forall F, ev u F == ev w F.
Proof.
  induction 1 as [u|u v K IH|u v w K1 IH1 K2 IH2|u u' v v' K1 IH1 K2 IH2|i e Hi|i j H1 H2|i Hi]; intros R F.
  - apply eqf_refl.
  - apply eqf_sym, IH. now apply (be_in_range n u v).
  - eapply eqf_trans; [now apply IH1|apply IH2]. now apply (be_in_range n u v).
  - apply in_range_app in R. destruct R as [R1 R2]. rewrite !ev_app. eapply eqf_trans; [now apply IH2|]. apply ev_ext; [|now apply IH1]. now apply (be_in_range n v v').
  - now apply ev_cancel.
  - now apply ev_far.
  - now apply ev_bra.
Qed.
Lemma ev_lin w : forall F G a d, leq (ev w (fun d => ladd (F d) (lmul a (G d))) d) (ladd (ev w F d) (lmul a (ev w G d))).
Proof.
  enough (K : forall F G H a, (forall d, leq (F d) (ladd (G d) (lmul a (H d)))) -> forall d, leq (ev w F d) (ladd (ev w G d) (lmul a (ev w H d)))) by (intros; apply K; reflexivity).
  induction w as [|l w IH]; intros F G H a E d; [apply E|]. cbn [ev fold_left]. apply IH. intros d'. unfold sgm, EE, DE. rewrite !E. ring.
Qed.
Lemma ev_scale w F a d : leq (ev w (fun d => lmul a (F d)) d) (lmul a (ev w F d)).
Proof.
  enough (K : forall F H, (forall d, leq (F d) (lmul a (H d))) -> forall d, leq (ev w F d) (lmul a (ev w H d))) by (intros; apply K; reflexivity).
  clear F d. induction w as [|l w IH]; intros F H E d; [apply E|]. cbn [ev fold_left]. apply IH. intros d'. unfold sgm, EE, DE. rewrite !E. ring.
Qed.
(** a word that commutes with s_i commutes with e_i *)
Lemma ev_central w i F : i + 1 < n -> in_range n w -> braid_eq n ([(i, true)] ++ w) (w ++ [(i, true)]) -> EE i (ev w F) == ev w (EE i F).
Proof.
  intros Hi Hw B d Td. pose proof (ev_braid _ _ B ltac:(apply in_range_app; split; [constructor; [exact Hi|constructor]|exact Hw]) F d Td) as K.
  rewrite !ev_app in K. cbn [ev fold_left] in K. fold (ev w (sgm F (i, true))) in K. fold (ev w F) in K. unfold sgm in K. rewrite ev_lin in K. cbn [fst snd] in K. fold (ev w F) in K. fold (ev w (EE i F)) in K.
  set (A := ev w F d) in *. set (B1 := EE i (ev w F) d) in *. set (C := ev w (EE i F) d) in *.
  assert (K' : leq (lmul (cf true) C) (lmul (cf true) B1)).
  { transitivity (lsub (ladd A (lmul (cf true) C)) A); [ring|]. rewrite K. ring. }
  transitivity (lmul (lmul vL vinv) B1); [rewrite v_vinv; ring|]. transitivity (lmul (lmul vL vinv) C); [|rewrite v_vinv; ring].
  transitivity (lneg (lmul vinv (lmul (cf true) B1))); [cbn [cf]; ring|]. rewrite <- K'. cbn [cf]. ring.
Qed.
(** s_i s_(i+1) e_i = - v e_(i+1) e_i and its mirror image *)
Lemma tw1 i F : i + 2 < n -> EE i (ev [(i, true); (i + 1, true)] F) == (fun d => lmul (cf true) (EE i (EE (i + 1) F) d)).
Proof.
  intros H d Td. cbn [ev fold_left]. rewrite EE_sgm. cbn [fst snd]. rewrite EE_sgm, EE2_sgm. cbn [fst snd]. rewrite (EE_sq i F ltac:(lia) d Td), (EE_adj i F H d Td).
  set (a := cf true). transitivity (ladd (lmul (ladd (ladd (lint 1) (lmul a Q2)) (lmul a a)) (EE i F d)) (lmul a (EE i (EE (i + 1) F) d))); [ring|]. unfold a. rewrite cf_hecke. ring.
Qed.
Lemma tw2 i F : i + 2 < n -> EE (i + 1) (ev [(i + 1, true); (i, true)] F) == (fun d => lmul (cf true) (EE (i + 1) (EE i F) d)).
Proof.
  intros H d Td. cbn [ev fold_left]. rewrite EE_sgm. cbn [fst snd]. rewrite EE_sgm, EE2_sgm. cbn [fst snd]. rewrite (EE_sq (i + 1) F ltac:(lia) d Td), (EE_adj' i F H d Td).
  set (a := cf true). transitivity (ladd (lmul (ladd (ladd (lint 1) (lmul a Q2)) (lmul a a)) (EE (i + 1) F d)) (lmul a (EE (i + 1) (EE i F) d))); [ring|]. unfold a. rewrite cf_hecke. ring.
Qed.
Lemma tw0 i F : i + 1 < n -> EE i (ev [(i, true)] F) == (fun d => lneg (lmul (lmul (cf true) (cf true)) (EE i F d))).
Proof.
  intros H d Td. cbn [ev fold_left]. rewrite EE_sgm. cbn [fst snd]. rewrite (EE_sq i F H d Td). set (a := cf true).
  transitivity (lsub (lmul (ladd (ladd (lint 1) (lmul a Q2)) (lmul a a)) (EE i F d)) (lmul (lmul a a) (EE i F d))); [ring|]. unfold a. rewrite cf_hecke. ring.
Qed.
Fixpoint asq (k : nat) : lpoly := match k with 0 => lint 1 | S k => lmul (lmul (cf true) (cf true)) (asq k) end.
Lemma twist_word j k : j + S (S k) < n \/ j + S (S k) = n - 1 -> braid_eq n (Xw (S j) (S k) ++ [(j, true)] ++ Xw (S j) (S k))
  ([(S j, true); (j, true)] ++ (Xw (S (S j)) k ++ [(S j, true)] ++ Xw (S (S j)) k) ++ [(j, true); (S j, true)]).
Proof.
  intros H. set (Y := Xw (S (S j)) k). rewrite Xw_S. fold Y.
  assert (C : braid_eq n ([(j, true)] ++ Y) (Y ++ [(j, true)])).
  { assert (F : Forall (fun i => (j + 2 <= i /\ i + 1 < n) \/ i + 2 <= j) (seq (S (S j)) k)) by (apply Forall_forall; intros i Hi; apply in_seq in Hi; lia).
    unfold Y, Xw. rewrite <- pword_rev, <- pword_app. apply far_comm; [lia|]. apply Forall_app. split; [exact F|]. apply Forall_rev. exact F. }
  assert (B : braid_eq n ([(S j, true)] ++ [(j, true)] ++ [(S j, true)]) ([(j, true)] ++ [(S j, true)] ++ [(j, true)])).
  { cbn. pose proof (be_braid n j ltac:(lia)) as K. replace (j + 1) with (S j) in K by lia. now apply be_sym. }
  change [(S j, true); (j, true)] with ([(S j, true)] ++ [(j, true)]). change [(j, true); (S j, true)] with ([(j, true)] ++ [(S j, true)]).
  set (s' := [(S j, true)]) in *. set (s := [(j, true)]) in *.
  transitivity (s' ++ Y ++ (s' ++ s ++ s') ++ Y ++ s'); [now rewrite <- !app_assoc|]. rewrite B.
  transitivity (s' ++ (Y ++ s) ++ s' ++ (s ++ Y) ++ s'); [now rewrite <- !app_assoc|]. transitivity (s' ++ (s ++ Y) ++ s' ++ (Y ++ s) ++ s'); [apply be_app; [reflexivity|]; apply be_app; [now apply be_sym|]; apply be_app; [reflexivity|]; apply be_app; [exact C|reflexivity]|]. now rewrite <- !app_assoc.
Qed.
Lemma twist k : forall j F, j + S k = n - 1 -> EE j (ev (Xw (S j) k ++ [(j, true)] ++ Xw (S j) k) F) == (fun d => lneg (lmul (asq (S k)) (EE j F d))).
Proof.
  induction k as [|k IH]; intros j F H.
  - cbn [Xw seq pword map rev List.app]. eapply eqf_trans; [apply tw0; lia|]. intros d _. cbn [asq]. ring.
  - set (G := ev (Xw (S (S j)) k ++ [(S j, true)] ++ Xw (S (S j)) k) (ev [(S j, true); (j, true)] F)).
    eapply eqf_trans; [apply EE_ext; [lia|apply ev_braid; [apply twist_word; lia|]]|].
    { apply in_range_app. split; [apply Xw_range; lia|]. apply in_range_app. split; [repeat constructor; cbn; lia|apply Xw_range; lia]. }
    rewrite ev_app, ev_app. fold G. pose proof (tw1 j G ltac:(lia)) as T1. replace (j + 1) with (S j) in T1 by lia.
    eapply eqf_trans; [exact T1|].
    intros d Td. assert (E : EE (S j) G == (fun d => lneg (lmul (lmul (asq (S k)) (cf true)) (EE (S j) (EE j F) d)))).
    { eapply eqf_trans; [unfold G; apply IH; lia|]. intros x Tx. pose proof (tw2 j F ltac:(lia) x Tx) as T2. replace (j + 1) with (S j) in T2 by lia. rewrite T2. ring. }
    rewrite (EE_ext j _ _ ltac:(lia) E d Td). pose proof (EE_adj j F ltac:(lia) d Td) as A. replace (j + 1) with (S j) in A by lia.
    transitivity (lmul (cf true) (lneg (lmul (lmul (asq (S k)) (cf true)) (EE j (EE (S j) (EE j F)) d)))); [unfold EE, DE; ring|]. rewrite A. cbn [asq]. ring.
Qed.
Lemma twist_top k F : S k = n - 1 -> EE 0 (ev (Xw 0 (S k) ++ Xw 1 k) F) == (fun d => lmul (asq (S (S k))) (EE 0 F d)).
Proof.
  intros H. rewrite Xw_S. rewrite <- !app_assoc, ev_app. eapply eqf_trans; [apply twist; lia|]. intros d Td. rewrite (tw0 0 F ltac:(lia) d Td). cbn [asq]. ring.
Qed.
End NM.

Lemma e0_cup n : 2 <= n -> dprod (de 0 n) (cupD 0 n) = (cupD 0 n, 1).
Proof.
  intros H. destruct (cupcap 0 n ltac:(lia)) as [T _]. apply (absorb_top _ n (n - 2) 0 T ltac:(lia)).
  cbn [cupD dseq]. replace (ins (id_seq 0) [1; 0] 0) with [1; 0] by reflexivity. rewrite (Nat.sub_0_r (n - 2)).
  pose proof (ins_eo [1; 0] (id_seq (n - 2)) 0 ltac:(cbn; lia) 1 ltac:(cbn; lia)) as K. cbn [nth] in K. unfold eo in K. rewrite id_seq_length in K. change (1 <? 0) with false in K. change (0 <? 0) with false in K. cbv iota in K.
  replace (n + (n - 2) - 1 - 0) with (1 + 2 * (n - 2)) by lia. rewrite K. lia.
Qed.
Lemma slide n m F j e : j + 1 < n - 2 -> eqf (n - 2) m (DE (cupD 0 n) (sgm n F (j + 2, e))) (sgm (n - 2) (DE (cupD 0 n) F) (j, e)).
Proof.
  intros H d Td. destruct (cupcap 0 n ltac:(lia)) as [TC _]. destruct (cup_slide j n ltac:(lia)) as (x & Tx & E1 & E2).
  assert (Ta : typed n n (de (j + 2) n)) by (apply de_type; lia). assert (Tb : typed (n - 2) (n - 2) (de j (n - 2))) by (apply de_type; lia).
  unfold sgm. rewrite DE_lin. cbn [fst snd]. unfold EE. rewrite (DE_comp n n (n - 2) m _ _ x 0 F Ta TC E1 d Td), (DE_comp n (n - 2) (n - 2) m _ _ x 0 F TC Tb E2 d Td). reflexivity.
Qed.
Lemma slide_word n m w : in_range (n - 2) w -> forall F, eqf (n - 2) m (DE (cupD 0 n) (ev n (shw 2 w) F)) (ev (n - 2) w (DE (cupD 0 n) F)).
Proof.
  induction 1 as [|[j e] w H Hw IH]; intros F; [apply eqf_refl|]. cbn [shw map ev fold_left fst snd]. fold (shw 2 w). fold (ev n (shw 2 w) (sgm n F (S (S j), e))). fold (ev (n - 2) w (sgm (n - 2) (DE (cupD 0 n) F) (j, e))).
  eapply eqf_trans; [apply IH|]. apply ev_ext; [exact Hw|]. replace (2 + j) with (j + 2) by lia. apply (slide n m F j e). cbn [fst] in H. lia.
Qed.
Definition FTw (n : nat) : bword := pword (Dl 0 (n - 1)) ++ pword (Dl 0 (n - 1)).
Lemma FTw_range n : in_range n (FTw n).
Proof.
  assert (K : in_range n (pword (Dl 0 (n - 1)))). { eapply Forall_impl; [|apply Dl_letters]. cbn. intros [i e]. cbn. lia. }
  apply in_range_app. now split.
Qed.
Lemma FTw_split k : braid_eq (S (S k)) (FTw (S (S k))) ((Xw 0 (S k) ++ Xw 1 k) ++ shw 2 (FTw k)).
Proof.
  unfold FTw. replace (S (S k) - 1) with (S k) by lia. pose proof (Delta_sq 0 k) as K. replace (0 + (k + 2)) with (S (S k)) in K by lia. rewrite K. rewrite <- app_assoc. apply be_app; [reflexivity|].
  destruct k as [|k]; [reflexivity|]. pose proof (Delta_sq 1 k) as K2. replace (1 + (k + 2)) with (S (S (S k))) in K2 by lia. rewrite K2. replace (S k - 1) with k by lia. rewrite shw_app, Dl_shift. reflexivity.
Qed.
(** Delta_n^2 passes a cup, leaving v^(2n) *)
Lemma cup_twist n m : 2 <= n -> forall k, k + 1 < n -> forall F, eqf (n - 2) m (DE (cupD k n) (ev n (FTw n) F)) (fun d => lmul (asq n) (ev (n - 2) (FTw (n - 2)) (DE (cupD k n) F) d)).
Proof.
  intros Hn. induction k as [|k IH]; intros Hk F.
  - destruct n as [|[|k]]; [lia|lia|]. replace (S (S k) - 2) with k in * by lia. destruct (cupcap 0 (S (S k)) ltac:(lia)) as [TC _]. replace (S (S k) - 2) with k in TC by lia.
    set (n := S (S k)) in *. set (F1 := ev n (Xw 0 (S k) ++ Xw 1 k) F).
    assert (A : eqf n m (ev n (FTw n) F) (ev n (shw 2 (FTw k)) F1)).
    { unfold F1. rewrite <- ev_app. apply ev_braid; [apply FTw_split|apply FTw_range]. }
    eapply eqf_trans; [apply (DE_ext n k m _ _ _ TC A)|]. pose proof (slide_word n m (FTw k)) as SW. replace (n - 2) with k in SW by (unfold n; lia).
    eapply eqf_trans; [apply SW; apply FTw_range|].
    assert (B : eqf k m (DE (cupD 0 n) F1) (fun d => lmul (asq n) (DE (cupD 0 n) F d))).
    { intros d Td. pose proof (e0_cup n ltac:(unfold n; lia)) as E0. assert (T0 : typed n n (de 0 n)) by (apply de_type; unfold n; lia).
      destruct Q2_nz as [Q1 Q2n]. apply (lmul_cancel Q2 _ _ Q1 Q2n).
      pose proof (DE_comp n n k m _ _ _ 1 F1 T0 TC E0 d Td) as C1. pose proof (DE_comp n n k m _ _ _ 1 F T0 TC E0 d Td) as C2. cbv beta in C1, C2. rewrite q2_1 in C1, C2. rewrite <- C1.
      transitivity (lmul (asq n) (lmul Q2 (DE (cupD 0 n) F d))); [|ring]. rewrite <- C2.
      change (DE (de 0 n) F1) with (EE n 0 (ev n (Xw 0 (S k) ++ Xw 1 k) F)).
      rewrite (DE_ext n k m _ _ _ TC (twist_top n m k F ltac:(unfold n; lia)) d Td). apply DE_scale. }
    eapply eqf_trans; [apply ev_ext; [apply FTw_range|exact B]|]. intros d _. apply ev_scale.
  - destruct (cupcap k n ltac:(lia)) as [TC _]. pose proof (cup_move k n ltac:(lia)) as E. assert (Te : typed n n (de (k + 1) n)) by (apply de_type; lia). replace (S k) with (k + 1) in * by lia.
    assert (A : forall G, eqf (n - 2) m (DE (cupD (k + 1) n) G) (DE (cupD k n) (EE n (k + 1) G))).
    { intros G d Td. unfold EE. rewrite (DE_comp n n (n - 2) m _ _ _ 0 G Te TC E d Td), q2_0. ring. }
    eapply eqf_trans; [apply A|]. eapply eqf_trans; [apply (DE_ext n (n - 2) m _ _ _ TC (ev_central n m (FTw n) (k + 1) F ltac:(lia) (FTw_range n) (Delta_central n (k + 1) ltac:(lia))))|].
    eapply eqf_trans; [apply IH; lia|]. intros d Td. rewrite (ev_ext (n - 2) m (FTw (n - 2)) (FTw_range _) _ _ (eqf_sym _ _ _ _ (A F)) d Td). reflexivity.
Qed.
(** functions that vanish outside the cell module *)
Definition onlythrough (n m : nat) (F : diag -> lpoly) : Prop := forall d, typed n m d -> ~ through_all m (dseq d) -> leq (F d) (lint 0).
Lemma through_id n d : typed n n d -> through_all n (dseq d) -> d = did n.
Proof.
  intros Td Th. destruct (diag_eqb_spec d (did n)) as [->|N]; [reflexivity|]. destruct (not_id_cup d n Td N) as [k [Hk E]]. specialize (Th k ltac:(lia)). lia.
Qed.
Lemma only_EE n m F i : i + 1 < n -> onlythrough n m F -> onlythrough n m (sgm n F (i, true)).
Proof.
  intros Hi H d Td N. unfold sgm. cbn [fst snd]. rewrite (H d Td N). unfold EE, DE. assert (Te : typed n n (de i n)) by now apply de_type.
  rewrite (H (fst (dprod (de i n) d)) (dprod_typed _ _ _ _ _ Te Td)); [ring|]. intros K. apply N. destruct Te as (A1 & A2 & A3), Td as (B1 & B2 & B3). apply (dprod_through (de i n) d m); auto; congruence.
Qed.
Lemma pos_id n w : in_range n w -> Forall (fun l => snd l = true) w -> forall F, onlythrough n n F -> leq (ev n w F (did n)) (F (did n)).
Proof.
  induction 1 as [|[i e] w Hi Hw IH]; intros P F O; [reflexivity|]. inversion P as [|? ? P1 P2]; subst. cbn [snd fst] in *. subst e. cbn [ev fold_left]. fold (ev n w (sgm n F (i, true))). rewrite (IH P2); [|now apply only_EE].
  unfold sgm. cbn [fst snd]. unfold EE, DE. rewrite (dp_idr n (de i n)) by now apply de_type. cbn [fst snd].
  rewrite (O (de i n)); [ring|now apply de_type|]. intros K. specialize (K i ltac:(lia)). cbn [de dseq] in K. rewrite nth_e, Nat.eqb_refl in K by lia. lia.
Qed.
Lemma FTw_pos n : Forall (fun l => snd l = true) (FTw n).
Proof. assert (K : Forall (fun l => snd l = true) (pword (Dl 0 (n - 1)))) by (eapply Forall_impl; [|apply Dl_letters]; cbn; tauto). apply Forall_app. now split. Qed.
Fixpoint vtw (m r : nat) : lpoly := match r with 0 => lint 1 | S r' => lmul (asq (m + 2 * r)) (vtw m r') end.
Theorem full_twist m r : forall F, onlythrough (m + 2 * r) m F -> forall d, typed (m + 2 * r) m d -> through_all m (dseq d) -> leq (ev (m + 2 * r) (FTw (m + 2 * r)) F d) (lmul (vtw m r) (F d)).
Proof.
  induction r as [|r IH]; intros F O d Td Th.
  - replace (m + 2 * 0) with m in * by lia. rewrite (through_id m d Td Th). rewrite pos_id by (auto using FTw_range, FTw_pos). cbn [vtw]. ring.
  - set (n := m + 2 * S r) in *. assert (En : n - 2 = m + 2 * r) by lia. destruct (top_cup d n m Td ltac:(lia)) as [k [Hk E]]. destruct (cupcap k n Hk) as (Tu & Tv & Ecc). rewrite En in Tu, Tv.
    assert (Te : typed n n (de k n)) by now apply de_type.
    set (c := fst (dprod (capD k n) d)). set (kc := snd (dprod (capD k n) d)). assert (Tc : typed (m + 2 * r) m c) by (apply (dprod_typed _ n); auto).
    assert (Key : forall G, leq (lmul Q2 (G d)) (lmul (q2 kc) (DE (cupD k n) G c))).
    { intros G. pose proof (DE_comp n (m + 2 * r) n m _ _ _ 0 G Tu Tv Ecc d Td) as K. cbv beta in K. rewrite q2_0 in K. unfold DE at 3 in K. rewrite E in K. cbn [fst snd] in K. rewrite q2_1 in K. transitivity (lmul (lint 1) (lmul Q2 (G d))); [ring|]. rewrite <- K. unfold DE at 1. fold c kc. reflexivity. }
    assert (Thc : through_all m (dseq c)).
    { destruct (C30_associative (cupD k n) (capD k n) d) as (xy & n1 & yz & n2 & z & m1 & m2 & H1 & H2 & H3 & H4 & H5); try (destruct Tu as (A1 & A2 & A3), Tv as (B1 & B2 & B3), Td as (D1 & D2 & D3); auto; congruence).
      assert (Exy : xy = de k n) by (unfold dprod in Ecc; rewrite H1 in Ecc; congruence). subst xy. assert (Ez : z = d) by (unfold dprod in E; rewrite H2 in E; congruence). subst z.
      assert (Ec : yz = c) by (unfold c, dprod; now rewrite H3). subst yz. destruct Tu as (A1 & A2 & A3), Tc as (B1 & B2 & B3). apply (dprod_through (cupD k n) c m); try congruence. unfold dprod. rewrite H4. exact Th. }
    destruct Q2_nz as [Q1 Q2n]. apply (lmul_cancel Q2 _ _ Q1 Q2n). rewrite (Key (ev n (FTw n) F)).
    pose proof (cup_twist n m ltac:(lia) k Hk F) as CT. rewrite En in CT. rewrite (CT c Tc). rewrite IH; [| |exact Tc|exact Thc].
    + transitivity (lmul (lmul (asq n) (vtw m r)) (lmul (q2 kc) (DE (cupD k n) F c))); [ring|]. rewrite <- Key. cbn [vtw]. fold n. ring.
    + intros x Tx Nx. unfold DE. rewrite (O (fst (dprod (cupD k n) x))); [ring|now apply (dprod_typed _ (m + 2 * r))|]. intros K. apply Nx. destruct Tu as (A1 & A2 & A3), Tx as (B1 & B2 & B3). apply (dprod_through (cupD k n) x m); auto; congruence.
Qed.
Lemma vtw_pow m r : leq (vtw m r) (vpow (Z.of_nat (2 * r * (m + r + 1)))).
Proof.
  assert (V : forall a b, leq (lmul (vpow a) (vpow b)) (vpow (a + b))).
  { intros a b. apply leq_L. intros g. unfold vpow. rewrite L_mul, !L_make. cbn [lin]. rewrite !L_make. cbn [lin]. f_equal. ring. }
  assert (A : forall k, leq (asq k) (vpow (Z.of_nat (2 * k)))).
  { induction k as [|k IH]; [reflexivity|]. cbn [asq]. rewrite IH. transitivity (lmul (vpow 2) (vpow (Z.of_nat (2 * k)))); [assert (C2 : leq (lmul (cf true) (cf true)) (vpow 2)) by reflexivity; rewrite C2; reflexivity|]. rewrite V. replace (2 + Z.of_nat (2 * k))%Z with (Z.of_nat (2 * S k)) by lia. reflexivity. }
  induction r as [|r IH]; [reflexivity|]. cbn [vtw]. rewrite IH, A, V. match goal with |- leq (vpow ?a) (vpow ?b) => replace a with b by lia end. reflexivity.
Qed.
