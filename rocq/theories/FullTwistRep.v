(** FullTwistRep.v – the matrices of the Jones representations are the action
    on the cell module, and Delta^2 is the scalar matrix v^(2 r (n - r + 1)). *)
From Verif Require Import Base ModelPoly SpecPoly PolyTheory PolyDiv EvalTheory PropsPoly ModelTL SpecTL TLTheory TLAlg TLAlg2 TLBasis TLCells TLRel PropsTL ModelMatrix SpecMatrix MatrixTheory PropsMatrix ModelTLMor TLMorTheory TLGens TLFlip PropsTLMor PropsTLMor2 JonesTheory TLTrace PropsTLMor3 MarkovTheory TLCup.
From Verif Require Import ModelPerm PermTheory WeakOrder SpecPerm ModelBraid SpecBraid BraidTheory FullTwistBraid FullTwist ModelRep SpecRep NumTheory RepTheory RepCanon PropsRep.
From Coq Require Import Ring Setoid Morphisms.
Local Open Scope nat_scope.
#[local] Existing Instance neqp_equiv.
Local Notation pr := (MatrixTheory.prod (NI 0) nadd nmul).
Local Notation isid := (MatrixTheory.is_identity (NI 0) (NI 1)).

Section Rep.
Variables (n r : nat) (p : Z).
Hypothesis (Hr : 2 * r <= n) (Hp : (0 <= p)%Z).
Variable B : list diag.
Hypothesis (EB : cell_basis n r = Ok B).
Variables gs hs : list mor.
Hypothesis Et : tl_gens_invs n = Ok (gs, hs).
Variables (gens invs : list (mat num)) (E : mat num).
Hypothesis HE : isid (length B) E.
Hypothesis (FG : Forall2 (isc r p B) gs gens) (FH : Forall2 (isc r p B) hs invs).
Let m := n - 2 * r.
Let d := length B.
Let b i := nth i B (did 0).
Lemma lin_sgm a i e g k x : i + 1 < n -> is_lin n a i g -> leq a (cf e) -> typed n m x -> leq (act B (moterms g) k x) (sgm n (ddelta (b k)) (i, e) x).
Proof using Type.
  intros Hi [_ L] Ea Tx. unfold act. rewrite L. pose proof Tx as (T1 & T2 & T3). unfold sgm. cbn [fst snd]. unfold EE, DE. rewrite <- T2 at 1 2. rewrite dprod_id_l by exact T1. cbn [fst snd]. rewrite q2_0, Ea. unfold b. ring.
Qed.
Lemma letter_mor l : fst l + 1 < n -> exists g, sqm n g /\ isc r p B g (lt gens invs E l) /\ forall k x, typed n m x -> leq (act B (moterms g) k x) (sgm n (ddelta (b k)) l x).
Proof using Hr Et FG FH.
  intros H. destruct (C31_gens_invs n) as [gs' [hs' [E' [L1 [L2 _]]]]]. rewrite Et in E'. injection E' as <- <-. destruct l as [i e]. cbn [fst] in H. unfold lt. cbn [fst snd]. destruct e.
  - destruct (nth_isc _ gs gens E i FG ltac:(lia)) as [g [K1 K2]]. destruct (gens_lin n gs hs i g Et K1) as [_ Lg]. exists g. split; [apply Lg|]. split; [exact K2|]. intros k x Tx. apply (lin_sgm (lneg vL)); auto. reflexivity.
  - destruct (nth_isc _ hs invs E i FH ltac:(lia)) as [g [K1 K2]]. destruct (invs_lin n gs hs i g Et K1) as [_ Lg]. exists g. split; [apply Lg|]. split; [exact K2|]. intros k x Tx. apply (lin_sgm (lneg vinv)); auto. reflexivity.
Qed.
Lemma letter_ent l i j : fst l + 1 < n -> i < d -> j < d -> neqp p (ent (NI 0) (lt gens invs E l) i j) (NL (sgm n (ddelta (b i)) l (b j))).
Proof using Hr Hp EB Et FG FH.
  intros H Hi Hj. destruct (letter_mor l H) as [g [Sg [[X [EX [SX [-> _]]]] A]]]. destruct (cell_matrix_ok n r Hr B EB g Sg) as [X' [EX' [W [R1 [C1 N]]]]]. rewrite EX in EX'. injection EX' as <-.
  pose proof (red_pmeq p X Hp) as K. apply (meq_ent (NI 0) (neqp p)) in K; [|apply (red_sq p d X SX)|apply (lsq_NL d X SX)].
  destruct K as [_ [_ K]]. transitivity (ent (NI 0) (mat_map NL X) i j); [pose proof (red_sq p d X SX) as (Q1 & Q2 & Q3); unfold d in *; apply K; lia|].
  rewrite (ent_NL d) by auto. apply neq_neqp. unfold NumTheory.neq. cbn [coerce]. destruct (N i j Hi Hj) as [_ [Q _]]. etransitivity; [exact Q|]. apply A. now apply (b_typed n r Hr B EB).
Qed.
Local Notation lsum := (rsum (lint 0) ladd).
Lemma sgm_out l i : fst l + 1 < n -> i < d -> eqf n m (sgm n (ddelta (b i)) l) (fun x => lsum d (fun k => lmul (sgm n (ddelta (b i)) l (b k)) (ddelta (b k) x))).
Proof using Hr EB E Et FG FH.
  intros H Hi x Tx. destruct (letter_mor l H) as [g [Sg [_ A]]]. rewrite <- (A i x Tx). rewrite (act_out n r Hr B EB g i x Sg Hi Tx).
  apply (rsum_ext (lint 0) ladd lmul lneg leq _ lring_ext). intros k Hk. pose proof (A i (b k) (b_typed n r Hr B EB k Hk)) as Q. unfold b in *. rewrite Q. reflexivity.
Qed.
Lemma ev_sum w : forall e (c : nat -> lpoly) (F : nat -> diag -> lpoly) x, leq (ev n w (fun x => lsum e (fun k => lmul (c k) (F k x))) x) (lsum e (fun k => lmul (c k) (ev n w (F k) x))).
Proof using Type.
  induction e as [|e IH]; intros c F x; cbn [rsum].
  - transitivity (ev n w (fun d => lmul (lint 0) (lint 0)) x); [|rewrite ev_scale; ring].
    apply (fun K => K). enough (Q : forall F G, (forall x, leq (F x) (G x)) -> forall x, leq (ev n w F x) (ev n w G x)) by (apply Q; intros; ring).
    clear. induction w as [|l w IH]; intros F G K x; [apply K|]. cbn [ev fold_left]. apply IH. intros y. unfold sgm, EE, DE. now rewrite !K.
  - rewrite <- IH. apply (ev_lin n w).
Qed.
Lemma Mev w : in_range n w -> forall i j, i < d -> j < d -> neqp p (ent (NI 0) (M gens invs E w) i j) (NL (ev n w (ddelta (b i)) (b j))).
Proof using Hr Hp EB Et FG FH HE.
  assert (SG : forall l, fst l + 1 < n -> sq d (lt gens invs E l)).
  { intros l Hl. destruct (letter_mor l Hl) as [g [_ [I _]]]. now apply (isc_reduced r p Hp B g). }
  induction 1 as [|l w Hl Hw IH]; intros i j Hi Hj.
  - cbn [M fold_right ev fold_left]. destruct HE as (_ & _ & _ & K). rewrite K by auto. apply neq_neqp. unfold NumTheory.neq. cbn [coerce]. unfold ddelta. destruct (diag_eqb_spec (b i) (b j)) as [Q|Q], (Nat.eqb_spec i j) as [Q'|Q']; try reflexivity.
    + exfalso. apply Q'. now apply (b_inj n r Hr B EB).
    + subst j. congruence.
  - cbn [M fold_right]. fold (M gens invs E w). assert (SM : sq d (M gens invs E w)).
    { clear IH Hi Hj. induction Hw as [|l' w Hl' Hw IH]; [now apply isid_sq|]. cbn [M fold_right]. apply sq_pr; [now apply SG|exact IH]. }
    pose proof (SG l Hl) as (W1 & R1 & C1). pose proof SM as (W2 & R2 & C2).
    rewrite (prod_e (NI 0) nadd nmul) by congruence. rewrite C1.
    transitivity (NL (lsum d (fun k => lmul (sgm n (ddelta (b i)) l (b k)) (ev n w (ddelta (b k)) (b j))))).
    + assert (Q : forall e, e <= d -> neqp p (rsum (NI 0) nadd e (fun k => nmul (ent (NI 0) (lt gens invs E l) i k) (ent (NI 0) (M gens invs E w) k j))) (NL (lsum e (fun k => lmul (sgm n (ddelta (b i)) l (b k)) (ev n w (ddelta (b k)) (b j)))))).
      { induction e as [|e IHe]; intros He; cbn [rsum]; [apply neq_neqp; unfold NumTheory.neq; cbn [coerce]; reflexivity|]. specialize (IHe ltac:(lia)). destruct IHe as [z1 K1].
        destruct (letter_ent l i e Hl Hi ltac:(lia)) as [z2 K2]. destruct (IH e j ltac:(lia) Hj) as [z3 K3]. cbn [coerce] in K1, K2, K3.
        set (x2 := sgm n (ddelta (b i)) l (b e)) in *. set (x3 := ev n w (ddelta (b e)) (b j)) in *. 
        exists (ladd z1 (ladd (ladd (lmul x2 z3) (lmul z2 x3)) (lmul (lint p) (lmul z2 z3)))). rewrite coerce_add, coerce_mul, K1, K2, K3. cbn [coerce]. ring. }
      apply Q. lia.
    + apply neq_neqp. unfold NumTheory.neq. cbn [coerce]. rewrite <- ev_sum. cbn [ev fold_left]. symmetry.
      apply (ev_ext n m w Hw); [|now apply (b_typed n r Hr B EB)]. now apply sgm_out.
Qed.
Lemma only_delta i : i < d -> onlythrough n m (ddelta (b i)).
Proof using Hr EB.
  intros Hi x Tx N. unfold ddelta. destruct (diag_eqb_spec (b i) x) as [Q|Q]; [|reflexivity]. exfalso. apply N. rewrite <- Q. apply (B_spec n r Hr B EB). now apply nth_In.
Qed.
Lemma M_twist i j : i < d -> j < d -> neqp p (ent (NI 0) (M gens invs E (FTw n)) i j) (NL (if i =? j then vpow (Z.of_nat (2 * r * (n - r + 1))) else lint 0)).
Proof using Hr Hp EB Et FG FH HE.
  intros Hi Hj. etransitivity; [apply Mev; auto using FTw_range|]. apply neq_neqp. unfold NumTheory.neq. cbn [coerce].
  pose proof (full_twist m r (ddelta (b i))) as K. assert (En : m + 2 * r = n) by (unfold m; lia). rewrite En in K.
  rewrite (K (only_delta i Hi) (b j) (b_typed n r Hr B EB j Hj)); [|apply (B_spec n r Hr B EB); now apply nth_In].
  rewrite vtw_pow. replace (m + r + 1) with (n - r + 1) by (unfold m; lia). unfold ddelta.
  destruct (diag_eqb_spec (b i) (b j)) as [Q|Q], (Nat.eqb_spec i j) as [Q'|Q']; try ring; [exfalso; apply Q'; now apply (b_inj n r Hr B EB)|rewrite Q' in Q; congruence].
Qed.
End Rep.
