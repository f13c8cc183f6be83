(** PropsSmall.v – C121: the small representations.  JonesCellRep(4, 2) is the
    representation JonesCellRep(3, 1) after the map B_4 -> B_3 that sends sigma_2 to
    sigma_0; JonesCellRep(n, 0) is trivial; JonesCellRep(2, 1) is the exponent sum. *)
From Verif Require Import Base ModelPoly SpecPoly PolyTheory PropsPoly ModelMatrix SpecMatrix MatrixTheory NumTheory ModelPolymat SpecPolymat PolymatTheory PropsPolymat PropsPolymat2 PropsPolymat3.
From Coq Require Import Ring Setoid Morphisms.
From Verif Require Import MarkovTheory.
From Verif Require Import ModelPerm Germ GermNF GermAct GermBraid PermTheory WeakOrder PermWords SpecBraid BraidTheory ModelBraid ModelTL SpecTL TLTheory TLAlg TLAlg2 TLBasis TLCells TLRel PropsTL ModelTLMor TLMorTheory TLGens TLFlip PropsTLMor PropsTLMor2 JonesTheory ModelRep SpecRep RepTheory RepCanon PropsRep ModelPolyRep TableTheory NFApi SpecPerm PermGerm PermTable PropsGNF PropsGNF2 PolyRepTheory PolyRepSpan TLBurau PropsBurau BurauThree PropsThree TorsionFree PropsTorsion.
Local Open Scope nat_scope.
#[local] Existing Instance neqp_equiv.
#[local] Existing Instance pmeq_equiv.

(** ** four strands, two cups *)
(** the map of the words of B_4 to those of B_3 that replaces sigma_2 by sigma_0 *)
Definition onto3 (w : list (Z * Z)) : list (Z * Z) := map (fun l => ((if fst l =? 2 then 0 else fst l)%Z, snd l)) w.
Definition fold3 (w : bword) : bword := map (fun l => ((if fst l =? 2 then 0 else fst l), snd l)) w.
Lemma fold_expand w : word_ok 4 w -> expand (onto3 w) = fold3 (expand w).
Proof.
  induction 1 as [|[i e] w [H1 H2] _ IH]; [reflexivity|]. unfold fold3, expand, onto3. cbn [map flat_map fst snd]. rewrite map_app. fold (onto3 w) (expand (onto3 w)). change (flat_map _ (onto3 w)) with (expand (onto3 w)). change (flat_map _ w) with (expand w). rewrite IH. f_equal. cbn [fst snd] in *. rewrite map_repeat. cbn [fst snd]. f_equal. f_equal.
  destruct (Z.eqb_spec i 2) as [->|N]; [reflexivity|]. destruct (Nat.eqb_spec (Z.to_nat i) 2); [lia|reflexivity].
Qed.
Lemma onto3_ok w : word_ok 4 w -> word_ok 3 (onto3 w).
Proof. unfold word_ok, onto3. intros H. induction H as [|[i e] w [H1 H2] _ IH]; [constructor|]. cbn [map fst snd] in *. constructor; [|exact IH]. cbn [fst]. destruct (Z.eqb_spec i 2); lia. Qed.
(** it respects the relations *)
Theorem C121_hom u w : braid_eq 4 u w -> braid_eq 3 (fold3 u) (fold3 w).
Proof.
  induction 1 as [u|u v _ IH|u v w _ IH1 _ IH2|u u' v v' _ IH1 _ IH2|i e Hi|i j Hi Hj|i Hi].
  - apply be_refl.
  - now apply be_sym.
  - eapply be_trans; eauto.
  - unfold fold3. rewrite !map_app. now apply be_app.
  - assert (i = 0 \/ i = 1 \/ i = 2) as [->|[->| ->]] by lia; cbn; apply be_cancel; lia.
  - assert (i = 0 /\ j = 2) as [-> ->] by lia. apply be_refl.
  - assert (i = 0 \/ i = 1) as [->| ->] by lia; cbn; [apply (be_braid 3 0); lia|apply be_sym, (be_braid 3 0); lia].
Qed.
Lemma cells_same : exists a b a' b', cell_matrices 4 2 = Ok ([a; b; a], [a'; b'; a']) /\ cell_matrices 3 1 = Ok ([a; b], [a'; b']).
Proof. do 4 eexists. split; vm_compute; reflexivity. Qed.
(** the two representations evaluate corresponding words to the very same matrix *)
Theorem C121_quotient p R4 R3 w : jones_rep 4 2 p = Ok R4 -> jones_rep 3 1 p = Ok R3 -> word_ok 4 w -> rep_evaluate_artin_word R4 w = rep_evaluate_artin_word R3 (onto3 w).
Proof.
  intros E4 E3 Hw. destruct (jones_rep_ok _ _ _ _ E4) as (_ & _ & _ & Q4). destruct (jones_rep_ok _ _ _ _ E3) as (_ & _ & _ & Q3). clear E4 E3. subst R4 R3.
  unfold rep_evaluate_artin_word, rep_id. cbn [rep_artin_gens_invs rep_dimension rep_p]. change (jones_dimension 4 2) with (jones_dimension 3 1).
  destruct cells_same as (a & b & a' & b' & C4 & C3).
  assert (K : exists a b a' b', jones_gens_invs 4 2 p = Ok ([a; b; a], [a'; b'; a']) /\ jones_gens_invs 3 1 p = Ok ([a; b], [a'; b'])).
  { unfold jones_gens_invs. rewrite C4, C3. cbn [bind map]. destruct (p =? 0)%Z; do 4 eexists; split; reflexivity. }
  clear a b a' b' C4 C3. destruct K as (a & b & a' & b' & -> & ->). cbn [bind].
  assert (ML : mapM (rep_letter [a; b; a] [a'; b'; a']) w = mapM (rep_letter [a; b] [a'; b']) (onto3 w)).
  { induction Hw as [|[i e] w [H1 H2] _ IH]; [reflexivity|]. unfold onto3. cbn [map mapM fst snd]. fold (onto3 w). rewrite IH.
    assert (L : rep_letter [a; b; a] [a'; b'; a'] (i, e) = rep_letter [a; b] [a'; b'] ((if i =? 2 then 0 else i)%Z, e)); [|now rewrite L].
    cbn [fst] in H1, H2. assert (i = 0 \/ i = 1 \/ i = 2)%Z as [->|[->| ->]] by lia; reflexivity. }
  now rewrite ML.
Qed.
(** so modulo every p <> 1 the representation JonesCellRep(4, 2) tells two braids apart
    exactly when their images in B_3 differ *)
Theorem C121_decides p R u w : jones_rep 4 2 p = Ok R -> p <> 1%Z -> word_ok 4 u -> word_ok 4 w ->
  exists A B, rep_evaluate_artin_word R u = Ok A /\ rep_evaluate_artin_word R w = Ok B /\ (mat_congr p A B <-> braid_eq 3 (fold3 (expand u)) (fold3 (expand w))).
Proof.
  intros E4 P1 Hu Hw. assert (E3 : exists R3, jones_rep 3 1 p = Ok R3). { destruct (jones_rep_ok _ _ _ _ E4) as (_ & _ & P & _). unfold jones_rep. cbn [Nat.leb Nat.mul Nat.add]. destruct (Z.leb_spec 0 p); [cbn [assert_ bind]; eauto|lia]. }
  destruct E3 as [R3 E3]. rewrite (C121_quotient p R R3 u E4 E3 Hu), (C121_quotient p R R3 w E4 E3 Hw), <- !fold_expand by assumption.
  exact (C114_faithful p R3 (gtb hdpick) E3 P1 (gtb_is_table hdpick 3 hdpick_ok ltac:(lia)) (onto3 u) (onto3 w) (onto3_ok u Hu) (onto3_ok w Hw)).
Qed.
(** the strand that starts at x ends at [follow w x] *)
Definition swap1 (l : nat * bool) (x : nat) : nat := if x =? fst l then fst l + 1 else if x =? fst l + 1 then fst l else x.
Definition follow (w : bword) (x : nat) : nat := fold_left (fun y l => swap1 l y) w x.
Ltac eqb_all := repeat match goal with |- context [?a =? ?b] => lazymatch a with context [Nat.eqb] => fail | _ => destruct (Nat.eqb_spec a b) end end.
Lemma follow_be n u v : braid_eq n u v -> forall x, follow u x = follow v x.
Proof.
  induction 1 as [u|u v _ IH|u v w _ IH1 _ IH2|u u' v v' _ IH1 _ IH2|i e Hi|i j Hi Hj|i Hi]; intros x; unfold follow in *.
  - reflexivity.
  - now rewrite IH.
  - now rewrite IH1.
  - now rewrite !fold_left_app, IH1, IH2.
  - cbn [fold_left]. unfold swap1. cbn [fst]. destruct (Nat.eqb_spec x i), (Nat.eqb_spec x (i + 1)); try lia; eqb_all; lia.
  - cbn [fold_left]. unfold swap1. cbn [fst]. destruct (Nat.eqb_spec x i), (Nat.eqb_spec x (i + 1)), (Nat.eqb_spec x j), (Nat.eqb_spec x (j + 1)); try lia; eqb_all; lia.
  - cbn [fold_left]. unfold swap1. cbn [fst]. destruct (Nat.eqb_spec x i), (Nat.eqb_spec x (i + 1)), (Nat.eqb_spec x (i + 1 + 1)); try lia; eqb_all; lia.
Qed.
(** every matrix in its image is the image of infinitely many braids: it is not faithful
    modulo any p *)
Theorem C121_fibres p R tb : jones_rep 4 2 p = Ok R -> gnf_table 4 tb -> forall c C, nf_value tb 4 c -> rep_evaluate_nf tb R c = Ok C ->
  exists f : Z -> nfobj, f 0%Z = c /\ (forall j k, f j = f k -> j = k) /\ forall k, nf_value tb 4 (f k) /\ exists X, rep_evaluate_nf tb R (f k) = Ok X /\ mat_congr p C X.
Proof.
  intros EJ Ht. pose proof (ptab_ok 4 ltac:(lia)) as TK. pose proof (gnf_table_ptab 4 tb Ht) as Etb.
  assert (W0 : word_ok 4 [(0, 1)%Z]) by (repeat constructor; cbn; lia). assert (W2 : word_ok 4 [(2, 1)%Z]) by (repeat constructor; cbn; lia).
  destruct (api_from_word _ _ _ _ _ _ _ _ _ TK tb Etb _ W0) as (a & _ & Da). destruct (api_from_word _ _ _ _ _ _ _ _ _ TK tb Etb _ W2) as (b & _ & Db).
  destruct (eval_word 4 2 p R tb a _ ltac:(lia) Ht EJ Da) as (d & gens & invs & E & A & ED & EG & EI & EA & SA & PA). destruct (eval_word 4 2 p R tb b _ ltac:(lia) Ht EJ Db) as (d' & gens' & invs' & E' & B & ED' & EG' & EI' & EB & SB & PB).
  rewrite EG in EG'. injection EG' as <- <-. rewrite EI in EI'. injection EI' as <-.
  assert (NE : a <> b).
  { intros Q. apply (api_eq _ _ _ _ _ _ _ _ _ TK tb Etb a b _ _ Da Db) in Q. pose proof (follow_be 4 _ _ Q 0) as K. vm_compute in K. discriminate. }
  assert (MM : M gens invs E (expand [(0, 1)%Z]) = M gens invs E (expand [(2, 1)%Z])).
  { destruct (jones_rep_ok _ _ _ _ EJ) as (_ & _ & _ & Q4). destruct cells_same as (a1 & b1 & a' & b' & C4 & _). rewrite Q4 in EG. cbn [rep_artin_gens_invs] in EG. unfold jones_gens_invs in EG. rewrite C4 in EG. cbn [bind map] in EG. destruct (p =? 0)%Z; injection EG as <- <-; reflexivity. }
  rewrite MM in PA. apply (C117_infinite_fibres 4 2 p R tb a b A ltac:(lia) Ht EJ (proj1 Da) (proj1 Db) NE EA).
  intros B' EB'. rewrite EB in EB'. injection EB' as <-. apply pmeq_congr. now rewrite PA, PB.
Qed.

(** ** representations of dimension one *)
(** the sign (-1)^s *)
Definition sgn (s : Z) : Z := if Z.even s then 1%Z else (-1)%Z.
Section One.
Variables (n r : nat) (p : Z) (R : rep) (gens invs : list (mat num)) (E : mat num) (c s : Z).
Hypothesis (EJ : jones_rep n r p = Ok R) (ED : rep_dimension R = Ok (Z.of_nat 1)) (EG : rep_artin_gens_invs R = Ok (gens, invs)) (EI : rep_id R = Ok E).
Hypothesis cc : (c * c = 1)%Z.
Definition chr (t : Z) : Z := if Z.even t then 1%Z else c.
Hypothesis HL : forall i e, i + 1 < n -> neqp p (ent (NI 0) (lt gens invs E (i, e)) 0 0) (NL (mkL (if e : bool then s else - s)%Z [c])).
Lemma one_word w : in_range n w -> forall e, (p | numcoef (ent (NI 0) (M gens invs E w) 0 0) e - (if (e =? s * esum w)%Z then chr (esum w) else 0))%Z.
Proof using All.
  destruct (Mfacts n r p R 1 gens invs E EJ ED EG EI) as (_ & _ & Hp & _ & HE & SM & BM & PM).
  induction w as [|[i b] w IH] using rev_ind; intros Hw e.
  - cbn [M fold_right]. destruct HE as (_ & _ & _ & K). rewrite K by lia. cbn [Nat.eqb]. cbn [numcoef esum fold_right]. rewrite Z.mul_0_r. unfold chr. cbn [Z.even]. rewrite Z.sub_diag. apply Z.divide_0_r.
  - apply Forall_app in Hw. destruct Hw as [Hw Hi]. apply Forall_inv in Hi. cbn [fst] in Hi.
    pose proof (PM w [(i, b)]) as K. apply (meq_ent (NI 0) (neqp p)) in K; [|apply SM|apply prod_wf]. destruct K as (_ & _ & K). destruct (SM (w ++ [(i, b)])) as (_ & R1 & C1). specialize (K 0 0 ltac:(lia) ltac:(lia)).
    rewrite prod_e in K; [|destruct (SM w) as (_ & Q & _); lia|destruct (SM [(i, b)]) as (_ & _ & Q); lia].
    destruct (SM w) as (_ & _ & C2). rewrite C2 in K. cbn [rsum] in K.
    assert (L1 : neqp p (ent (NI 0) (M gens invs E [(i, b)]) 0 0) (NL (mkL (if b then s else - s)%Z [c]))).
    { rewrite <- (HL i b Hi). assert (Q : pmeq p (M gens invs E [(i, b)]) (lt gens invs E (i, b))).
      - cbn [M fold_right]. apply (pr_id_r p 1); [exact HE|]. pose proof (SM [(i, b)]) as S1. cbn [M fold_right] in S1. pose proof (jones_all n r p R EJ) as (d & g' & i' & E' & EN & _ & _ & _ & ED' & EG' & EI' & _ & L1 & L2 & SG & SH & _). rewrite ED in ED'. injection ED' as ED'. assert (d = 1) as -> by lia. rewrite EG in EG'. injection EG' as <- <-. unfold lt. cbn [fst snd]. unfold RepTheory.G, RepTheory.H. rewrite Forall_forall in SG, SH. destruct b; [apply SG|apply SH]; apply nth_In; lia.
      - apply (meq_ent (NI 0) (neqp p)) in Q; [|apply SM|]. + destruct Q as (_ & _ & Q). destruct (SM [(i, b)]) as (_ & Q1 & Q2). apply Q; lia.
        + destruct Q as (Q1 & Q2 & Q3). destruct (SM [(i, b)]) as (W1 & W2 & W3). unfold mwf in *. apply Forall2_length' in Q3. congruence. }
    assert (K2 : neqp p (ent (NI 0) (M gens invs E (w ++ [(i, b)])) 0 0) (nmul (ent (NI 0) (M gens invs E w) 0 0) (NL (mkL (if b then s else - s)%Z [c])))).
    { rewrite K. destruct (nringp_ext p) as [_ MU _]. destruct (nringp p) as [Z0 _ _ _ _ _ _ _ _]. rewrite Z0. apply MU; [reflexivity|exact L1]. }
    apply neqp_congr in K2. specialize (K2 e). rewrite mono in K2. specialize (IH Hw (e - (if b then s else - s))%Z). rewrite esum_app.
    assert (E1 : esum [(i, b)] = if b then 1%Z else (-1)%Z) by (destruct b; reflexivity). rewrite E1.
    assert (CH : (c * chr (esum w) = chr (esum w + (if b then 1 else -1)))%Z).
    { unfold chr. rewrite Z.even_add. destruct (Z.even (esum w)), b; cbn; lia. }
    assert (EE : (e - (if b then s else - s) =? s * esum w)%Z = (e =? s * (esum w + (if b then 1 else -1)))%Z) by (destruct b; apply Bool.eq_true_iff_eq; rewrite !Z.eqb_eq; lia).
    rewrite EE in IH. destruct (e =? s * (esum w + (if b then 1 else -1)))%Z.
    + rewrite <- CH. destruct K2 as [x K2], IH as [y IH]. exists (x + c * y)%Z. nia.
    + destruct K2 as [x K2], IH as [y IH]. exists (x + c * y)%Z. nia.
Qed.
End One.
Lemma one_eval n r p R w : jones_rep n r p = Ok R -> rep_dimension R = Ok (Z.of_nat 1) -> word_ok n w -> exists gens invs E A, rep_artin_gens_invs R = Ok (gens, invs) /\ rep_id R = Ok E /\
  rep_evaluate_artin_word R w = Ok A /\ sq 1 A /\ pmeq p A (M gens invs E (expand w)) /\ forall e, (p | numcoef (mentry A 0 0) e - numcoef (ent (NI 0) (M gens invs E (expand w)) 0 0) e)%Z.
Proof.
  intros EJ ED Hw. destruct (eval_ok n r p R w EJ Hw) as (d & gens & invs & E & A & ED' & EG & EI & _ & _ & EA & SA & PA & _ & SM & _). rewrite ED in ED'. injection ED' as ED'. assert (d = 1) as -> by lia.
  exists gens, invs, E, A. repeat (split; [assumption|]). intros e. pose proof PA as K. apply (meq_ent (NI 0) (neqp p)) in K; [|apply SA|apply SM]. destruct K as (_ & _ & K). destruct SA as (_ & R1 & C1). specialize (K 0 0 ltac:(lia) ltac:(lia)). apply neqp_congr in K. exact (K e).
Qed.
Lemma nth_repeat_lt {A} (x y : A) i : forall k, i < k -> nth i (repeat x k) y = x.
Proof. induction i as [|i IH]; intros [|k] H; try lia; [reflexivity|]. cbn. apply IH. lia. Qed.
(** *** no cups: the trivial representation *)
Lemma lin_zero n a k g : k + 1 < n -> is_lin n a k g -> cell_matrix g 0 = Ok (mkM 1 1 [lint 1]).
Proof.
  intros Hk [Sg Lg]. assert (EB : cell_basis n 0 = Ok [did n]). { destruct n; cbn [cell_basis]; rewrite ?tld_id_ok; reflexivity. }
  destruct (cell_matrix_ok n 0 ltac:(lia) [did n] EB g Sg) as (A & EA & W & RA & CA & N). cbn [length] in *. rewrite EA. f_equal. apply (mat_ext (lint 0)); [exact W|reflexivity|exact RA|exact CA|].
  intros i j Hi Hj. assert (i = 0) as -> by lia. assert (j = 0) as -> by lia. destruct (N 0 0 ltac:(lia) ltac:(lia)) as (Cn & Q & _). apply canon_eq; [exact Cn|apply canon_int|]. rewrite Q. change (ent (lint 0) (mkM 1 1 [lint 1]) 0 0) with (lint 1).
  unfold act. rewrite Lg. cbn [nth]. assert (Te : typed n n (de k n)) by now apply de_type.
  assert (Ti : typed n n (did n)) by (apply did_type). rewrite (dp_idl n (did n) Ti), (dp_idr n (de k n) Te). cbn [fst snd]. rewrite ddelta_refl.
  assert (Z0 : ddelta (did n) (de k n) = lint 0).
  { unfold ddelta. destruct (diag_eqb_spec (did n) (de k n)) as [X|X]; [|reflexivity]. exfalso. apply (e_not_through k n Hk). assert (Y : id_seq n = e_seq k n) by exact (f_equal dseq X). rewrite <- Y. intros x Hx. rewrite nth_id by lia. lia. }
  rewrite Z0, !q2_0. ring.
Qed.
Theorem cells_zero n : 1 <= n -> cell_matrices n 0 = Ok (repeat (mkM 1 1 [lint 1]) (n - 1), repeat (mkM 1 1 [lint 1]) (n - 1)).
Proof.
  intros Hn. destruct (C31_gens_invs n) as (gs & hs & E & L1 & L2 & _). unfold cell_matrices. rewrite E. cbn [bind].
  assert (K : forall l, (forall i g, nth_error l i = Some g -> cell_matrix g 0 = Ok (mkM 1 1 [lint 1])) -> mapM (fun x => cell_matrix x 0) l = Ok (repeat (mkM 1 1 [lint 1]) (length l))).
  { induction l as [|x l IH]; intros H; [reflexivity|]. cbn [mapM length repeat]. rewrite (H 0 x eq_refl). cbn [bind]. rewrite IH; [reflexivity|]. intros i g Hi. exact (H (S i) g Hi). }
  rewrite (K gs); [|intros i g Hi; destruct (gens_lin n gs hs i g E Hi) as [Hi' Lg]; exact (lin_zero n _ i g Hi' Lg)]. cbn [bind].
  rewrite (K hs); [|intros i g Hi; destruct (invs_lin n gs hs i g E Hi) as [Hi' Lg]; exact (lin_zero n _ i g Hi' Lg)]. cbn [bind]. now rewrite L1, L2.
Qed.
Lemma red_entry p x : (0 <= p)%Z -> neqp p (if (p =? 0)%Z then x else nreduce p x) x.
Proof.
  intros Hp. destruct (Z.eqb_spec p 0) as [->|N]; [reflexivity|]. assert (K : pmeq p (mat_map (nreduce p) (mkM 1 1 [x])) (mkM 1 1 [x])) by (apply map_reduce_pmeq; lia). destruct K as (_ & _ & K). cbn [mat_map mdata map] in K. inversion K; assumption.
Qed.
(** the representation with no cups has dimension 1 and sends every braid to the unit matrix *)
Theorem C121_trivial n p R w : jones_rep n 0 p = Ok R -> word_ok n w ->
  rep_dimension R = Ok 1%Z /\ exists A, rep_evaluate_artin_word R w = Ok A /\ is_unit_matrix p 1 A.
Proof.
  intros EJ Hw. destruct (jones_rep_ok _ _ _ _ EJ) as (Hn & _ & Hp & Q). assert (ED : rep_dimension R = Ok (Z.of_nat 1)) by now rewrite Q. split; [exact ED|].
  destruct (one_eval n 0 p R w EJ ED Hw) as (gens & invs & E & A & EG & EI & EA & SA & PA & CA). exists A. split; [exact EA|]. split; [now apply sq_square|].
  intros i j Hi Hj. assert (i = 0) as -> by lia. assert (j = 0) as -> by lia. cbn [Nat.eqb]. intros e.
  assert (HL : forall i e, i + 1 < n -> neqp p (ent (NI 0) (lt gens invs E (i, e)) 0 0) (NL (mkL (if e : bool then 0 else - 0)%Z [1%Z]))).
  { intros i b Hi'. assert (EG' : jones_gens_invs n 0 p = Ok (gens, invs)) by (rewrite Q in EG; exact EG). unfold jones_gens_invs in EG'. rewrite cells_zero in EG' by exact Hn. cbn [bind] in EG'. rewrite !map_repeat in EG'.
    assert (X : forall G, nth i (if (p =? 0)%Z then repeat G (n - 1) else map (mat_map (nreduce p)) (repeat G (n - 1))) E = if (p =? 0)%Z then G else mat_map (nreduce p) G).
    { intros G. destruct (p =? 0)%Z; rewrite ?map_repeat; apply nth_repeat_lt; lia. }
    assert (GE : gens = (if (p =? 0)%Z then repeat (mat_map NL (mkM 1 1 [lint 1])) (n - 1) else map (mat_map (nreduce p)) (repeat (mat_map NL (mkM 1 1 [lint 1])) (n - 1))) /\ invs = gens) by (destruct (p =? 0)%Z; injection EG' as <- <-; rewrite ?map_repeat; auto).
    destruct GE as [GE ->]. unfold lt. cbn [fst snd]. unfold RepTheory.G, RepTheory.H. replace (if b then nth i gens E else nth i gens E) with (nth i gens E) by (destruct b; reflexivity). rewrite GE, X. replace (if b then 0 else - 0)%Z with 0%Z by (destruct b; reflexivity).
    transitivity (if (p =? 0)%Z then NL (lint 1) else nreduce p (NL (lint 1))); [destruct (p =? 0)%Z; reflexivity|]. apply (red_entry p (NL (lint 1)) Hp). }
  pose proof (one_word n 0 p R gens invs E 1 0 EJ ED EG EI eq_refl HL (expand w) (word_ok_range n w Hw) e) as K. specialize (CA e). rewrite Z.mul_0_l in K. cbn [numcoef]. assert (C1 : chr 1 (esum (expand w)) = 1%Z) by (unfold chr; destruct (Z.even _); reflexivity). rewrite C1 in K. replace (nth (1 * 0 + 0) (mdata A) (NI 0)) with (mentry A 0 0) by (unfold mentry; f_equal; lia).
  destruct K as [x K], CA as [y CA]. exists (x + y)%Z. lia.
Qed.
(** *** two strands, one cup: the exponent sum *)
Lemma two_power w : in_range 2 w -> braid_eq 2 w (wpow [(0, true)] (esum w)).
Proof.
  induction w as [|[i b] w IH]; intros H; [apply be_refl|]. inversion H as [|x y Hi Hw]; subst. cbn [fst] in Hi. assert (i = 0) as -> by lia. eapply be_trans; [apply be_cons; exact (IH Hw)|].
  change (esum ((0, b) :: w)) with ((if b then 1 else -1) + esum w)%Z. assert (R0 : in_range 2 [(0, true)]) by (repeat constructor). eapply be_trans; [|apply be_sym, wpow_add; exact R0].
  change ((0, b) :: wpow [(0, true)] (esum w)) with ([(0, b)] ++ wpow [(0, true)] (esum w)). apply be_app; [|apply be_refl]. destruct b; apply be_refl.
Qed.
Theorem two_strands u w : in_range 2 u -> in_range 2 w -> (braid_eq 2 u w <-> esum u = esum w).
Proof. intros Hu Hw. split; [apply esum_be|]. intros Q. eapply be_trans; [apply two_power; exact Hu|]. rewrite Q. apply be_sym, two_power, Hw. Qed.
(** the image of a word w of B_2 is the 1 by 1 matrix (-1)^s v^(2 s), s the exponent sum *)
Theorem C121_two p R w : jones_rep 2 1 p = Ok R -> word_ok 2 w ->
  rep_dimension R = Ok 1%Z /\ exists A, rep_evaluate_artin_word R w = Ok A /\ square 1 A /\
  forall e, (p | numcoef (mentry A 0 0) e - (if (e =? 2 * esum (expand w))%Z then sgn (esum (expand w)) else 0))%Z.
Proof.
  intros EJ Hw. destruct (jones_rep_ok _ _ _ _ EJ) as (Hn & _ & Hp & Q). assert (ED : rep_dimension R = Ok (Z.of_nat 1)) by now rewrite Q. split; [exact ED|].
  destruct (one_eval 2 1 p R w EJ ED Hw) as (gens & invs & E & A & EG & EI & EA & SA & PA & CA). exists A. split; [exact EA|]. split; [now apply sq_square|]. intros e.
  assert (HL : forall i e, i + 1 < 2 -> neqp p (ent (NI 0) (lt gens invs E (i, e)) 0 0) (NL (mkL (if e : bool then 2 else - (2))%Z [(-1)%Z]))).
  { intros i b Hi'. assert (i = 0) as -> by lia. assert (EG' : jones_gens_invs 2 1 p = Ok (gens, invs)) by (rewrite Q in EG; exact EG). unfold jones_gens_invs in EG'. rewrite burau_cells in EG' by lia.
    change (map (burau_matrix 1 2) (seq 0 (2 - 1))) with [mkM 1 1 [mkL 2 [(-1)%Z]]] in EG'. change (map (burau_matrix (-1) 2) (seq 0 (2 - 1))) with [mkM 1 1 [mkL (-2) [(-1)%Z]]] in EG'. cbn [bind map mat_map mdata mrows mcols] in EG'.
    set (y := NL (mkL (if b then 2 else - (2))%Z [(-1)%Z])). transitivity (if (p =? 0)%Z then y else nreduce p y); [|apply (red_entry p y Hp)]. subst y. unfold lt. cbn [fst snd]. unfold RepTheory.G, RepTheory.H.
    destruct (p =? 0)%Z, b; injection EG' as <- <-; reflexivity. }
  pose proof (one_word 2 1 p R gens invs E (-1) 2 EJ ED EG EI eq_refl HL (expand w) (word_ok_range 2 w Hw) e) as K. specialize (CA e). unfold chr in K. fold (sgn (esum (expand w))) in K. destruct K as [x K], CA as [y CA]. exists (x + y)%Z. lia.
Qed.
(** so modulo every p <> 1 it is faithful *)
Theorem C121_two_faithful p R u w : jones_rep 2 1 p = Ok R -> p <> 1%Z -> word_ok 2 u -> word_ok 2 w ->
  exists A B, rep_evaluate_artin_word R u = Ok A /\ rep_evaluate_artin_word R w = Ok B /\ (mat_congr p A B <-> braid_eq 2 (expand u) (expand w)).
Proof.
  intros EJ P1 Hu Hw. destruct (jones_rep_ok _ _ _ _ EJ) as (_ & _ & Hp & _). destruct (C121_two p R u EJ Hu) as (_ & A & EA & SA & CA). destruct (C121_two p R w EJ Hw) as (_ & B & EB & SB & CB). exists A, B. split; [exact EA|]. split; [exact EB|].
  rewrite two_strands by now apply word_ok_range. apply sq_square in SA, SB. split.
  - intros K. apply pmeq_congr in K. apply (meq_ent (NI 0) (neqp p)) in K; [|apply SA|apply SB]. destruct K as (_ & _ & K). destruct SA as (_ & R1 & C1). specialize (K 0 0 ltac:(lia) ltac:(lia)). apply neqp_congr in K.
    set (s := esum (expand u)) in *. set (t := esum (expand w)) in *. destruct (Z.eq_dec s t) as [|N]; [assumption|]. exfalso. specialize (K (2 * s)%Z). change (ent (NI 0) A 0 0) with (mentry A 0 0) in K. change (ent (NI 0) B 0 0) with (mentry B 0 0) in K. specialize (CA (2 * s)%Z). specialize (CB (2 * s)%Z). rewrite Z.eqb_refl in CA. destruct (Z.eqb_spec (2 * s) (2 * t)) as [X|X]; [lia|].
    destruct K as [x K], CA as [y CA], CB as [z CB]. assert (D : (p | sgn s)%Z) by (exists (x - y + z)%Z; lia). assert (D1 : (p | 1)%Z) by (destruct D as [q D]; unfold sgn in D; destruct (Z.even s); [exists q; lia|exists (- q)%Z; lia]). apply Z.divide_1_r_nonneg in D1; [contradiction|exact Hp].
  - intros Q. apply pmeq_congr. apply (meq_ent (NI 0) (neqp p)); [apply SA|apply SB|]. destruct SA as (_ & R1 & C1), SB as (_ & R2 & C2). split; [congruence|]. split; [congruence|]. intros i j Hi Hj. assert (i = 0) as -> by lia. assert (j = 0) as -> by lia. apply neqp_congr. intros e. change (ent (NI 0) A 0 0) with (mentry A 0 0). change (ent (NI 0) B 0 0) with (mentry B 0 0).
    specialize (CA e). specialize (CB e). rewrite Q in CA. destruct CA as [y CA], CB as [z CB]. exists (y - z)%Z. lia.
Qed.
(** the hypotheses are met: sigma_0 sigma_2^-1 is a braid of four strands that
    JonesCellRep(4, 2) sends to the unit matrix modulo 5, sigma_0 sigma_1^-1 is not *)
Example C121_case : exists R A B, jones_rep 4 2 5 = Ok R /\ rep_evaluate_artin_word R [(0, 1); (2, -1)]%Z = Ok A /\ is_unit_matrix 5 2 A /\ rep_evaluate_artin_word R [(0, 1); (1, -1)]%Z = Ok B /\ ~ is_unit_matrix 5 2 B.
Proof.
  eexists _, _, _. split; [reflexivity|]. split; [vm_compute; reflexivity|]. split.
  { split; [repeat split|]. intros i j Hi Hj k. assert (i = 0 \/ i = 1) as [->| ->] by lia; assert (j = 0 \/ j = 1) as [->| ->] by lia; cbn [Nat.mul Nat.add nth mdata Nat.eqb numcoef lval lcoeffs]; unfold coeff_at.
    all: destruct (Z.eqb_spec k 0) as [->|N]; [exists 0%Z; reflexivity|]. all: destruct (Z.ltb_spec k 0); [exists 0%Z; reflexivity|]. all: destruct (Z.to_nat (k - 0)) as [|[|m]] eqn:X; [lia|exists 0%Z; reflexivity|exists 0%Z; reflexivity]. }
  split; [vm_compute; reflexivity|]. intros [_ K]. specialize (K 0 0 ltac:(lia) ltac:(lia) 2%Z). assert (K2 : (5 | 4)%Z) by exact K. destruct K2 as [x K2]. lia.
Qed.
