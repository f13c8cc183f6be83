(** PropsPower.v – C127: a braid with an image of projective length 1 has a power that is a
    power of the full twist times a kernel element, in every Jones representation. *)
From Verif Require Import Base ModelPoly SpecPoly PolyTheory PropsPoly ModelTL SpecTL PropsTL ModelMatrix SpecMatrix MatrixTheory ModelTLMor TLMorTheory PropsTLMor2 JonesTheory.
From Coq Require Import Ring Setoid Morphisms Factorial.
From Verif Require Import ModelPerm Germ GermNF GermAct GermBraid PermTheory WeakOrder SpecPerm SpecPermTheory PermWords ModelBraid SpecBraid BraidTheory FullTwistBraid FullTwist ModelRep SpecRep NumTheory RepTheory RepCanon PropsRep FullTwistRep PropsPolymat3 PropsTwist SymWords.
From Verif Require Import TableTheory NFApi PermGerm PermTable PropsGNF PropsGNF2 PolyRepTheory PropsTorsion PropsSearch2 BurauForm PropsScalar.
Local Open Scope nat_scope.
#[local] Existing Instance neqp_equiv.
#[local] Existing Instance pmeq_equiv.
Local Notation isid := (MatrixTheory.is_identity (NI 0) (NI 1)).
Local Notation pr := (MatrixTheory.prod (NI 0) nadd nmul).

(** the value at v = 1 *)
Definition at1 (x : num) : Z := L (coerce x) (fun _ => 1%Z).
Lemma at1_neqp p x y : neqp p x y -> (p | at1 x - at1 y)%Z.
Proof. intros [z H]. unfold at1. rewrite (proj1 (leq_L _ _) H). rewrite L_add, L_mul, L_int. exists (L z (fun _ => 1%Z)). cbn. ring. Qed.
Lemma at1_add x y : at1 (nadd x y) = (at1 x + at1 y)%Z.
Proof. unfold at1. rewrite (proj1 (leq_L _ _) (coerce_add x y)). now rewrite L_add. Qed.
Lemma L_const q c : L q (fun _ => c) = (L q (fun _ => 1) * c)%Z.
Proof. unfold L. generalize (lval q) (lcoeffs q). intros v l. revert v. induction l as [|a l IH]; intros v; cbn [lin]; [reflexivity|]. rewrite IH. ring. Qed.
Lemma at1_mul x y : at1 (nmul x y) = (at1 x * at1 y)%Z.
Proof. unfold at1. rewrite (proj1 (leq_L _ _) (coerce_mul x y)). now rewrite L_mul, L_const. Qed.
Lemma at1_vpow e a : at1 (NL (lmul (vpow e) (lint a))) = a.
Proof. unfold at1. cbn [coerce]. rewrite L_mul. unfold vpow. rewrite L_make. cbn [lin]. rewrite L_int. lia. Qed.
Lemma vpow_add a b : leq (lmul (vpow a) (vpow b)) (vpow (a + b)).
Proof. apply leq_L. intros g. unfold vpow. rewrite L_mul, !L_make. cbn [lin]. rewrite !L_make. cbn [lin]. f_equal. ring. Qed.
Lemma lint_lin a x q : leq (lint (a + x * q)) (ladd (lint a) (lmul (lint x) (lint q))).
Proof. apply leq_L. intros g. rewrite L_add, L_mul, !L_int. cbn. ring. Qed.
Lemma lint_opp x : leq (lint (- x)) (lneg (lint x)).
Proof. apply leq_L. intros g. rewrite L_neg, !L_int. ring. Qed.
Fixpoint isum (m : nat) (f : nat -> Z) : Z := match m with 0 => 0%Z | S m => (isum m f + f m)%Z end.
Lemma at1_sum m f : at1 (rsum (NI 0) nadd m f) = isum m (fun k => at1 (f k)).
Proof. induction m as [|m IH]; [reflexivity|]. cbn [rsum isum]. now rewrite at1_add, IH. Qed.
Lemma isum_cong p m f g : (forall k, k < m -> (p | f k - g k)%Z) -> (p | isum m f - isum m g)%Z.
Proof. induction m as [|m IH]; intros H; cbn [isum]; [apply Z.divide_0_r|]. replace (isum m f + f m - (isum m g + g m))%Z with ((isum m f - isum m g) + (f m - g m))%Z by ring. apply Z.divide_add_r; [apply IH; intros; apply H; lia|apply H; lia]. Qed.

Section Rep.
Variables (n r : nat) (p : Z) (R : rep) (d : nat) (gens invs : list (mat num)) (E : mat num).
Hypothesis (EJ : jones_rep n r p = Ok R) (ED : rep_dimension R = Ok (Z.of_nat d)) (EG : rep_artin_gens_invs R = Ok (gens, invs)) (EI : rep_id R = Ok E).
Let MM := M gens invs E.
Definition en (w : bword) (i j : nat) : num := ent (NI 0) (MM w) i j.
Lemma en_be u v i j : braid_eq n u v -> i < d -> j < d -> neqp p (en u i j) (en v i j).
Proof using All.
  intros B Hi Hj. destruct (Mfacts n r p R d gens invs E EJ ED EG EI) as (_ & _ & _ & _ & _ & SM & BM & _). pose proof (BM _ _ B) as K. apply (meq_ent (NI 0) (neqp p)) in K; [|apply SM|apply SM]. destruct (SM u) as (_ & R1 & C1). apply K; congruence.
Qed.
Lemma en_app u v i j : i < d -> j < d -> neqp p (en (u ++ v) i j) (rsum (NI 0) nadd d (fun k => nmul (en u i k) (en v k j))).
Proof using All.
  intros Hi Hj. destruct (Mfacts n r p R d gens invs E EJ ED EG EI) as (_ & _ & _ & _ & _ & SM & _ & PM). pose proof (PM u v) as K. destruct (SM u) as (W1 & R1 & C1). destruct (SM v) as (W2 & R2 & C2).
  apply (meq_ent (NI 0) (neqp p)) in K; [|apply SM|apply prod_wf]. destruct (SM (u ++ v)) as (_ & R3 & C3). unfold en. etransitivity; [apply K; congruence|]. rewrite (prod_e (NI 0) nadd nmul) by congruence. rewrite C1. reflexivity.
Qed.
Lemma en_nil i j : i < d -> j < d -> en [] i j = if i =? j then NI 1 else NI 0.
Proof using All. intros Hi Hj. destruct (Mfacts n r p R d gens invs E EJ ED EG EI) as (_ & _ & _ & _ & (_ & _ & _ & K) & _). unfold en, MM. cbn [M fold_right]. now apply K. Qed.
Lemma en_letter (l i j : nat) : l + 1 < n -> i < d -> j < d -> exists F G : lpoly, forall e, neqp p (en [(l, e)] i j) (NL (ladd F (lmul (cf e) G))).
Proof using All.
  intros Hl Hi Hj. destruct (jones_rep_ok n r p R EJ) as [Hn [Hr [Hp ER]]]. pose proof ED as ED0. pose proof EG as EG0. destruct (Mfacts n r p R d gens invs E EJ ED EG EI) as (_ & _ & _ & _ & HE & _). rewrite ER in ED0, EG0. cbn [rep_dimension rep_artin_gens_invs] in *.
  destruct (C32_cell_basis n r Hr) as [B [EB _]]. pose proof (jones_dim n r B Hr EB) as ED'. rewrite ED0 in ED'. injection ED' as ED'. assert (Ed : d = length B) by lia.
  destruct (C31_gens_invs n) as [gs [hs [Et _]]]. destruct (gens_ok n r p Hr Hp B EB gs hs Et) as [gens' [invs' [EG' [FG [FH _]]]]]. rewrite EG0 in EG'. injection EG' as <- <-.
  rewrite Ed in HE, Hi, Hj.
  exists (ddelta (nth i B (did 0)) (nth j B (did 0))), (EE n l (ddelta (nth i B (did 0))) (nth j B (did 0))). intros e.
  pose proof (Mev n r p Hr Hp B EB gs hs Et gens invs E HE FG FH [(l, e)] ltac:(constructor; [exact Hl|constructor]) i j Hi Hj) as K. unfold en, MM. rewrite K. cbn [ev fold_left]. unfold sgm. cbn [fst snd]. reflexivity.
Qed.
(** equal values at v = 1 *)
Definition V (u v : bword) : Prop := forall i j, i < d -> j < d -> (p | at1 (en u i j) - at1 (en v i j))%Z.
Lemma V_sym u v : V u v -> V v u.
Proof using Type. intros H i j Hi Hj. replace (at1 (en v i j) - at1 (en u i j))%Z with (- (at1 (en u i j) - at1 (en v i j)))%Z by ring. apply Z.divide_opp_r. now apply H. Qed.
Lemma V_trans u v w : V u v -> V v w -> V u w.
Proof using Type. intros H K i j Hi Hj. replace (at1 (en u i j) - at1 (en w i j))%Z with ((at1 (en u i j) - at1 (en v i j)) + (at1 (en v i j) - at1 (en w i j)))%Z by ring. apply Z.divide_add_r; auto. Qed.
Lemma at1_app u v i j : i < d -> j < d -> (p | at1 (en (u ++ v) i j) - isum d (fun k => at1 (en u i k) * at1 (en v k j)))%Z.
Proof using All.
  intros Hi Hj. pose proof (at1_neqp p _ _ (en_app u v i j Hi Hj)) as K. rewrite at1_sum in K. assert (Q : forall m f g, (forall k, f k = g k) -> isum m f = isum m g) by (induction m as [|m IH]; intros f g H; cbn [isum]; [reflexivity|]; now rewrite (IH f g H), H).
  now rewrite (Q d _ (fun k => at1 (en u i k) * at1 (en v k j))%Z (fun k => at1_mul _ _)) in K.
Qed.
Lemma V_app u u' v v' : V u u' -> V v v' -> V (u ++ v) (u' ++ v').
Proof using All.
  intros H K i j Hi Hj. pose proof (at1_app u v i j Hi Hj) as A. pose proof (at1_app u' v' i j Hi Hj) as B.
  assert (C : (p | isum d (fun k => at1 (en u i k) * at1 (en v k j)) - isum d (fun k => at1 (en u' i k) * at1 (en v' k j)))%Z).
  { apply isum_cong. intros k Hk. pose proof (H i k Hi Hk) as [x X]. pose proof (K k j Hk Hj) as [y Y]. exists (x * at1 (en v k j) + at1 (en u' i k) * y)%Z. transitivity ((at1 (en u i k) - at1 (en u' i k)) * at1 (en v k j) + at1 (en u' i k) * (at1 (en v k j) - at1 (en v' k j)))%Z; [ring|]. rewrite X, Y. ring. }
  destruct A as [a A], B as [b B], C as [c C]. exists (a + c - b)%Z. lia.
Qed.
Lemma V_be u v : braid_eq n u v -> V u v.
Proof using All. intros B i j Hi Hj. apply at1_neqp. now apply en_be. Qed.
Lemma V_flip i : i + 1 < n -> V [(i, true)] [(i, false)].
Proof using All.
  intros Hi a b Ha Hb. destruct (en_letter i a b Hi Ha Hb) as (F & G & K). pose proof (at1_neqp p _ _ (K true)) as K1. pose proof (at1_neqp p _ _ (K false)) as K2.
  assert (Q : at1 (NL (ladd F (lmul (cf true) G))) = at1 (NL (ladd F (lmul (cf false) G)))).
  { unfold at1. cbn [coerce cf]. rewrite !L_add, !L_mul. f_equal. }
  rewrite Q in K1. destruct K1 as [x X], K2 as [y Y]. exists (x - y)%Z. lia.
Qed.
Lemma V_torsion w : in_range n w -> exists k, 0 < k <= fact n /\ V (concat (repeat w k)) [].
Proof using All. exact (S_torsion n V V_sym V_trans V_app V_be V_flip w). Qed.
(** homogeneous images *)
Definition homog (w : bword) (e : Z) : Prop := forall i j, i < d -> j < d -> neqp p (en w i j) (NL (lmul (vpow e) (lint (at1 (en w i j))))).
Lemma homog_intro w e : (forall i j, i < d -> j < d -> exists a, neqp p (en w i j) (NL (lmul (vpow e) (lint a)))) -> homog w e.
Proof using Type.
  intros H i j Hi Hj. destruct (H i j Hi Hj) as [a K]. rewrite K at 1. pose proof (at1_neqp p _ _ K) as [x X]. rewrite at1_vpow in X. exists (lmul (vpow e) (lint (- x))). cbn [coerce].
  replace (at1 (en w i j)) with (a + x * p)%Z by lia. rewrite lint_lin, lint_opp. ring.
Qed.
Lemma homog_app u v e f : homog u e -> homog v f -> homog (u ++ v) (e + f).
Proof using All.
  intros H K. apply homog_intro. intros i j Hi Hj. exists (isum d (fun k => at1 (en u i k) * at1 (en v k j))%Z). rewrite (en_app u v i j Hi Hj).
  assert (Q : forall m, m <= d -> neqp p (rsum (NI 0) nadd m (fun k => nmul (en u i k) (en v k j))) (NL (lmul (vpow (e + f)) (lint (isum m (fun k => at1 (en u i k) * at1 (en v k j))%Z))))).
  { induction m as [|m IH]; intros Hm; cbn [rsum isum]; [exists (lint 0); cbn [coerce]; ring|].
    destruct (IH ltac:(lia)) as [z Z]. destruct (H i m Hi ltac:(lia)) as [x X]. destruct (K m j ltac:(lia) Hj) as [y Y]. cbn [coerce] in Z, X, Y. set (a := at1 (en u i m)) in *. set (b := at1 (en v m j)) in *. set (q := isum m _) in *.
    exists (ladd z (ladd (ladd (lmul (lmul (vpow e) (lint a)) y) (lmul x (lmul (vpow f) (lint b)))) (lmul (lint p) (lmul x y)))). rewrite coerce_add, coerce_mul, Z, X, Y. cbn [coerce]. rewrite <- vpow_add.
    assert (A1 : leq (lint (q + a * b)) (ladd (lint q) (lmul (lint a) (lint b)))) by apply lint_lin. rewrite A1. ring. }
  apply Q. lia.
Qed.
Lemma homog_nil : homog [] 0.
Proof using All. apply homog_intro. intros i j Hi Hj. exists (if i =? j then 1%Z else 0%Z). rewrite en_nil by auto. apply neq_neqp. unfold NumTheory.neq. cbn [coerce]. destruct (i =? j); reflexivity. Qed.
Lemma homog_pow w e k : homog w e -> homog (concat (repeat w k)) (Z.of_nat k * e).
Proof using All. intros H. induction k as [|k IH]; [exact homog_nil|]. cbn [repeat concat]. replace (Z.of_nat (S k) * e)%Z with (e + Z.of_nat k * e)%Z by lia. now apply homog_app. Qed.
(** scalar images *)
Definition scal (w : bword) (e : Z) : Prop := forall i j, i < d -> j < d -> neqp p (en w i j) (NL (if i =? j then vpow e else lint 0)).
Lemma scal_homog w e : homog w e -> V w [] -> scal w e.
Proof using All.
  intros H K i j Hi Hj. rewrite (H i j Hi Hj). destruct (K i j Hi Hj) as [x X]. rewrite (en_nil i j) in X by auto. exists (lmul (vpow e) (lint x)). cbn [coerce]. set (a := at1 (en w i j)) in *.
  destruct (i =? j); [change (at1 (NI 1)) with 1%Z in X; replace a with (1 + x * p)%Z by lia|change (at1 (NI 0)) with 0%Z in X; replace a with (0 + x * p)%Z by lia]; rewrite lint_lin; ring.
Qed.
Lemma scal_mul u v e i j : scal u e -> i < d -> j < d -> neqp p (en (u ++ v) i j) (nmul (NL (vpow e)) (en v i j)).
Proof using All.
  intros H Hi Hj. rewrite (en_app u v i j Hi Hj). transitivity (rsum (NI 0) nadd d (fun k => nmul (if i =? k then NI 1 else NI 0) (nmul (NL (vpow e)) (en v k j)))).
  - apply (rsum_ext (NI 0) nadd nmul nneg (neqp p) _ (nringp_ext p)). intros k Hk. destruct (H i k Hi Hk) as [z K]. exists (lmul z (coerce (en v k j))). rewrite !coerce_mul, K. destruct (i =? k); cbn [coerce]; ring.
  - apply (rsum_delta (NI 0) (NI 1) nadd nmul nsub nneg (neqp p) _ (nringp_ext p) (nringp p) d i (fun k => nmul (NL (vpow e)) (en v k j)) Hi).
Qed.
Lemma scal_app u v e f : scal u e -> scal v f -> scal (u ++ v) (e + f).
Proof using All.
  intros H K i j Hi Hj. rewrite (scal_mul u v e i j H Hi Hj). destruct (K i j Hi Hj) as [z Z]. exists (lmul (vpow e) z). rewrite coerce_mul, Z. cbn [coerce]. destruct (i =? j); [rewrite <- vpow_add|]; ring.
Qed.
Lemma scal_be u v e : braid_eq n u v -> scal u e -> scal v e.
Proof using All. intros B H i j Hi Hj. rewrite <- (H i j Hi Hj). symmetry. now apply en_be. Qed.
Lemma scal_nil : scal [] 0.
Proof using All. intros i j Hi Hj. rewrite en_nil by auto. apply neq_neqp. unfold NumTheory.neq. cbn [coerce]. destruct (i =? j); reflexivity. Qed.
Lemma scal_inv u e : in_range n u -> scal u e -> scal (winv u) (- e).
Proof using All.
  intros Ru H i j Hi Hj. pose proof (scal_mul u (winv u) e i j H Hi Hj) as K. assert (Q : neqp p (en (u ++ winv u) i j) (en [] i j)) by (apply en_be; auto; now apply be_inv_r). rewrite Q in K. rewrite en_nil in K by auto. destruct K as [z K]. rewrite coerce_mul in K. cbn [coerce] in K.
  exists (lneg (lmul (vpow (- e)) z)). set (x := coerce (en (winv u) i j)) in *. cbn [coerce].
  assert (V1 : leq (lmul (vpow (- e)) (vpow e)) (lint 1)) by (rewrite vpow_add; replace (- e + e)%Z with 0%Z by lia; reflexivity).
  transitivity (lmul (lmul (vpow (- e)) (vpow e)) x); [rewrite V1; ring|]. transitivity (lmul (vpow (- e)) (lsub (coerce (if i =? j then NI 1 else NI 0)) (lmul (lint p) z))); [rewrite K; ring|]. destruct (i =? j); cbn [coerce]; ring.
Qed.
Lemma scal_pow u e k : in_range n u -> scal u e -> scal (wpow u k) (k * e).
Proof using All.
  intros Ru H. assert (P : forall w f m, scal w f -> scal (concat (repeat w m)) (Z.of_nat m * f)). { intros w f m K. induction m as [|m IH]; [exact scal_nil|]. cbn [repeat concat]. replace (Z.of_nat (S m) * f)%Z with (f + Z.of_nat m * f)%Z by lia. now apply scal_app. }
  unfold wpow. destruct (Z.leb_spec 0 k).
  - replace k with (Z.of_nat (Z.to_nat k)) at 2 by lia. now apply P.
  - replace (k * e)%Z with (Z.of_nat (Z.to_nat (- k)) * - e)%Z by (rewrite Z2Nat.id by lia; ring). apply P. now apply scal_inv.
Qed.
Lemma scal_twist : scal (FTw n) (Z.of_nat (2 * r * (n - r + 1))).
Proof using All. intros i j Hi Hj. destruct (Mfacts n r p R d gens invs E EJ ED EG EI) as (_ & _ & _ & _ & HE & _). now apply (twist_R n r p R d gens invs E EJ ED EG HE). Qed.
Lemma scal_unit w X : scal w 0 -> sq d X -> pmeq p X (MM w) -> is_unit_matrix p d X.
Proof using All.
  intros H SX PX. destruct (Mfacts n r p R d gens invs E EJ ED EG EI) as (_ & _ & _ & _ & HE & SM & _). apply (unit_of_pmeq p d X E HE SX). transitivity (MM w); [exact PX|].
  apply (meq_ent (NI 0) (neqp p)); [apply SM|apply (isid_sq d E HE)|]. destruct (SM w) as (W & R1 & C1). destruct (isid_sq d E HE) as (_ & R2 & C2). unfold MM. split; [congruence|]. split; [congruence|]. rewrite R1, C1. intros i j Hi Hj. destruct HE as (_ & _ & _ & KE). rewrite (KE i j Hi Hj). fold MM. change (ent (NI 0) (MM w) i j) with (en w i j). rewrite (H i j Hi Hj). apply neq_neqp. unfold NumTheory.neq. destruct (i =? j); reflexivity.
Qed.
(** near the kernel *)
Lemma near_homog X w : sq d X -> pmeq p X (MM w) -> near_kernel p d X -> exists e, homog w e.
Proof using All.
  intros SX PX (e & H & _). exists e. apply homog_intro. intros i j Hi Hj. exists (numcoef (mentry X i j) e). destruct (Mfacts n r p R d gens invs E EJ ED EG EI) as (_ & _ & _ & _ & _ & SM & _).
  apply (meq_ent (NI 0) (neqp p)) in PX; [|apply SX|apply SM]. destruct SX as (_ & R1 & C1). destruct PX as (_ & _ & PX). specialize (PX i j ltac:(congruence) ltac:(congruence)). unfold en. rewrite <- PX. change (ent (NI 0) X i j) with (mentry X i j). set (x := mentry X i j) in *.
  apply neqp_congr. intros k. specialize (H i j k Hi Hj). fold x in H. replace (numcoef (NL (lmul (vpow e) (lint (numcoef x e)))) k) with (if (k =? e)%Z then numcoef x e else 0%Z).
  - destruct (Z.eqb_spec k e) as [->|N]; [rewrite Z.sub_diag; apply Z.divide_0_r|]. rewrite Z.sub_0_r. now apply H.
  - generalize (numcoef x e). intros a. rewrite numcoef_coerce. cbn [coerce]. rewrite coef_L, L_mul. unfold vpow. rewrite L_make. cbn [lin]. rewrite L_int. unfold delta. destruct (Z.eqb_spec k e) as [->|N]; match goal with |- context [(?a =? ?b)%Z] => destruct (Z.eqb_spec a b) end; try lia; ring.
Qed.
Lemma wpow_nat u k : wpow u (Z.of_nat k) = concat (repeat u k).
Proof using Type. unfold wpow. rewrite (proj2 (Z.leb_le 0 (Z.of_nat k))) by lia. now rewrite Nat2Z.id. Qed.
(** the word of the kernel element: f = 2 r (n - r + 1), the (k f)-th power and the full twists *)
Lemma near_power X w : in_range n w -> sq d X -> pmeq p X (MM w) -> near_kernel p d X -> exists k c, 0 < k <= fact n /\ scal (wpow (FTw n) c ++ wpow w (Z.of_nat k * Z.of_nat (2 * r * (n - r + 1)))) 0.
Proof using All.
  intros Rw SX PX NK. destruct (near_homog X w SX PX NK) as [e H]. destruct (V_torsion w Rw) as (k & Hk & T). set (f := Z.of_nat (2 * r * (n - r + 1))). exists k, (- (Z.of_nat k * e))%Z. split; [exact Hk|].
  assert (SW : scal (wpow w (Z.of_nat k)) (Z.of_nat k * e)) by (rewrite wpow_nat; apply scal_homog; [now apply homog_pow|exact T]).
  assert (SW2 : scal (wpow w (Z.of_nat k * f)) (f * (Z.of_nat k * e))).
  { apply (scal_be (wpow (wpow w (Z.of_nat k)) f)); [now apply wpow_nest|]. apply scal_pow; [|exact SW]. rewrite wpow_nat. now apply pow_range. }
  replace 0%Z with (- (Z.of_nat k * e) * f + f * (Z.of_nat k * e))%Z by ring. apply scal_app; [|exact SW2]. apply scal_pow; [apply FTw_range|exact scal_twist].
Qed.
End Rep.

(** C127.  In the representation JonesCellRep(n, r) with r >= 1, modulo any p: if the
    matrix of a braid b is, modulo p, v^e times a matrix of constants (it has projective
    length 1), then some positive power of b, times an even power of the Garside
    element, is in the kernel.  The exponent is at most n! times the exponent of v in the
    image of the full twist. *)
Theorem C127_power n r p tb R d b X : 2 <= n -> gnf_table n tb -> jones_rep n r p = Ok R -> 1 <= r -> rep_dimension R = Ok (Z.of_nat d) -> nf_value tb n b -> rep_evaluate_nf tb R b = Ok X -> near_kernel p d X ->
  exists k c D bk g Y, (0 < k <= Z.of_nat (fact n * (2 * r * (n - r + 1))))%Z /\ nf_pow tb b k = Ok bk /\ from_gnf_pair tb n (2 * c) [] = Ok D /\ nf_mul tb D bk = Ok g /\ nf_value tb n g /\ rep_evaluate_nf tb R g = Ok Y /\ is_unit_matrix p d Y.
Proof.
  intros n2 Ht EJ Hr1 ED Vb EX NK. pose proof (gnf_table_ptab n tb Ht) as Etb. pose proof (ptab_ok n n2) as TK.
  destruct (api_word _ _ _ _ _ _ _ _ _ TK tb Etb b Vb) as (u & Eu & Hu & _ & Db). pose proof (word_ok_range n u Hu) as Ru. set (w := expand u) in *.
  destruct (eval_word n r p R tb b w n2 Ht EJ Db) as (d' & gens & invs & E & X' & ED' & EG & EI & EX' & SX & PX). rewrite ED in ED'. injection ED' as ED'. apply Nat2Z.inj in ED'. subst d'. rewrite EX in EX'. injection EX' as <-.
  destruct (near_power n r p R d gens invs E EJ ED EG EI X w Ru SX PX NK) as (k & c & Hk & SC). set (f := 2 * r * (n - r + 1)) in *. destruct (jones_rep_ok n r p R EJ) as (_ & Hr & _).
  assert (F0 : 1 <= f) by (unfold f; nia).
  destruct (api_pow _ _ _ _ _ _ _ _ _ TK tb Etb b w (Z.of_nat k * Z.of_nat f) Db) as (bk & Ebk & Dbk).
  set (Dw := pword (Dl 0 (n - 1))). assert (LD : lifts n (rev (seq 0 n)) Dw) by (apply delta_lifts; lia).
  destruct (C48_from_gnf_pair n tb (2 * c) [] [] Dw n2 Ht ltac:(constructor) ltac:(constructor) LD) as (D & EqD & DD). cbn [concat] in DD. rewrite app_nil_r in DD.
  destruct (api_mul _ _ _ _ _ _ _ _ _ TK tb Etb D bk _ _ DD Dbk) as (g & Eg & Dg).
  destruct (eval_word n r p R tb g _ n2 Ht EJ Dg) as (d' & gens' & invs' & E' & Y & ED' & EG' & EI' & EY & SY & PY). rewrite ED in ED'. injection ED' as ED'. apply Nat2Z.inj in ED'. subst d'. rewrite EG in EG'. injection EG' as <- <-. rewrite EI in EI'. injection EI' as <-.
  exists (Z.of_nat k * Z.of_nat f)%Z, c, D, bk, g, Y. split; [split; nia|]. split; [exact Ebk|]. split; [exact EqD|]. split; [exact Eg|]. split; [exact (proj1 Dg)|]. split; [exact EY|].
  apply (scal_unit n r p R d gens invs E EJ ED EG EI (wpow Dw (2 * c) ++ wpow w (Z.of_nat k * Z.of_nat f)) Y); [|exact SY|exact PY].
  apply (scal_be n r p R d gens invs E EJ ED EG EI (wpow (FTw n) c ++ wpow w (Z.of_nat k * Z.of_nat f))); [|exact SC]. apply be_app; [|apply be_refl]. change (FTw n) with (Dw ++ Dw). rewrite <- (wpow_nest n Dw 2 c) by now apply Dw_range. apply wpow_mor. change (wpow Dw 2) with (Dw ++ Dw ++ []). rewrite app_nil_r. apply be_refl.
Qed.

(** a braid is periodic if one of its positive powers is an even power of the Garside element *)
Definition periodic (tb : nat -> res (nftable (list nat))) (n : nat) (b : nfobj) : Prop :=
  exists k c bk, (0 < k)%Z /\ nf_pow tb b k = Ok bk /\ from_gnf_pair tb n (2 * c) [] = Ok bk.
(** so a braid that is not periodic and has projective length 1 yields a kernel element other
    than the identity *)
Theorem C127_not_faithful n r p tb R d b X : 2 <= n -> gnf_table n tb -> jones_rep n r p = Ok R -> 1 <= r -> rep_dimension R = Ok (Z.of_nat d) -> nf_value tb n b -> rep_evaluate_nf tb R b = Ok X -> near_kernel p d X -> ~ periodic tb n b ->
  exists g Y e, nf_value tb n g /\ rep_evaluate_nf tb R g = Ok Y /\ is_unit_matrix p d Y /\ nf_identity tb n = Ok e /\ g <> e.
Proof.
  intros n2 Ht EJ Hr1 ED Vb EX NK NP. destruct (C127_power n r p tb R d b X n2 Ht EJ Hr1 ED Vb EX NK) as (k & c & D & bk & g & Y & [Hk _] & Ebk & EqD & Eg & Vg & EY & UY).
  pose proof (gnf_table_ptab n tb Ht) as Etb. pose proof (ptab_ok n n2) as TK. destruct (api_id _ _ _ _ _ _ _ _ _ TK tb Etb) as (e & Ee & De). exists g, Y, e. do 4 (split; [assumption|]). intros ->. apply NP.
  set (Dw := pword (Dl 0 (n - 1))). assert (LD : lifts n (rev (seq 0 n)) Dw) by (apply delta_lifts; lia).
  destruct (C48_from_gnf_pair n tb (2 * c) [] [] Dw n2 Ht ltac:(constructor) ltac:(constructor) LD) as (D' & EqD' & DD). rewrite EqD in EqD'. injection EqD' as <-. cbn [concat] in DD. rewrite app_nil_r in DD.
  destruct (C48_from_gnf_pair n tb (2 * - c) [] [] Dw n2 Ht ltac:(constructor) ltac:(constructor) LD) as (Di & EqDi & DDi). cbn [concat] in DDi. rewrite app_nil_r in DDi.
  exists k, (- c)%Z, bk. split; [exact Hk|]. split; [exact Ebk|]. rewrite EqDi. f_equal.
  destruct (api_word _ _ _ _ _ _ _ _ _ TK tb Etb b Vb) as (u & Eu & Hu & _ & Db). destruct (api_pow _ _ _ _ _ _ _ _ _ TK tb Etb b _ k Db) as (bk' & Ebk' & Dbk). rewrite Ebk in Ebk'. injection Ebk' as <-.
  destruct (api_mul _ _ _ _ _ _ _ _ _ TK tb Etb D bk _ _ DD Dbk) as (g' & Eg' & Dg). rewrite Eg in Eg'. injection Eg' as <-.
  apply (api_eq _ _ _ _ _ _ _ _ _ TK tb Etb Di bk _ _ DDi Dbk). pose proof (proj1 (api_eq _ _ _ _ _ _ _ _ _ TK tb Etb e e _ _ Dg De) eq_refl) as Q. pose proof (Dw_range n n2) as RD. fold Dw in RD.
  assert (Q2 : braid_eq n (wpow Dw (2 * - c) ++ wpow Dw (2 * c) ++ wpow (expand u) k) (wpow Dw (2 * - c) ++ [])) by (apply be_app; [apply be_refl|exact Q]). rewrite app_nil_r in Q2. rewrite <- Q2, app_assoc, <- (wpow_add n) by exact RD. replace (2 * - c + 2 * c)%Z with 0%Z by lia. rewrite wpow_0. apply be_refl.
Qed.
