(** BurauWords.v – the coefficients of the Burau image of a word, letter by letter. *)
From Verif Require Import Base ModelPoly SpecPoly PolyTheory PropsPoly ModelMatrix SpecMatrix MatrixTheory NumTheory PropsPolymat3.
From Coq Require Import Ring Setoid Morphisms.
From Verif Require Import ModelPerm Germ GermNF GermAct GermBraid PermTheory WeakOrder PermWords SpecBraid BraidTheory ModelBraid ModelTL ModelTLMor ModelRep SpecRep RepTheory RepCanon PropsRep TableTheory NFApi SpecPerm PermGerm PermTable PropsGNF PropsGNF2 PolyRepTheory BurauThree PropsBurau.
Local Open Scope nat_scope.
#[local] Existing Instance neqp_equiv.
#[local] Existing Instance pmeq_equiv.

Fixpoint zsum (d : nat) (f : nat -> Z) : Z := match d with 0 => 0%Z | S d' => (zsum d' f + f d')%Z end.
Lemma numcoef_0 e : numcoef (NI 0) e = 0%Z. Proof. cbn. destruct (e =? 0)%Z; reflexivity. Qed.
Lemma zsum_zero d f : (forall k, k < d -> f k = 0%Z) -> zsum d f = 0%Z.
Proof. induction d as [|d IH]; intros H; [reflexivity|]. cbn [zsum]. rewrite IH, H by (intros; try apply H; lia). reflexivity. Qed.
Lemma zsum_one d f a : a < d -> (forall k, k < d -> k <> a -> f k = 0%Z) -> zsum d f = f a.
Proof.
  induction d as [|d IH]; intros Ha H; [lia|]. cbn [zsum]. destruct (Nat.eq_dec a d) as [->|N].
  - rewrite zsum_zero; [lia|]. intros k Hk. apply H; lia.
  - rewrite IH, (H d) by (intros; try apply H; lia). lia.
Qed.
Lemma zsum_two d f a b : a < d -> b < d -> a <> b -> (forall k, k < d -> k <> a -> k <> b -> f k = 0%Z) -> zsum d f = (f a + f b)%Z.
Proof.
  induction d as [|d IH]; intros Ha Hb N H; [lia|]. cbn [zsum]. destruct (Nat.eq_dec a d) as [->|Na]; [|destruct (Nat.eq_dec b d) as [->|Nb]].
  - rewrite (zsum_one d f b); [lia|lia|]. intros k Hk Q. apply H; lia.
  - rewrite (zsum_one d f a); [lia|lia|]. intros k Hk Q. apply H; lia.
  - rewrite IH, (H d) by (intros; try apply H; lia). lia.
Qed.
Lemma numcoef_rsum d f e : numcoef (rsum (NI 0) nadd d f) e = zsum d (fun k => numcoef (f k) e).
Proof. induction d as [|d IH]; [apply numcoef_0|]. cbn [rsum zsum]. rewrite numcoef_nadd, IH. reflexivity. Qed.
(** multiplying by one entry of a Burau matrix *)
Lemma mul_entry x sg s i j e : numcoef (nmul x (NL (burau_entry sg s i j))) e =
  if i =? s then (if j =? s then (- numcoef x (e - 2 * sg))%Z else if (j =? s + 1) || (j + 1 =? s) then (- numcoef x (e - sg))%Z else 0%Z) else if i =? j then numcoef x e else 0%Z.
Proof.
  unfold burau_entry. destruct (i =? s); [destruct (j =? s); [|destruct ((j =? s + 1) || (j + 1 =? s))]|destruct (i =? j)]; rewrite ?mono, ?mono0; try lia. rewrite Z.sub_0_r. lia.
Qed.

Section Words.
Variables (n : nat) (p : Z) (R : rep) (gens invs : list (mat num)) (E : mat num).
Hypothesis (EJ : jones_rep n 1 p = Ok R) (EG : rep_artin_gens_invs R = Ok (gens, invs)) (EI : rep_id R = Ok E).
Lemma strands2 : 2 <= n. Proof using EJ. destruct (jones_rep_ok n 1 p R EJ) as (_ & Hr & _). lia. Qed.
Lemma burau_dim : rep_dimension R = Ok (Z.of_nat (n - 1)).
Proof using EJ.
  pose proof strands2 as Hn. destruct (jones_rep_ok n 1 p R EJ) as (_ & _ & _ & ER). rewrite ER. cbn [rep_dimension]. unfold jones_dimension. cbn [Nat.eqb]. f_equal. rewrite TLBurau.comb_1. replace (1 - 1) with 0 by lia. replace (comb n 0) with 1 by (destruct n; reflexivity). lia.
Qed.
Lemma burau_gens : Forall2 (pmeq p) gens (map (fun k => mat_map NL (burau_matrix 1 n k)) (seq 0 (n - 1))) /\ Forall2 (pmeq p) invs (map (fun k => mat_map NL (burau_matrix (-1) n k)) (seq 0 (n - 1))).
Proof using EJ EG.
  pose proof strands2 as Hn. destruct (jones_rep_ok n 1 p R EJ) as (_ & _ & Hp & ER). rewrite ER in EG. cbn [rep_artin_gens_invs] in EG. unfold jones_gens_invs in EG. rewrite burau_cells in EG by exact Hn. cbn [bind] in EG.
  assert (K : forall f l, Forall2 (pmeq p) (if (p =? 0)%Z then map (mat_map NL) (map f l) else map (mat_map (nreduce p)) (map (mat_map NL) (map f l))) (map (fun k : nat => mat_map NL (f k)) l)).
  { intros f l. destruct (Z.eqb_spec p 0) as [P0|P0]; induction l as [|k l IH]; cbn [map]; constructor; auto; [reflexivity|]. apply map_reduce_pmeq. lia. }
  pose proof (K (burau_matrix 1 n) (seq 0 (n - 1))) as K1. pose proof (K (burau_matrix (-1) n) (seq 0 (n - 1))) as K2. clear K. destruct (p =? 0)%Z; injection EG as <- <-; auto.
Qed.
Definition sgn (b : bool) : Z := if b then 1%Z else (-1)%Z.
Lemma letter_burau s b : s + 1 < n -> pmeq p (M gens invs E [(s, b)]) (mat_map NL (burau_matrix (sgn b) n s)).
Proof using EJ EG EI.
  intros Hs. destruct (Mfacts n 1 p R (n - 1) gens invs E EJ burau_dim EG EI) as (_ & _ & Hp & _ & HE & SM & BM & PM). destruct burau_gens as [F1 F2].
  assert (Q : forall l f, Forall2 (pmeq p) l (map f (seq 0 (n - 1))) -> pmeq p (nth s l E) (f s)).
  { intros l f F. assert (L : length l = n - 1) by (apply Forall2_length' in F; now rewrite map_length, seq_length in F). destruct (nth_error l s) as [g|] eqn:Eg; [|apply nth_error_None in Eg; lia].
    destruct (PropsTLMor2.Forall2_nth_error (pmeq p) _ _ F s g Eg) as (h & Eh & K). rewrite nth_error_map in Eh. rewrite (nth_error_nth' _ 0) in Eh by (rewrite seq_length; lia). rewrite seq_nth in Eh by lia. injection Eh as <-. apply (nth_error_nth _ _ E) in Eg. rewrite Eg. exact K. }
  pose proof (lsq_NL (n - 1) _ (burau_lsq (sgn b) n s)) as SB.
  assert (K : pmeq p (lt gens invs E (s, b)) (mat_map NL (burau_matrix (sgn b) n s))). { unfold lt. cbn [fst snd]. destruct b; [unfold G|unfold H]; [apply (Q gens _ F1)|apply (Q invs _ F2)]. }
  cbn [M fold_right]. etransitivity; [|exact K]. apply (pr_id_r p (n - 1)); [exact HE|]. destruct K as (R1 & R2 & R3). destruct SB as (W & R4 & C4). split; [|split; congruence]. unfold mwf in *. rewrite R1, R2. apply Forall2_length' in R3. congruence.
Qed.
(** the coefficient of v^e in entry (i, j) of the image of a word *)
Definition cw (w : bword) (i j : nat) (e : Z) : Z := numcoef (mentry (M gens invs E w) i j) e.
Lemma cw_step w s b i j e : s + 1 < n -> i < n - 1 -> j < n - 1 ->
  (p | cw (w ++ [(s, b)]) i j e - (if (j =? s)%nat then - cw w i s (e - 2 * sgn b) else cw w i j e - (if ((j =? s + 1) || (j + 1 =? s))%nat then cw w i s (e - sgn b) else 0)))%Z.
Proof using EJ EG EI.
  intros Hs Hi Hj. destruct (Mfacts n 1 p R (n - 1) gens invs E EJ burau_dim EG EI) as (_ & _ & Hp & _ & HE & SM & BM & PM).
  set (B := mat_map NL (burau_matrix (sgn b) n s)). pose proof (burau_lsq (sgn b) n s) as LB. assert (SB : sq (n - 1) B) by now apply lsq_NL.
  assert (K : pmeq p (M gens invs E (w ++ [(s, b)])) (prod (NI 0) nadd nmul (M gens invs E w) B)). { etransitivity; [apply PM|]. apply (pr_meq p (n - 1)); auto; [reflexivity|now apply letter_burau]. }
  apply (meq_ent (NI 0) (neqp p)) in K; [|apply SM|apply prod_wf]. destruct K as (_ & _ & K). destruct (SM w) as (_ & R1 & C1). destruct (SM (w ++ [(s, b)])) as (_ & R2 & C2). destruct SB as (_ & R3 & C3). specialize (K i j ltac:(lia) ltac:(lia)). rewrite prod_e in K by lia. rewrite C1 in K.
  apply neqp_congr in K. specialize (K e). rewrite numcoef_rsum in K.
  assert (EN : forall k, k < n - 1 -> ent (NI 0) B k j = NL (burau_entry (sgn b) s k j)). { intros k Hk. unfold B. rewrite (ent_NL (n - 1)) by auto. now rewrite burau_ent by lia. }
  assert (ZE : forall f, zsum (n - 1) f = zsum (n - 1) f) by reflexivity. clear ZE.
  assert (Q : forall k, k < n - 1 -> numcoef (nmul (ent (NI 0) (M gens invs E w) i k) (ent (NI 0) B k j)) e = if k =? s then (if j =? s then (- cw w i k (e - 2 * sgn b))%Z else if (j =? s + 1) || (j + 1 =? s) then (- cw w i k (e - sgn b))%Z else 0%Z) else if k =? j then cw w i k e else 0%Z).
  { intros k Hk. rewrite EN by exact Hk. rewrite mul_entry. reflexivity. }
  change (numcoef (ent (NI 0) (M gens invs E (w ++ [(s, b)])) i j) e) with (cw (w ++ [(s, b)]) i j e) in K.
  refine (eq_ind _ (fun z => (p | z)%Z) K _ _). f_equal. destruct (Nat.eqb_spec j s) as [->|N].
  - rewrite (zsum_one _ _ s); [rewrite Q by lia; rewrite Nat.eqb_refl; reflexivity|lia|]. intros k Hk Nk. rewrite Q by lia. destruct (Nat.eqb_spec k s); [contradiction|reflexivity].
  - rewrite (zsum_two _ _ j s); [|lia|lia|exact N|].
    + rewrite !Q by lia. rewrite !Nat.eqb_refl. destruct (Nat.eqb_spec j s); [contradiction|]. destruct ((j =? s + 1) || (j + 1 =? s)); lia.
    + intros k Hk N1 N2. rewrite Q by lia. destruct (Nat.eqb_spec k s); [contradiction|]. destruct (Nat.eqb_spec k j); [contradiction|reflexivity].
Qed.
Lemma cw_nil i j e : i < n - 1 -> j < n - 1 -> cw [] i j e = if (i =? j)%nat && (e =? 0)%Z then 1%Z else 0%Z.
Proof using EJ EG EI.
  intros Hi Hj. destruct (Mfacts n 1 p R (n - 1) gens invs E EJ burau_dim EG EI) as (_ & _ & _ & _ & HE & _). destruct HE as (_ & _ & _ & K). specialize (K i j Hi Hj). unfold cw. cbn [M fold_right]. change (ent (NI 0) E i j) with (mentry E i j) in K. rewrite K. destruct (i =? j); cbn [andb]; cbn; destruct (e =? 0)%Z; reflexivity.
Qed.
End Words.
