(** PolyRepTheory.v – arrays of polynomial matrices as images of matrices of
    Python numbers, up to a power of v and modulo p. *)
From Verif Require Import Base ModelPoly SpecPoly PolyTheory PropsPoly ModelMatrix SpecMatrix MatrixTheory NumTheory ModelPolymat SpecPolymat PolymatTheory PropsPolymat PropsPolymat2 PropsPolymat3.
From Coq Require Import Ring Setoid Morphisms.
From Verif Require Import ModelPerm SpecBraid BraidTheory FullTwistBraid FullTwist ModelBraid ModelTL ModelTLMor ModelRep SpecRep RepTheory RepCanon PropsRep PropsTwist ModelPolyRep TableTheory PropsGNF.
Local Open Scope nat_scope.
#[local] Existing Instance neqp_equiv.
#[local] Existing Instance pmeq_equiv.
Local Notation pr := (MatrixTheory.prod (NI 0) nadd nmul).

(** ** the specification: the matrix at the index [idx] of the batch A is X divided
    by some power v^s, modulo p *)
Definition agrees (p : Z) (d : nat) (X : mat num) (A : parr) (idx : list nat) : Prop :=
  exists s : Z, forall i j e, i < d -> j < d ->
    (p | numcoef (mentry X i j) e - (if e <? s then 0 else acoef A idx i j (Z.to_nat (e - s))))%Z.

Definition apol (A : parr) (idx : list nat) (i j : nat) : lpoly := lpoly_make 0 (map (acoef A idx i j) (seq 0 (aD A))).
Lemma apol_coef A idx i j k : coef (apol A idx i j) k = if (k <? 0)%Z then 0%Z else acoef A idx i j (Z.to_nat k).
Proof.
  unfold apol. rewrite coef_make. unfold coeff_at. destruct (Z.ltb_spec k 0) as [H|H]; [reflexivity|]. rewrite Z.sub_0_r.
  destruct (Nat.lt_ge_cases (Z.to_nat k) (aD A)) as [K|K].
  - apply (nth_map_seq (acoef A idx i j)). exact K.
  - rewrite nth_overflow by (rewrite map_length, seq_length; lia). symmetry. unfold acoef. destruct (Nat.ltb_spec (Z.to_nat k) (aD A)); [lia|reflexivity].
Qed.
Lemma vpow_coef s l k : coef (lmul (vpow s) l) k = coef l (k - s).
Proof.
  unfold vpow. transitivity (coef (lmul l (lpoly_make s [1%Z])) k); [|apply coef_shift].
  assert (E : leq (lmul (lpoly_make s [1%Z]) l) (lmul l (lpoly_make s [1%Z]))) by ring. apply E.
Qed.
Lemma agrees_neqp p d X A idx : agrees p d X A idx <-> exists s, forall i j, i < d -> j < d -> neqp p (ent (NI 0) X i j) (NL (lmul (vpow s) (apol A idx i j))).
Proof.
  unfold agrees. assert (Q : forall s i j e, numcoef (NL (lmul (vpow s) (apol A idx i j))) e = (if e <? s then 0 else acoef A idx i j (Z.to_nat (e - s)))%Z).
  { intros s i j e. cbn [numcoef]. change (coef (lmul (vpow s) (apol A idx i j)) e = (if e <? s then 0 else acoef A idx i j (Z.to_nat (e - s)))%Z). rewrite vpow_coef, apol_coef. destruct (Z.ltb_spec (e - s) 0), (Z.ltb_spec e s); try lia; reflexivity. }
  split; intros [s K]; exists s; intros i j; [intros Hi Hj; apply neqp_congr; intros e; rewrite Q; now apply K|]. intros e Hi Hj. specialize (K i j Hi Hj). apply neqp_congr in K. specialize (K e). now rewrite Q in K.
Qed.
Lemma agrees_pmeq p d X Y A idx : sq d X -> sq d Y -> pmeq p X Y -> agrees p d X A idx -> agrees p d Y A idx.
Proof.
  intros SX SY E K. apply agrees_neqp in K. destruct K as [s K]. apply agrees_neqp. exists s. intros i j Hi Hj. rewrite <- (K i j Hi Hj).
  apply (meq_ent (NI 0) (neqp p)) in E; [|apply SX|apply SY]. destruct E as (_ & _ & E). destruct SX as (_ & R1 & C1). symmetry. apply E; congruence.
Qed.
Lemma agrees_scale p d X Y A idx c : sq d X -> sq d Y -> (forall i j, i < d -> j < d -> neqp p (ent (NI 0) Y i j) (nmul (NL (vpow c)) (ent (NI 0) X i j))) -> agrees p d X A idx -> agrees p d Y A idx.
Proof.
  intros SX SY E K. apply agrees_neqp in K. destruct K as [s K]. apply agrees_neqp. exists (c + s)%Z. intros i j Hi Hj. rewrite (E i j Hi Hj).
  destruct (K i j Hi Hj) as [z Q]. cbn [coerce] in Q. exists (lmul (vpow c) z). rewrite coerce_mul, Q. cbn [coerce].
  assert (V : leq (lmul (vpow c) (vpow s)) (vpow (c + s))) by (intros k; rewrite !coef_L, L_mul; unfold vpow; rewrite !L_make; cbn [lin]; rewrite ?L_make; cbn [lin]; rewrite !Z.mul_1_l, !Z.add_0_r; f_equal). rewrite <- V. ring.
Qed.
Lemma agrees_array p d X A B ix iy : (forall i j e, i < d -> j < d -> (p | acoef A ix i j e - acoef B iy i j e)%Z) -> agrees p d X A ix -> agrees p d X B iy.
Proof.
  intros E [s K]. exists s. intros i j e Hi Hj. specialize (K i j e Hi Hj). destruct (Z.ltb_spec e s); [exact K|]. specialize (E i j (Z.to_nat (e - s)) Hi Hj).
  replace (numcoef (mentry X i j) e - acoef B iy i j (Z.to_nat (e - s)))%Z with ((numcoef (mentry X i j) e - acoef A ix i j (Z.to_nat (e - s))) + (acoef A ix i j (Z.to_nat (e - s)) - acoef B iy i j (Z.to_nat (e - s))))%Z by ring. now apply Z.divide_add_r.
Qed.
Lemma agrees_shift p d X A B ix iy k : (forall i j e, i < d -> j < d -> acoef A ix i j e = shift k (acoef B iy) i j e) -> agrees p d X A ix -> agrees p d X B iy.
Proof.
  intros E [s K]. exists (s + Z.of_nat k)%Z. intros i j e Hi Hj. specialize (K i j e Hi Hj). destruct (Z.ltb_spec e (s + Z.of_nat k)) as [L|L].
  - destruct (Z.ltb_spec e s); [exact K|]. rewrite E in K by assumption. unfold shift in K. destruct (Nat.ltb_spec (Z.to_nat (e - s)) k); [exact K|lia].
  - destruct (Z.ltb_spec e s); [lia|]. rewrite E in K by assumption. unfold shift in K. destruct (Nat.ltb_spec (Z.to_nat (e - s)) k); [lia|]. now replace (Z.to_nat (e - (s + Z.of_nat k))) with (Z.to_nat (e - s) - k) by lia.
Qed.
(** ** products *)
Lemma vpow_add s t : leq (lmul (vpow s) (vpow t)) (vpow (s + t)).
Proof. intros k. rewrite !coef_L, L_mul. unfold vpow. rewrite !L_make. cbn [lin]. rewrite ?L_make. cbn [lin]. rewrite !Z.mul_1_l, !Z.add_0_r. f_equal. Qed.
Lemma apol_canon A idx i j : lcanon (apol A idx i j).
Proof. apply canon_make. Qed.
Lemma agrees_mul p d X Y A B C ix iy iz : sq d X -> sq d Y -> agrees p d X A ix -> agrees p d Y B iy ->
  (forall i k e, i < d -> k < d -> acoef C iz i k e = prod_coef d (acoef A ix) (acoef B iy) i k e) -> agrees p d (pr X Y) C iz.
Proof.
  intros SX SY KX KY E. apply agrees_neqp in KX, KY. destruct KX as [s KX]. destruct KY as [t KY]. apply agrees_neqp. exists (s + t)%Z. intros i k Hi Hk.
  pose proof SX as (_ & R1 & C1). pose proof SY as (_ & R2 & C2). rewrite (prod_e (NI 0) nadd nmul) by congruence. rewrite C1.
  transitivity (rsum (NI 0) nadd d (fun j => nmul (NL (vpow (s + t))) (NL (lmul (apol A ix i j) (apol B iy j k))))).
  - apply (rsum_ext (NI 0) nadd nmul nneg (neqp p) _ (nringp_ext p)). intros j Hj. destruct (KX i j Hi Hj) as [z1 Q1]. destruct (KY j k Hj Hk) as [z2 Q2]. cbn [coerce] in Q1, Q2.
    exists (ladd (ladd (lmul (lmul (vpow s) (apol A ix i j)) z2) (lmul z1 (lmul (vpow t) (apol B iy j k)))) (lmul (lint p) (lmul z1 z2))). rewrite !coerce_mul, Q1, Q2. cbn [coerce]. rewrite <- vpow_add. ring.
  - etransitivity; [symmetry; apply (rsum_mull (NI 0) (NI 1) nadd nmul nsub nneg (neqp p) _ (nringp_ext p) (nringp p))|]. apply neq_neqp. unfold neq. rewrite coerce_mul. cbn [coerce].
    assert (Q : leq (coerce (rsum (NI 0) nadd d (fun j => NL (lmul (apol A ix i j) (apol B iy j k))))) (apol C iz i k)); [|now rewrite Q].
    intros e. rewrite <- numcoef_coerce, numcoef_rsum, apol_coef.
    assert (NA : forall i' j' u, (u < 0)%Z -> coef (apol A ix i' j') u = 0%Z) by (intros i' j' u Hu; rewrite apol_coef; destruct (Z.ltb_spec u 0); [reflexivity|lia]).
    assert (NB : forall i' j' u, (u < 0)%Z -> coef (apol B iy i' j') u = 0%Z) by (intros i' j' u Hu; rewrite apol_coef; destruct (Z.ltb_spec u 0); [reflexivity|lia]).
    destruct (Z.ltb_spec e 0) as [He|He].
    + apply zsum_0. intros j Hj. cbn [numcoef]. apply (proj2 (coef_mul_nonneg (apol A ix i j) (apol B iy j k) 0 (apol_canon _ _ _ _) (NA i j) (NB j k)) e He).
    + rewrite E by assumption. unfold prod_coef. apply zsum_ext. intros j Hj. cbn [numcoef]. rewrite <- (Z2Nat.id e) at 1 by exact He.
      etransitivity; [apply (proj1 (coef_mul_nonneg (apol A ix i j) (apol B iy j k) (Z.to_nat e) (apol_canon _ _ _ _) (NA i j) (NB j k)))|]. apply zsum_ext. intros f Hf. rewrite !apol_coef.
      destruct (Z.ltb_spec (Z.of_nat f) 0), (Z.ltb_spec (Z.of_nat (Z.to_nat e - f)) 0); try lia. now rewrite !Nat2Z.id.
Qed.
(** ** one multiplication step *)
Lemma F2_rev {A B} (R : A -> B -> Prop) a b : Forall2 R a b -> Forall2 R (rev a) (rev b).
Proof. induction 1; cbn [rev]; [constructor|]. apply Forall2_app; [assumption|]. constructor; [assumption|constructor]. Qed.
Lemma operand_self pre idx : valid_index pre idx -> operand_index pre idx = idx.
Proof.
  intros V. unfold operand_index. assert (G : forall a b, Forall2 (fun i s => i < s) b a -> operand_axes a b = b).
  { induction a as [|x a IH]; intros b Hb; inversion Hb as [|y x' b' a' Hy Hb' E1 E2]; subst; [reflexivity|]. cbn [operand_axes]. rewrite (IH b' Hb'). f_equal. destruct (Nat.eqb_spec x 1); lia. }
  rewrite G; [apply rev_involutive|]. apply F2_rev. exact V.
Qed.
Lemma compatible_self a : compatible a a. Proof. intros k. now left. Qed.
Lemma broadcasts_self a c : broadcasts a a c -> c = a.
Proof.
  intros (_ & L & K). rewrite Nat.max_id in L. rewrite <- (rev_involutive c), <- (rev_involutive a). f_equal. apply nth_ext with 1 1; [now rewrite !rev_length|].
  intros k Hk. specialize (K k). unfold axis in K. rewrite K. destruct (nth k (rev a) 1 =? 1); reflexivity.
Qed.
Lemma arr_mod_ok A p : wfa A -> (0 < p)%Z -> (p <= 2 ^ (dbits (adt A) - 1))%Z -> in_dtype I64 p -> exists C, arr_mod A p = Ok C /\ wfa C /\ apre C = apre A /\ aI C = aI A /\ aJ C = aJ A /\ aD C = aD A /\
  (fits (adt A) p = true -> adt C = adt A) /\ (forall idx i j e, valid_index (apre A) idx -> i < aI A -> j < aJ A -> acoef C idx i j e = (acoef A idx i j e mod p)%Z).
Proof.
  intros W Hp Hq HI. unfold arr_mod. assert (F : fits I64 p = true) by now apply fits_ok. rewrite F. eexists. split; [reflexivity|]. set (C := mkA _ _ _ _ _ _).
  assert (WC : wfa C).
  { destruct W as (W1 & W2 & W3). unfold wfa, C. cbn [apre aI aJ aD adt ablocks]. split; [now rewrite map_length|]. split.
    - apply Forall_forall. intros b Hb. apply in_map_iff in Hb. destruct Hb as [b' [<- Hb']]. rewrite map_length. rewrite Forall_forall in W2. now apply W2.
    - apply Forall_forall. intros b Hb. apply in_map_iff in Hb. destruct Hb as [b' [<- Hb']]. apply Forall_forall. intros x Hx. apply in_map_iff in Hx. destruct Hx as [y [<- _]]. pose proof (Z.mod_pos_bound y p Hp).
      assert (2 ^ (dbits (adt A) - 1) <= 2 ^ (dbits (if fits (adt A) p then adt A else I64) - 1))%Z by (destruct (fits (adt A) p); [lia|destruct (adt A); cbn; lia]). lia. }
  split; [exact WC|]. do 4 (split; [reflexivity|]). split; [intros K; unfold C; cbn [adt]; now rewrite K|].
  intros idx i j e V Hi Hj. unfold acoef. cbn [C aD apre aI aJ ablocks]. destruct (e <? aD A); [|now rewrite Z.mod_0_l by lia]. rewrite <- concat_map.
  change 0%Z with (0 mod p)%Z at 1. now rewrite (map_nth (fun x => (x mod p)%Z)).
Qed.
Definition nonzero_mod (p : Z) (d : nat) (X : mat num) : Prop := exists i j e, i < d /\ j < d /\ ~ (p | numcoef (mentry X i j) e)%Z.
Lemma agrees_nonzero p d X A idx : agrees p d X A idx -> nonzero_mod p d X -> exists i j e, i < d /\ j < d /\ ~ (p | acoef A idx i j e)%Z.
Proof.
  intros [s K] (i & j & e & Hi & Hj & N). specialize (K i j e Hi Hj). destruct (Z.ltb_spec e s) as [L|L]; [rewrite Z.sub_0_r in K; contradiction|].
  exists i, j, (Z.to_nat (e - s)). split; [exact Hi|]. split; [exact Hj|]. intros Q. apply N. replace (numcoef (mentry X i j) e) with ((numcoef (mentry X i j) e - acoef A idx i j (Z.to_nat (e - s))) + acoef A idx i j (Z.to_nat (e - s)))%Z by ring. now apply Z.divide_add_r.
Qed.
(** the properties of a batch of images *)
Definition batch_ok (p : Z) (t : dtype) (d : nat) (pre : list nat) (X : list nat -> mat num) (A : parr) : Prop :=
  wfa A /\ apre A = pre /\ aI A = d /\ aJ A = d /\ adt A = t /\
  forall idx, valid_index pre idx -> agrees p d (X idx) A idx.
Definition batch_proj (p : Z) (d : nat) (pre : list nat) (A : parr) : Prop :=
  forall idx, valid_index pre idx -> least_degree (acoef A idx) d d 0 /\ forall i j e, i < d -> j < d -> p <> 0%Z -> (0 <= acoef A idx i j e < p)%Z.
Lemma projectivise_batch p t d pre X A : 1 <= nitems pre -> batch_ok p t d pre X A -> (forall idx, valid_index pre idx -> exists i j e, i < d /\ j < d /\ acoef A idx i j e <> 0%Z) ->
  (forall idx i j e, valid_index pre idx -> i < d -> j < d -> p <> 0%Z -> (0 <= acoef A idx i j e < p)%Z) ->
  exists C, projectivise A = Ok C /\ batch_ok p t d pre X C /\ batch_proj p d pre C.
Proof.
  intros NE (W & EP & EI & EJ & ET & K) NZ RG. assert (N : all_nonzero A). { intros idx V. rewrite EP in V. destruct (NZ idx V) as (i & j & e & Hi & Hj & Q). exists i, j, e. rewrite EI, EJ. auto. }
  destruct (C65_projectivise A W ltac:(now rewrite EP) N) as (C & E & WC & C1 & C2 & C3 & C4 & KC & _). exists C. split; [exact E|]. rewrite EP, EI, EJ in *. split.
  - split; [exact WC|]. do 3 (split; [congruence|]). split; [congruence|]. intros idx V. destruct (KC idx V) as (k & _ & S & _). apply (agrees_shift p d (X idx) A C idx idx k); [exact S|now apply K].
  - intros idx V. destruct (KC idx V) as (k & _ & S & L). split; [exact L|]. intros i j e Hi Hj Hp. specialize (RG idx i j (k + e) V Hi Hj Hp). rewrite (S i j (k + e) Hi Hj) in RG. unfold shift in RG. destruct (Nat.ltb_spec (k + e) k); [lia|]. now replace (k + e - k) with e in RG by lia.
Qed.
Lemma polymat_mul_ok p t d pre A B X Y : (0 <= p)%Z -> 1 <= nitems pre -> batch_ok p t d pre X A -> batch_ok p t d pre Y B -> (p <> 0%Z -> fits t p = true) ->
  (forall idx, valid_index pre idx -> sq d (X idx) /\ sq d (Y idx) /\ nonzero_mod p d (pr (X idx) (Y idx))) ->
  (forall idx i k e, valid_index pre idx -> i < d -> k < d -> in_dtype t (prod_coef d (acoef A idx) (acoef B idx) i k e)) -> 1 <= aD A + aD B ->
  exists C, polymat_mul p A B = Ok C /\ batch_ok p t d pre (fun idx => pr (X idx) (Y idx)) C /\ batch_proj p d pre C.
Proof.
  intros Hp NE (WA & PA & IA & JA & TA & KA) (WB & PB & IB & JB & TB & KB) HF HX HE HD.
  destruct (C64_mul A B WA WB ltac:(congruence) ltac:(rewrite PA, PB; apply compatible_self) HD) as (P & EP & WP & BP & IP & JP & _ & TP & _).
  rewrite PA, PB in BP. apply broadcasts_self in BP. rewrite IA in IP. rewrite JB in JP. rewrite TA in TP.
  assert (KP : forall idx i k e, valid_index pre idx -> i < d -> k < d -> acoef P idx i k e = prod_coef d (acoef A idx) (acoef B idx) i k e).
  { intros idx i k e V Hi Hk. pose proof (C64_mul_exact A B P WA WB EP) as Q. rewrite PA, PB, IP, JP, JA, TA, BP in Q. specialize (fun H => Q H idx i k e V Hi Hk).
    rewrite (operand_self pre idx V) in Q. apply Q. intros idx' i' k' e' V' Hi' Hk'. rewrite (operand_self pre idx' V'). now apply HE. }
  assert (BP' : batch_ok p t d pre (fun idx => pr (X idx) (Y idx)) P).
  { split; [exact WP|]. do 4 (split; [assumption|]). intros idx V. destruct (HX idx V) as (S1 & S2 & _). apply (agrees_mul p d (X idx) (Y idx) A B P idx idx idx); auto. }
  unfold polymat_mul. rewrite EP. cbn [bind]. unfold reduce_arr. destruct (Z.eqb_spec p 0) as [E0|N0].
  - cbn [bind]. apply (projectivise_batch p t d pre); [exact NE|exact BP'| |intros; contradiction]. intros idx V. destruct (HX idx V) as (_ & _ & N).
    destruct BP' as (_ & _ & _ & _ & _ & K). destruct (agrees_nonzero p d _ P idx (K idx V) N) as (i & j & e & Hi & Hj & Q). exists i, j, e. split; [exact Hi|]. split; [exact Hj|]. intros Z. apply Q. rewrite Z. apply Z.divide_0_r.
  - specialize (HF N0). pose proof (proj1 (fits_ok _ _) HF) as HF'. unfold in_dtype in HF'.
    destruct (arr_mod_ok P p WP ltac:(lia) ltac:(rewrite TP; lia) (in_dtype_I64 t p HF')) as (C & EC & WC & C1 & C2 & C3 & C4 & C5 & KC). rewrite EC. cbn [bind]. rewrite TP in C5. specialize (C5 HF). rewrite BP, IP, JP in KC.
    destruct BP' as (_ & _ & _ & _ & _ & K).
    assert (KC' : forall idx, valid_index pre idx -> agrees p d (pr (X idx) (Y idx)) C idx).
    { intros idx V. apply (agrees_array p d _ P C idx idx); [|now apply K]. intros i j e Hi Hj. rewrite KC by assumption. exists (acoef P idx i j e / p)%Z. pose proof (Z.div_mod (acoef P idx i j e) p ltac:(lia)). lia. }
    apply (projectivise_batch p t d pre); [exact NE| | |].
    + split; [exact WC|]. do 4 (split; [congruence|]). exact KC'.
    + intros idx V. destruct (HX idx V) as (_ & _ & N). destruct (agrees_nonzero p d _ C idx (KC' idx V) N) as (i & j & e & Hi & Hj & Q). exists i, j, e. split; [exact Hi|]. split; [exact Hj|]. intros Z. apply Q. rewrite Z. apply Z.divide_0_r.
    + intros idx i j e V Hi Hj _. rewrite KC by assumption. apply Z.mod_pos_bound. lia.
Qed.
(** ** from_matrix *)
Lemma from_matrix_dtype X proj t A : from_matrix X proj t = Ok (Some A) -> t = I64 \/ (forallb is_int (mdata X) = false /\ forallb lis_zero (map lentry (mdata X)) = false) -> adt A = t.
Proof.
  unfold from_matrix. destruct (forallb is_int (mdata X)).
  - cbv zeta. destruct (_ || _); [discriminate|]. intros [= <-] [->|[K _]]; [reflexivity|discriminate].
  - destruct (forallb (fun x => negb (is_int x)) (mdata X)); [|discriminate]. cbv zeta. destruct (forallb lis_zero (map lentry (mdata X))); [intros [= <-] [->|[_ K]]; [reflexivity|discriminate]|].
    destruct (_ && _); [discriminate|]. destruct (_ <? 0)%Z; [discriminate|]. destruct (mapM _ _); cbn [bind]; [|discriminate]. intros [= <-] _. reflexivity.
Qed.
Definition int_matrix (X : mat num) : Prop := Forall (fun x => exists c, x = NI c) (mdata X).
Lemma reduced_0 p X : reduced_matrix p X -> reduced_matrix 0 X.
Proof. unfold reduced_matrix. apply Forall_impl. intros x (l & E & K & _). exists l. split; [exact E|]. split; [exact K|]. intros N. contradiction. Qed.
Lemma from_matrix_image X d t : sq d X -> 0 < d -> (exists k, has_exponent X k) -> (forall i j k, i < d -> j < d -> in_dtype t (numcoef (mentry X i j) k)) ->
  reduced_matrix 0 X \/ (t = I64 /\ int_matrix X) ->
  exists A m, from_matrix X true t = Ok (Some A) /\ wfa A /\ apre A = [] /\ aI A = d /\ aJ A = d /\ adt A = t /\
    (forall i j e, i < d -> j < d -> acoef A [] i j e = numcoef (mentry X i j) (Z.of_nat e + m)) /\ (forall k, has_exponent X k -> (m <= k)%Z).
Proof.
  intros (WX & RX & CX) Hd [k0 H0] R [C|[ET C]].
  - assert (PM : poly_matrix X) by (split; [exact WX|exact C]).
    assert (RR : forall i j k, i < mrows X -> j < mcols X -> in_dtype t (numcoef (mentry X i j) k)) by (intros i j k Hi Hj; apply R; congruence).
    destruct (forallb lis_zero (map lentry (mdata X))) eqn:Z0; [exfalso; exact (proj1 (fm_zero X PM) Z0 k0 H0)|]. destruct (fm_min X PM Z0) as [MI ML]. cbv zeta in MI, ML. set (m := ModelPolymat.zmin _) in *.
    assert (NI : forallb is_int (mdata X) = false) by (destruct (fm_int X PM) as [K _]; [lia|lia|exact K]).
    destruct (Z.ltb_spec m 0) as [Hm|Hm].
    + destruct (C67_from_matrix_proj X t m PM RR MI ML Hm) as (A & E & WA & A1 & A2 & A3 & KA). exists A, m. split; [exact E|]. split; [exact WA|]. split; [exact A1|]. split; [congruence|]. split; [congruence|]. split; [apply (from_matrix_dtype _ _ _ _ E); now right|].
      split; [|exact ML]. intros i j e Hi Hj. apply KA; congruence.
    + destruct (C67_from_matrix X true t PM ltac:(lia) ltac:(lia) RR) as (A & E & WA & A1 & A2 & A3 & _ & _ & KA); [intros k Hk; specialize (ML k Hk); lia|]. exists A, 0%Z. split; [exact E|]. split; [exact WA|]. split; [exact A1|]. split; [congruence|]. split; [congruence|]. split; [apply (from_matrix_dtype _ _ _ _ E); now right|].
      split; [|intros k Hk; specialize (ML k Hk); lia]. intros i j e Hi Hj. rewrite Z.add_0_r. rewrite KA by congruence. destruct (Z.ltb_spec (Z.of_nat e) 0); [lia|]. now rewrite Nat2Z.id.
  - subst t. destruct (C67_from_matrix_int X true I64 WX ltac:(lia) ltac:(lia)) as (A & E & WA & A1 & A2 & A3 & KA).
    { apply Forall_forall. intros x Hx. unfold int_matrix in C. rewrite Forall_forall in C. destruct (C x Hx) as [c ->]. exists c. split; [reflexivity|]. destruct (In_nth _ _ (NI 0) Hx) as [q [Hq E]]. rewrite WX in Hq.
      assert (Q : mentry X (q / mcols X) (q mod mcols X) = NI c) by (unfold mentry; rewrite <- Nat.div_mod by lia; exact E).
      specialize (R (q / mcols X) (q mod mcols X) 0%Z). rewrite Q in R. cbn [numcoef Z.eqb] in R. apply R; [apply Nat.div_lt_upper_bound; nia|]. rewrite <- CX. apply Nat.mod_upper_bound. lia. }
    exists A, 0%Z. split; [exact E|]. split; [exact WA|]. split; [exact A1|]. split; [congruence|]. split; [congruence|]. split; [apply (from_matrix_dtype _ _ _ _ E); now left|]. split.
    + intros i j e Hi Hj. rewrite Z.add_0_r. apply KA; congruence.
    + intros k (i & j & Hi & Hj & N). unfold int_matrix in C. rewrite Forall_forall in C. destruct (C (mentry X i j)) as [c Ec]; [apply nth_In; rewrite WX; nia|]. rewrite Ec in N. cbn [numcoef] in N. destruct (Z.eqb_spec k 0); [lia|contradiction].
Qed.
(** the image of one factor, as polymat_braid_factor computes it *)
Definition span_below (X : mat num) (W : nat) : Prop := forall k k', has_exponent X k -> has_exponent X k' -> (k' - k < Z.of_nat W)%Z.
Lemma image_ok p t X d : sq d X -> 0 < d -> nonzero_mod p d X -> (forall i j k, i < d -> j < d -> in_dtype t (numcoef (mentry X i j) k)) ->
  (p <> 0%Z -> forall i j k, i < d -> j < d -> (0 <= numcoef (mentry X i j) k < p)%Z) ->
  reduced_matrix 0 X \/ (t = I64 /\ int_matrix X) ->
  exists A, (a <- some_array (from_matrix X true t) ;; projectivise a) = Ok A /\ batch_ok p t d [] (fun _ => X) A /\ batch_proj p d [] A /\
    forall W, span_below X W -> forall i j e, i < d -> j < d -> W <= e -> acoef A [] i j e = 0%Z.
Proof.
  intros SX Hd (i0 & j0 & e0 & Hi0 & Hj0 & N0) R1 R2 RM. pose proof SX as (_ & RX & CX).
  assert (H0 : exists k, has_exponent X k) by (exists e0, i0, j0; split; [congruence|]; split; [congruence|]; intros Q; apply N0; rewrite Q; apply Z.divide_0_r).
  destruct (from_matrix_image X d t SX Hd H0 R1 RM) as (A & m & E & WA & A1 & A2 & A3 & A4 & KA & ML). rewrite E. unfold some_array. cbn [bind].
  assert (V0 : forall idx, valid_index [] idx -> idx = []) by (intros idx V; now inversion V).
  assert (B : batch_ok p t d [] (fun _ => X) A).
  { split; [exact WA|]. do 4 (split; [assumption|]). intros idx V. rewrite (V0 idx V). exists m. intros i j e Hi Hj. destruct (Z.ltb_spec e m) as [L|L].
    - assert (Q : numcoef (mentry X i j) e = 0%Z). { destruct (Z.eq_dec (numcoef (mentry X i j) e) 0) as [Q|Q]; [exact Q|]. exfalso. specialize (ML e). assert (has_exponent X e) by (exists i, j; repeat split; auto; congruence). specialize (ML H). lia. }
      rewrite Q. apply Z.divide_0_r.
    - rewrite KA by assumption. replace (Z.of_nat (Z.to_nat (e - m)) + m)%Z with e by lia. rewrite Z.sub_diag. apply Z.divide_0_r. }
  assert (NZ : exists i j e, i < d /\ j < d /\ acoef A [] i j e <> 0%Z).
  { destruct H0 as (k & i & j & Hi & Hj & Q). specialize (ML k ltac:(now exists i, j)). exists i, j, (Z.to_nat (k - m)). split; [congruence|]. split; [congruence|]. rewrite KA by congruence. now replace (Z.of_nat (Z.to_nat (k - m)) + m)%Z with k by lia. }
  destruct (projectivise_batch p t d [] (fun _ => X) A) as (C & EC & BC & PC); [cbn; lia|exact B| | |].
  - intros idx V. rewrite (V0 idx V). exact NZ.
  - intros idx i j e V Hi Hj Np. rewrite (V0 idx V), KA by assumption. now apply R2.
  - exists C. split; [exact EC|]. split; [exact BC|]. split; [exact PC|]. intros W SW i j e Hi Hj He.
    assert (N : all_nonzero A). { intros idx V. rewrite A1 in V. rewrite (V0 idx V). destruct NZ as (i' & j' & e' & ? & ? & ?). exists i', j', e'. rewrite A2, A3. auto. }
    destruct (C65_projectivise A WA ltac:(rewrite A1; cbn; lia) N) as (C' & EC' & _ & _ & _ & _ & _ & KC & _). assert (C' = C) by congruence. subst C'. destruct (KC [] ltac:(rewrite A1; constructor)) as (k & [(i1 & j1 & Hi1 & Hj1 & Q1) _] & S & _).
    rewrite A2, A3 in *. destruct (Z.eq_dec (acoef C [] i j e) 0) as [Q|Q]; [exact Q|]. exfalso. rewrite KA in Q1 by assumption.
    assert (Q2 : acoef A [] i j (k + e) <> 0%Z) by (rewrite (S i j (k + e) Hi Hj); unfold shift; destruct (Nat.ltb_spec (k + e) k); [lia|]; now replace (k + e - k) with e by lia). rewrite KA in Q2 by assumption.
    specialize (SW (Z.of_nat k + m)%Z (Z.of_nat (k + e) + m)%Z ltac:(exists i1, j1; repeat split; auto; congruence) ltac:(exists i, j; repeat split; auto; congruence)). lia.
Qed.
(** the same without the assumption that the coefficients are reduced *)
Lemma image_gen p t X d : sq d X -> 0 < d -> (exists i j e, i < d /\ j < d /\ numcoef (mentry X i j) e <> 0%Z) -> (forall i j k, i < d -> j < d -> in_dtype t (numcoef (mentry X i j) k)) ->
  reduced_matrix 0 X \/ (t = I64 /\ int_matrix X) ->
  exists A, (a <- some_array (from_matrix X true t) ;; projectivise a) = Ok A /\ batch_ok p t d [] (fun _ => X) A /\
    (forall i j e, i < d -> j < d -> exists k, acoef A [] i j e = numcoef (mentry X i j) k) /\ least_degree (acoef A []) d d 0.
Proof.
  intros SX Hd (i0 & j0 & e0 & Hi0 & Hj0 & N0) R1 RM. pose proof SX as (_ & RX & CX).
  assert (H0 : exists k, has_exponent X k) by (exists e0, i0, j0; split; [congruence|]; split; [congruence|]; exact N0).
  destruct (from_matrix_image X d t SX Hd H0 R1 RM) as (A & m & E & WA & A1 & A2 & A3 & A4 & KA & ML). rewrite E. unfold some_array. cbn [bind].
  assert (V0 : forall idx, valid_index [] idx -> idx = []) by (intros idx V; now inversion V).
  assert (B : agrees p d X A []).
  { exists m. intros i j e Hi Hj. destruct (Z.ltb_spec e m) as [L|L].
    - assert (Q : numcoef (mentry X i j) e = 0%Z). { destruct (Z.eq_dec (numcoef (mentry X i j) e) 0) as [Q|Q]; [exact Q|]. exfalso. specialize (ML e). assert (has_exponent X e) by (exists i, j; repeat split; auto; congruence). specialize (ML H). lia. }
      rewrite Q. apply Z.divide_0_r.
    - rewrite KA by assumption. replace (Z.of_nat (Z.to_nat (e - m)) + m)%Z with e by lia. rewrite Z.sub_diag. apply Z.divide_0_r. }
  assert (N : all_nonzero A).
  { intros idx V. rewrite A1 in V. rewrite (V0 idx V). destruct H0 as (k & i & j & Hi & Hj & Q). specialize (ML k ltac:(now exists i, j)). exists i, j, (Z.to_nat (k - m)). split; [congruence|]. split; [congruence|]. rewrite KA by congruence. now replace (Z.of_nat (Z.to_nat (k - m)) + m)%Z with k by lia. }
  destruct (C65_projectivise A WA ltac:(rewrite A1; cbn; lia) N) as (C & EC & WC & C1 & C2 & C3 & C4 & KC & _). exists C. split; [exact EC|]. destruct (KC [] ltac:(rewrite A1; constructor)) as (k & _ & S & L). rewrite A1, A2, A3 in *. split; [|split; [|exact L]].
  - split; [exact WC|]. do 3 (split; [congruence|]). split; [congruence|]. intros idx V. rewrite (V0 idx V). apply (agrees_shift p d X A C [] [] k); [exact S|exact B].
  - intros i j e Hi Hj. exists (Z.of_nat (k + e) + m)%Z. rewrite <- KA by assumption. rewrite (S i j (k + e) Hi Hj). unfold shift. destruct (Nat.ltb_spec (k + e) k); [lia|]. now replace (k + e - k) with e by lia.
Qed.
(** ** bounds *)
Lemma zsum_abs n f : (Z.abs (zsum n f) <= zsum n (fun i => Z.abs (f i)))%Z.
Proof. induction n as [|n IH]; cbn [zsum]; lia. Qed.
Lemma prod_coef_abs J D E a b ca cb i k e : (0 <= ca)%Z -> (0 <= cb)%Z -> (forall j f, j < J -> (Z.abs (a i j f) <= ca)%Z) -> (forall j f, j < J -> (Z.abs (b j k f) <= cb)%Z) ->
  (forall j f, j < J -> D <= f -> a i j f = 0%Z) -> (forall j f, j < J -> E <= f -> b j k f = 0%Z) ->
  (Z.abs (prod_coef J a b i k e) <= Z.of_nat J * (Z.of_nat (Nat.min D E) * (ca * cb)))%Z.
Proof.
  intros Ha Hb BA BB ZA ZB.
  destruct (prod_coef_bound J D E (fun i j f => Z.abs (a i j f)) (fun i j f => Z.abs (b i j f)) (ca * cb) i k e) as [_ U].
  - nia.
  - intros; lia.
  - intros; lia.
  - intros j f g Hj. specialize (BA j f Hj). specialize (BB j g Hj). nia.
  - intros j f Hj Hf. now rewrite ZA.
  - intros j f Hj Hf. now rewrite ZB.
  - eapply Z.le_trans; [|exact U]. unfold prod_coef. eapply Z.le_trans; [apply zsum_abs|]. apply zsum_le. intros j Hj. eapply Z.le_trans; [apply zsum_abs|]. apply zsum_le. intros f _. lia.
Qed.
(** for p = 0 the product is an image of the product matrix *)
Lemma exact_product d X Y A B ix iy : wfa A -> wfa B -> sq d X -> sq d Y -> agrees 0 d X A ix -> agrees 0 d Y B iy ->
  exists s, forall i k e, i < d -> k < d -> prod_coef d (acoef A ix) (acoef B iy) i k e = numcoef (mentry (pr X Y) i k) (Z.of_nat e + s).
Proof.
  intros WA WB SX SY KX KY. apply agrees_neqp in KX, KY. destruct KX as [s KX]. destruct KY as [t KY]. exists (s + t)%Z. intros i k e Hi Hk.
  assert (ZA : forall j f, aD A <= f -> acoef A ix i j f = 0%Z) by (intros j f Hf; unfold acoef; destruct (Nat.ltb_spec f (aD A)); [lia|reflexivity]).
  assert (KX' : forall i j, i < d -> j < d -> forall f, numcoef (ent (NI 0) X i j) f = (if (f <? s)%Z then 0 else acoef A ix i j (Z.to_nat (f - s)))%Z).
  { intros i' j' Hi' Hj' f. specialize (KX i' j' Hi' Hj'). apply neqp_congr in KX. specialize (KX f). destruct KX as [z Q]. rewrite Z.mul_0_r in Q. assert (Q' : numcoef (ent (NI 0) X i' j') f = coef (lmul (vpow s) (apol A ix i' j')) f) by (change (numcoef (NL (lmul (vpow s) (apol A ix i' j'))) f) with (coef (lmul (vpow s) (apol A ix i' j')) f) in Q; lia).
    rewrite Q', vpow_coef, apol_coef. destruct (Z.ltb_spec (f - s) 0), (Z.ltb_spec f s); try lia; reflexivity. }
  set (C := mkA [] 1 1 (e + 1) I64 [map (fun f => prod_coef d (acoef A ix) (acoef B iy) i k f) (seq 0 (e + 1))]).
  pose proof SX as (_ & R1 & C1). pose proof SY as (_ & R2 & C2). change (mentry (pr X Y) i k) with (ent (NI 0) (pr X Y) i k). rewrite (prod_e (NI 0) nadd nmul) by congruence. rewrite C1.
  rewrite numcoef_rsum. unfold prod_coef. apply zsum_ext. intros j Hj.
  assert (Q : leq (coerce (nmul (ent (NI 0) X i j) (ent (NI 0) Y j k))) (lmul (vpow (s + t)) (lmul (apol A ix i j) (apol B iy j k)))).
  { destruct (KX i j Hi Hj) as [z1 Q1]. destruct (KY j k Hj Hk) as [z2 Q2]. cbn [coerce] in Q1, Q2. assert (Z0 : forall z, leq (lmul (lint 0) z) (lint 0)) by (intros z; ring). rewrite Z0 in Q1, Q2. rewrite coerce_mul, Q1, Q2, <- vpow_add. ring. }
  rewrite numcoef_coerce, (Q (Z.of_nat e + (s + t))%Z), vpow_coef. replace (Z.of_nat e + (s + t) - (s + t))%Z with (Z.of_nat e) by lia.
  assert (NA : forall i' j' u, (u < 0)%Z -> coef (apol A ix i' j') u = 0%Z) by (intros i' j' u Hu; rewrite apol_coef; destruct (Z.ltb_spec u 0); [reflexivity|lia]).
  assert (NB : forall i' j' u, (u < 0)%Z -> coef (apol B iy i' j') u = 0%Z) by (intros i' j' u Hu; rewrite apol_coef; destruct (Z.ltb_spec u 0); [reflexivity|lia]).
  symmetry. etransitivity; [apply (proj1 (coef_mul_nonneg (apol A ix i j) (apol B iy j k) e (apol_canon _ _ _ _) (NA i j) (NB j k)))|]. apply zsum_ext. intros f Hf. rewrite !apol_coef.
  destruct (Z.ltb_spec (Z.of_nat f) 0), (Z.ltb_spec (Z.of_nat (e - f)) 0); try lia. now rewrite !Nat2Z.id.
Qed.
Lemma Forall2_length' {A B} (P : A -> B -> Prop) l m : Forall2 P l m -> length l = length m.
Proof. induction 1; cbn; auto. Qed.
(** ** packing *)
Lemma pack_batch p t d As (X : nat -> mat num) : As <> [] -> (forall k A, nth_error As k = Some A -> batch_ok p t d [] (fun _ => X k) A) ->
  exists P, pack As = Ok P /\ batch_ok p t d [length As] (fun idx => X (hd 0 idx)) P /\
    forall k A, nth_error As k = Some A -> forall i j e, i < d -> j < d -> acoef P [k] i j e = acoef A [] i j e.
Proof.
  intros NE H. destruct As as [|A0 As']; [contradiction|]. clear NE. set (As := A0 :: As') in *.
  assert (HI : forall A, In A As -> wfa A /\ apre A = [] /\ aI A = d /\ aJ A = d /\ adt A = t) by (intros A HA; destruct (In_nth_error _ _ HA) as [k Ek]; destruct (H k A Ek) as (? & ? & ? & ? & ? & _); auto).
  destruct (HI A0 ltac:(now left)) as (W0 & P0 & I0 & J0 & T0).
  destruct (C67_pack A0 As') as (P & EP & WP & P1 & P2 & P3 & P4 & KP & _).
  - apply Forall_forall. intros A HA. destruct (HI A HA) as (W1 & Q1 & Q2 & Q3 & _). split; [exact W1|]. split; [exact Q1|]. split; congruence.
  - intros A i j e HA Hi Hj. destruct (HI A HA) as (W & EP & EI & EJ & ET). rewrite T0, <- ET. apply acoef_range; [exact W|rewrite EP; constructor|lia|lia].
  - exists P. split; [exact EP|]. fold As in P1, KP. rewrite I0, J0 in *. rewrite T0 in P4.
    assert (KP' : forall k A, nth_error As k = Some A -> forall i j e, i < d -> j < d -> acoef P [k] i j e = acoef A [] i j e).
    { intros k A Ek i j e Hi Hj. assert (Lk : k < length As) by (apply nth_error_Some; congruence). rewrite (KP k Lk i j e Hi Hj). now rewrite (nth_error_nth _ _ A_default Ek). }
    split; [|exact KP']. split; [exact WP|]. do 4 (split; [assumption|]). intros idx V. destruct idx as [|k [|k' idx]]; [inversion V| |exfalso; apply Forall2_length' in V; cbn in V; lia]. assert (Hk : k < length As) by (inversion V; assumption). cbn [hd].
    destruct (nth_error As k) as [A|] eqn:Ek; [|exfalso; apply nth_error_None in Ek; exact (Nat.lt_irrefl _ (Nat.lt_le_trans _ _ _ Hk Ek))]. destruct (H k A Ek) as (_ & _ & _ & _ & _ & K). specialize (K [] ltac:(constructor)).
    apply (agrees_array p d (X k) A P [] [k]); [|exact K]. intros i j e Hi Hj. rewrite (KP' k A Ek) by assumption. rewrite Z.sub_diag. apply Z.divide_0_r.
Qed.
(** ** evaluating words *)
Section Eval.
Variables (n r : nat) (p : Z) (R : rep) (d : nat) (gens invs : list (mat num)) (E : mat num).
Hypothesis (EJ : jones_rep n r p = Ok R) (ED : rep_dimension R = Ok (Z.of_nat d)) (EG : rep_artin_gens_invs R = Ok (gens, invs)) (EI : rep_id R = Ok E).
Hypothesis Hp1 : p <> 1%Z.
Local Notation MM := (M gens invs E).
Lemma Mfacts : rep_n R = n /\ rep_p R = p /\ (0 <= p)%Z /\ 0 < d /\ MatrixTheory.is_identity (NI 0) (NI 1) d E /\ (forall u, sq d (MM u)) /\ (forall u v, braid_eq n u v -> pmeq p (MM u) (MM v)) /\ (forall u v, pmeq p (MM (u ++ v)) (pr (MM u) (MM v))).
Proof using EJ ED EG EI.
  destruct (jones_all n r p R EJ) as (d' & gens' & invs' & E' & EN & EP & Hp & Hd & ED' & EG' & EI' & HE & _). rewrite ED in ED'. injection ED' as ED'. apply Nat2Z.inj in ED'. subst d'.
  destruct (eval_ok n r p R [] EJ ltac:(constructor)) as (d2 & gens2 & invs2 & E2 & A & ED2 & EG2 & EI2 & HE2 & _ & _ & _ & _ & _ & S & B & P).
  rewrite ED in ED2. injection ED2 as ED2. apply Nat2Z.inj in ED2. subst d2. rewrite EG in EG2. injection EG2 as <- <-. rewrite EI in EI2. injection EI2 as <-.
  do 4 (split; [assumption|]). auto.
Qed.
Lemma E_one i : i < d -> numcoef (mentry E i i) 0 = 1%Z.
Proof using EJ ED EG EI. destruct Mfacts as (_ & _ & _ & _ & HE & _). destruct HE as (_ & _ & _ & K). intros Hi. specialize (K i i Hi Hi). change (ent (NI 0) E i i) with (mentry E i i) in K. rewrite K, Nat.eqb_refl. reflexivity. Qed.
Lemma M_nonzero u : in_range n u -> nonzero_mod p d (MM u).
Proof using EJ ED EG EI Hp1.
  intros Hu. destruct Mfacts as (_ & _ & Hp & Hd & HE & SM & BM & PM).
  assert (Q : pmeq p (pr (MM u) (MM (winv u))) E). { rewrite <- PM. change E with (MM []). apply BM. now apply be_inv_r. }
  assert (K : ~ forall i j e, i < d -> j < d -> (p | numcoef (mentry (MM u) i j) e)%Z).
  { intros K. assert (Z0 : neqp p (ent (NI 0) E 0 0) (NI 0)).
    { apply (meq_ent (NI 0) (neqp p)) in Q; [|apply sq_pr with d; auto|apply HE]. destruct Q as (_ & _ & Q). pose proof (SM u) as (_ & R1 & C1). pose proof (SM (winv u)) as (_ & R2 & C2). rewrite <- (Q 0 0); [|cbn [mrows MatrixTheory.prod]; lia|cbn [mcols MatrixTheory.prod]; lia].
      rewrite (prod_e (NI 0) nadd nmul) by lia. apply (rsum_zero (NI 0) (NI 1) nadd nmul nsub nneg (neqp p) _ (nringp_ext p) (nringp p)). intros k Hk.
      assert (Z1 : neqp p (ent (NI 0) (MM u) 0 k) (NI 0)). { apply neqp_congr. intros e. replace (numcoef (NI 0) e) with 0%Z by (cbn [numcoef]; now destruct (e =? 0)%Z). rewrite Z.sub_0_r. apply K; lia. }
      destruct Z1 as [z Z1]. cbn [coerce] in Z1. exists (lmul z (coerce (ent (NI 0) (MM (winv u)) k 0))). rewrite coerce_mul, Z1. cbn [coerce]. ring. }
    apply neqp_congr in Z0. specialize (Z0 0%Z). change (ent (NI 0) E 0 0) with (mentry E 0 0) in Z0. rewrite E_one in Z0 by exact Hd. cbn [numcoef Z.eqb] in Z0. rewrite Z.sub_0_r in Z0. apply Z.divide_1_r_nonneg in Z0; [contradiction|exact Hp]. }
  (* decide *)
  destruct (Bool.bool_dec (forallb (fun x => forallb (fun c => (c mod p =? 0)%Z) (match x with NI c => [c] | NL l => lcoeffs l end)) (mdata (MM u))) true) as [F|F].
  - exfalso. apply K. intros i j e Hi Hj. rewrite forallb_forall in F. pose proof (SM u) as (W1 & R1 & C1). specialize (F (mentry (MM u) i j) ltac:(apply nth_In; rewrite W1; nia)). rewrite forallb_forall in F.
    assert (Q0 : forall c, (c mod p =? 0)%Z = true -> (p | c)%Z). { intros c Hc. apply Z.eqb_eq in Hc. destruct (Z.eq_dec p 0) as [P0|P0]; [|now apply Z.mod_divide]. rewrite P0 in Hc. rewrite Zmod_0_r in Hc. rewrite Hc. apply Z.divide_0_r. }
    destruct (mentry (MM u) i j) as [c|l]; cbn [numcoef].
    + destruct (e =? 0)%Z; [|apply Z.divide_0_r]. apply Q0, F. now left.
    + unfold coeff_at. destruct (e <? lval l)%Z; [apply Z.divide_0_r|]. destruct (nth_in_or_default (Z.to_nat (e - lval l)) (lcoeffs l) 0%Z) as [I0| ->]; [now apply Q0, F|apply Z.divide_0_r].
  - apply Bool.not_true_is_false in F. assert (X : exists x, In x (mdata (MM u)) /\ forallb (fun c => (c mod p =? 0)%Z) (match x with NI c => [c] | NL l => lcoeffs l end) = false).
    { revert F. generalize (mdata (MM u)). intros l. induction l as [|x l IH]; cbn [forallb]; [discriminate|]. intros F. apply andb_false_iff in F. destruct F as [F|F]; [exists x; split; [now left|exact F]|]. destruct (IH F) as [y [Hy Ey]]. exists y. split; [now right|exact Ey]. }
    destruct X as [x [Hx Fx]]. assert (Y : exists c, In c (match x with NI c => [c] | NL l => lcoeffs l end) /\ (c mod p =? 0)%Z = false).
    { revert Fx. generalize (match x with NI c => [c] | NL l => lcoeffs l end). intros l. induction l as [|y l IH]; cbn [forallb]; [discriminate|]. intros F0. apply andb_false_iff in F0. destruct F0 as [F0|F0]; [exists y; split; [now left|exact F0]|]. destruct (IH F0) as [z [Hz Ez]]. exists z. split; [now right|exact Ez]. }
    destruct Y as [c [Hc Ec]]. assert (Nc : ~ (p | c)%Z). { apply Z.eqb_neq in Ec. intros [q Q0]. apply Ec. rewrite Q0. destruct (Z.eq_dec p 0) as [P0|P0]; [rewrite P0, Zmod_0_r; lia|]. now apply Z_mod_mult. }
    pose proof (SM u) as (W1 & R1 & C1). apply (In_nth _ _ (NI 0)) in Hx. destruct Hx as [q [Hq Eq]]. rewrite W1, R1, C1 in Hq. destruct (pos_split d d q Hq) as (A1 & B1 & C2).
    assert (Em : mentry (MM u) (q / d) (q mod d) = x) by (unfold mentry; rewrite C1; rewrite <- Eq; f_equal; lia).
    exists (q / d), (q mod d). rewrite Em. destruct x as [c'|l].
    + destruct Hc as [->|[]]. exists 0%Z. split; [exact A1|]. split; [exact B1|]. exact Nc.
    + apply in_coeffs_coef in Hc. destruct Hc as [k Hk]. exists k. split; [exact A1|]. split; [exact B1|]. change (numcoef (NL l) k) with (coef l k). now rewrite Hk.
Qed.
Lemma M_ent u v i j : braid_eq n u v -> i < d -> j < d -> neqp p (ent (NI 0) (MM u) i j) (ent (NI 0) (MM v) i j).
Proof using EJ ED EG EI.
  intros Q Hi Hj. destruct Mfacts as (_ & _ & _ & _ & _ & SM & BM & _). pose proof (BM u v Q) as K. apply (meq_ent (NI 0) (neqp p)) in K; [|apply SM|apply SM]. destruct K as (_ & _ & K). pose proof (SM u) as (_ & R1 & C1). apply K; lia.
Qed.
Local Notation c0 := (Z.of_nat (2 * r * (n - r + 1))).
Lemma twist_one u i j : i < d -> j < d -> neqp p (ent (NI 0) (MM (FTw n ++ u)) i j) (nmul (NL (vpow c0)) (ent (NI 0) (MM u) i j)).
Proof using EJ ED EG EI.
  intros Hi Hj. destruct Mfacts as (_ & _ & _ & _ & HE & SM & BM & PM). transitivity (ent (NI 0) (pr (MM (FTw n)) (MM u)) i j); [|now apply (twist_M n r p R d gens invs E (MM u) EJ ED EG HE (SM _) (SM _))].
  pose proof (PM (FTw n) u) as K. apply (meq_ent (NI 0) (neqp p)) in K; [|apply SM|apply sq_pr with d; auto]. destruct K as (_ & _ & K). pose proof (SM (FTw n ++ u)) as (_ & R1 & C1). apply K; lia.
Qed.
Lemma twist_pow k u i j : i < d -> j < d -> neqp p (ent (NI 0) (MM (wpow (FTw n) k ++ u)) i j) (nmul (NL (vpow (k * c0))) (ent (NI 0) (MM u) i j)).
Proof using EJ ED EG EI.
  intros Hi Hj. induction k as [|k IH|k IH] using Zind2.
  - change (wpow (FTw n) 0 ++ u) with u. apply neq_neqp. unfold neq. rewrite coerce_mul. cbn [coerce]. change (vpow (0 * c0)) with (lint 1). ring.
  - etransitivity; [apply (M_ent _ (FTw n ++ (wpow (FTw n) k ++ u))); [rewrite app_assoc; apply be_app; [apply wpow_succ, FTw_range|apply be_refl]|exact Hi|exact Hj]|].
    etransitivity; [now apply twist_one|]. destruct IH as [z Q]. exists (lmul (vpow c0) z). rewrite coerce_mul, Q, coerce_mul, coerce_mul. cbn [coerce]. replace ((k + 1) * c0)%Z with (c0 + k * c0)%Z by lia. rewrite <- vpow_add. ring.
  - assert (K : neqp p (ent (NI 0) (MM (wpow (FTw n) k ++ u)) i j) (nmul (NL (vpow c0)) (ent (NI 0) (MM (wpow (FTw n) (k - 1) ++ u)) i j))).
    { etransitivity; [apply (M_ent _ (FTw n ++ (wpow (FTw n) (k - 1) ++ u))); [rewrite app_assoc; apply be_app; [|apply be_refl]; replace k with (k - 1 + 1)%Z at 1 by lia; apply wpow_succ, FTw_range|exact Hi|exact Hj]|]. now apply twist_one. }
    rewrite IH in K. destruct K as [z Q]. rewrite !coerce_mul in Q. cbn [coerce] in Q. exists (lneg (lmul (vpow (- c0)) z)). rewrite coerce_mul. cbn [coerce].
    set (a := coerce (ent (NI 0) (MM (wpow (FTw n) (k - 1) ++ u)) i j)) in *. set (b := coerce (ent (NI 0) (MM u) i j)) in *.
    assert (V0 : leq (lmul (vpow (- c0)) (vpow c0)) (lint 1)) by (rewrite vpow_add; replace (- c0 + c0)%Z with 0%Z by lia; reflexivity).
    assert (V1 : leq (vpow ((k - 1) * c0)) (lmul (vpow (- c0)) (vpow (k * c0)))) by (rewrite vpow_add; replace (- c0 + k * c0)%Z with ((k - 1) * c0)%Z by lia; reflexivity).
    transitivity (lmul (lmul (vpow (- c0)) (vpow c0)) a); [rewrite V0; ring|]. rewrite V1.
    transitivity (lsub (lmul (vpow (- c0)) (ladd (lmul (vpow c0) a) (lmul (lint p) z))) (lmul (vpow (- c0)) (lmul (lint p) z))); [ring|]. rewrite <- Q. ring.
Qed.
Lemma agrees_twist k u A idx : agrees p d (MM u) A idx -> agrees p d (MM (wpow (FTw n) k ++ u)) A idx.
Proof using EJ ED EG EI.
  destruct Mfacts as (_ & _ & _ & _ & _ & SM & _). intros K. apply (agrees_scale p d (MM u) _ A idx (k * c0)); auto. intros i j Hi Hj. now apply twist_pow.
Qed.
(** *** the value of a word *)
Definition goodw (w : list (Z * Z)) : Prop := word_ok n w /\ Forall (fun l => Z.abs (snd l) = 1%Z) w.
Lemma coef_of_reduced X i j k : reduced_matrix p X -> p <> 0%Z -> sq d X -> i < d -> j < d -> (0 <= numcoef (mentry X i j) k < p)%Z.
Proof using EJ ED EG EI Hp1.
  intros RX Np (W & R1 & C1) Hi Hj. destruct Mfacts as (_ & _ & Hp & _). unfold reduced_matrix in RX. rewrite Forall_forall in RX. destruct (RX (mentry X i j)) as (l & El & _ & Rl); [apply nth_In; rewrite W; nia|]. rewrite El. change (numcoef (NL l) k) with (coef l k). apply coef_range; [exact Rl|lia].
Qed.
Lemma value_ok w : goodw w -> exists X, rep_evaluate_artin_word R w = Ok X /\ sq d X /\ pmeq p X (MM (expand w)) /\ nonzero_mod p d X /\
  (p <> 0%Z -> forall i j k, i < d -> j < d -> (0 <= numcoef (mentry X i j) k < p)%Z) /\ (reduced_matrix 0 X \/ int_matrix X) /\
  (w <> [] -> reduced_matrix p X).
Proof using EJ ED EG EI Hp1.
  intros [Hw Hl]. destruct Mfacts as (_ & _ & Hp & Hd & _ & SM & _ & _).
  destruct (eval_ok n r p R w EJ Hw) as (d2 & gens2 & invs2 & E2 & X & ED2 & EG2 & EI2 & _ & _ & EX & SX & PX & RX & _).
  rewrite ED in ED2. injection ED2 as ED2. apply Nat2Z.inj in ED2. subst d2. rewrite EG in EG2. injection EG2 as <- <-. rewrite EI in EI2. injection EI2 as <-.
  exists X. split; [exact EX|]. split; [exact SX|]. split; [exact PX|]. split.
  { destruct (M_nonzero (expand w) (word_ok_range n w Hw)) as (i & j & e & Hi & Hj & N). exists i, j, e. split; [exact Hi|]. split; [exact Hj|]. intros Q. apply N.
    apply (meq_ent (NI 0) (neqp p)) in PX; [|apply SX|apply SM]. destruct PX as (_ & _ & PX). destruct SX as (_ & R1 & C1). specialize (PX i j ltac:(lia) ltac:(lia)). apply neqp_congr in PX. specialize (PX e). change (ent (NI 0) X i j) with (mentry X i j) in PX.
    replace (numcoef (mentry (MM (expand w)) i j) e) with (numcoef (mentry X i j) e - (numcoef (mentry X i j) e - numcoef (ent (NI 0) (MM (expand w)) i j) e))%Z by (change (ent (NI 0) (MM (expand w)) i j) with (mentry (MM (expand w)) i j); lia). now apply Z.divide_sub_r. }
  destruct w as [|[i e] w].
  - destruct (C59_empty_word n r p R d EJ ED) as (A & EA & _ & _ & FA). rewrite EX in EA. injection EA as <-. split; [|split; [right; eapply Forall_impl; [|exact FA]; intros x [->| ->]; eauto|contradiction]].
    intros Np i j k Hi Hj. destruct SX as (W & R1 & C1). rewrite Forall_forall in FA. destruct (FA (mentry X i j)) as [-> | ->]; [apply nth_In; rewrite W; nia| |]; cbn [numcoef]; destruct (k =? 0)%Z; lia.
  - assert (NT : nontrivial_word ((i, e) :: w)). { exists i, e. split; [now left|]. inversion Hl as [|? ? K _]; subst. cbn in K. lia. }
    specialize (RX NT). split; [intros Np a b k Ha Hb; now apply coef_of_reduced|]. split; [left; eapply reduced_0; exact RX|auto].
Qed.
Section Table.
Context {T : Type}.
Variables (tb : nat -> res (nftable T)) (t : nftable T).
Hypothesis Etb : tb n = Ok t.
Definition fits64 (X : mat num) : Prop := forall i j k, in_dtype I64 (numcoef (mentry X i j) k).
(** the factor [f] stands for the word [w], whose image can be stored *)
Definition factor_word (f : Z) (w : list (Z * Z)) : Prop :=
  pyget (t_word t) f = Ok w /\ goodw w /\ (p = 0%Z -> forall X, rep_evaluate_artin_word R w = Ok X -> fits64 X).
Lemma agrees_M w X A idx : sq d X -> pmeq p X (MM (expand w)) -> agrees p d X A idx -> agrees p d (MM (expand w)) A idx.
Proof using EJ ED EG EI. intros SX PX. destruct Mfacts as (_ & _ & _ & _ & _ & SM & _). apply agrees_pmeq; auto. Qed.
Lemma factor_ok f w : factor_word f w -> in_dtype I64 p -> exists F, polymat_braid_factor tb R f = Ok F /\ batch_ok p I64 d [] (fun _ => MM (expand w)) F /\ batch_proj p d [] F /\
  forall W, (forall X, rep_evaluate_artin_word R w = Ok X -> span_below X W) -> forall i j e, i < d -> j < d -> W <= e -> acoef F [] i j e = 0%Z.
Proof using EJ ED EG EI Hp1 Etb.
  intros (Ew & Gw & Fw) Ip. destruct Mfacts as (EN & _ & Hp & Hd & _ & SM & _ & _). destruct (value_ok w Gw) as (X & EX & SX & PX & NX & CX & RX & _).
  destruct (image_ok p I64 X d SX Hd NX) as (F & EF & (W1 & W2 & W3 & W4 & W5 & KF) & PF & SF).
  - intros i j k Hi Hj. destruct (Z.eq_dec p 0) as [P0|P0]; [now apply (Fw P0 X EX)|]. specialize (CX P0 i j k Hi Hj). unfold in_dtype in *. lia.
  - exact CX.
  - destruct RX as [RX|RX]; auto.
  - exists F. split; [unfold polymat_braid_factor; rewrite EN, Etb; cbn [bind]; rewrite Ew; cbn [bind]; rewrite EX; exact EF|]. split; [|split; [exact PF|]].
    + split; [exact W1|]. do 4 (split; [assumption|]). intros idx V. now apply (agrees_M w X), KF.
    + intros W HW. apply SF. now apply HW.
Qed.
Lemma valid1 N idx : valid_index [N] idx -> exists k, idx = [k] /\ k < N.
Proof. intros V. destruct idx as [|k [|k' idx]]; [inversion V| |exfalso; apply Forall2_length' in V; cbn in V; lia]. exists k. split; [reflexivity|]. inversion V; assumption. Qed.
Lemma mapM_nth {A B} (f : A -> res B) (g : nat -> B) l : (forall k x, nth_error l k = Some x -> f x = Ok (g k)) -> mapM f l = Ok (map g (seq 0 (length l))).
Proof.
  revert g. induction l as [|x l IH]; intros g K; [reflexivity|]. cbn [mapM length seq map]. rewrite (K 0 x eq_refl). cbn [bind]. rewrite (IH (fun k => g (S k))) by (intros k y Hk; now apply (K (S k))). cbn [bind]. now rewrite <- seq_shift, map_map.
Qed.
Lemma choice_list {B} (P : nat -> B -> Prop) (b0 : B) N : (forall k, k < N -> exists b, P k b) -> exists g : nat -> B, forall k, k < N -> P k (g k).
Proof.
  intros K. assert (Q : exists l, length l = N /\ forall k, k < N -> P k (nth k l b0)).
  { induction N as [|N IH]; [exists []; split; [reflexivity|intros; lia]|]. destruct IH as [l [L Kl]]; [intros; apply K; lia|]. destruct (K N ltac:(lia)) as [b Hb]. exists (l ++ [b]). split; [rewrite app_length; cbn; lia|]. intros k Hk.
    destruct (Nat.lt_ge_cases k N); [rewrite app_nth1 by lia; now apply Kl|]. assert (k = N) by lia. subst k. rewrite app_nth2 by lia. rewrite L, Nat.sub_diag. exact Hb. }
  destruct Q as [l [_ Kl]]. exists (fun k => nth k l b0). exact Kl.
Qed.
Lemma step_ok N (u : nat -> bword) (col : list Z) (ws : nat -> list (Z * Z)) P K W : 1 <= N -> length col = N -> (forall k, k < N -> in_range n (u k)) ->
  (forall k, k < N -> factor_word (nth k col 0%Z) (ws k)) -> in_dtype I64 p ->
  batch_ok p I64 d [N] (fun idx => MM (u (hd 0 idx))) P ->
  (p <> 0%Z -> (Z.of_nat d * (Z.of_nat W * (K * (p - 1))) < 2 ^ 63)%Z /\ (0 <= K)%Z /\ (forall k i j e, k < N -> i < d -> j < d -> (Z.abs (acoef P [k] i j e) <= K)%Z) /\
     forall k X, k < N -> rep_evaluate_artin_word R (ws k) = Ok X -> span_below X W) ->
  (p = 0%Z -> forall k, k < N -> fits64 (MM (u k ++ expand (ws k)))) ->
  exists Q, polymat_step tb R P col = Ok Q /\ batch_ok p I64 d [N] (fun idx => MM (u (hd 0 idx) ++ expand (ws (hd 0 idx)))) Q /\ batch_proj p d [N] Q.
Proof using EJ ED EG EI Hp1 Etb.
  intros HN LC HU HF Ip BP BN BZ. destruct Mfacts as (_ & EPP & Hp & Hd & _ & SM & BM & PM).
  destruct (choice_list (fun k F => polymat_braid_factor tb R (nth k col 0%Z) = Ok F /\ batch_ok p I64 d [] (fun _ => MM (expand (ws k))) F /\ batch_proj p d [] F /\
    forall W, (forall X, rep_evaluate_artin_word R (ws k) = Ok X -> span_below X W) -> forall i j e, i < d -> j < d -> W <= e -> acoef F [] i j e = 0%Z) A_default N) as [g Hg].
  { intros k Hk. apply factor_ok; auto. }
  unfold polymat_step. rewrite (mapM_nth _ g) by (intros k x Hk; assert (Lk : k < N) by (rewrite <- LC; apply nth_error_Some; congruence); rewrite <- (nth_error_nth _ _ 0%Z Hk); now apply Hg). cbn [bind]. rewrite LC.
  set (Fs := map g (seq 0 N)). assert (LF : length Fs = N) by (unfold Fs; now rewrite map_length, seq_length).
  assert (NF : forall k A, nth_error Fs k = Some A -> k < N /\ A = g k). { intros k A Hk. assert (Lk : k < N) by (rewrite <- LF; apply nth_error_Some; congruence). split; [exact Lk|]. unfold Fs in Hk. rewrite nth_error_map, (nth_error_nth' (seq 0 N) 0), seq_nth in Hk by (rewrite ?seq_length; lia). cbn in Hk. congruence. }
  destruct (pack_batch p I64 d Fs (fun k => MM (expand (ws k)))) as (B & EB & BB & KB).
  { intros Q. rewrite Q in LF. cbn in LF. lia. }
  { intros k A Hk. destruct (NF k A Hk) as [Lk ->]. now apply Hg. }
  rewrite EB. cbn [bind]. rewrite LF in BB. rewrite EPP.
  assert (KB' : forall k i j e, k < N -> i < d -> j < d -> acoef B [k] i j e = acoef (g k) [] i j e).
  { intros k i j e Hk Hi Hj. apply (KB k (g k)); auto. unfold Fs. rewrite nth_error_map, (nth_error_nth' (seq 0 N) 0), seq_nth by (rewrite ?seq_length; lia). reflexivity. }
  assert (DB : 1 <= aD B). { destruct (Hg 0 ltac:(lia)) as (_ & _ & PF & _). destruct (PF [] ltac:(constructor)) as [[(i & j & Hi & Hj & Q) _] _]. rewrite <- (KB' 0) in Q by (auto; lia). unfold acoef in Q. destruct (Nat.ltb_spec 0 (aD B)); [lia|contradiction]. }
  pose proof BP as (WP & PP1 & PP2 & PP3 & PP4 & KP). pose proof BB as (WB & PB1 & PB2 & PB3 & PB4 & KBB).
  assert (MX : forall k, k < N -> pmeq p (pr (MM (u k)) (MM (expand (ws k)))) (MM (u k ++ expand (ws k)))) by (intros k Hk; symmetry; apply PM).
  destruct (polymat_mul_ok p I64 d [N] P B (fun idx => MM (u (hd 0 idx))) (fun idx => MM (expand (ws (hd 0 idx))))) as (Q & EQ & BQ & PQ); auto.
  - cbn. lia.
  - intros _. apply fits_ok. exact Ip.
  - intros idx V. destruct (valid1 N idx V) as [k [-> Hk]]. cbn [hd]. split; [apply SM|]. split; [apply SM|].
    destruct (HF k Hk) as (_ & [Gw _] & _). destruct (M_nonzero (u k ++ expand (ws k))) as (i & j & e & Hi & Hj & NZ); [apply in_range_app; split; [now apply HU|now apply word_ok_range]|].
    exists i, j, e. split; [exact Hi|]. split; [exact Hj|]. intros D. apply NZ. pose proof (MX k Hk) as QQ. apply (meq_ent (NI 0) (neqp p)) in QQ; [|apply sq_pr with d; auto|apply SM]. destruct QQ as (_ & _ & QQ). pose proof (SM (u k)) as (_ & R1 & C1). pose proof (SM (expand (ws k))) as (_ & R2 & C2).
    specialize (QQ i j ltac:(cbn [mrows MatrixTheory.prod]; lia) ltac:(cbn [mcols MatrixTheory.prod]; lia)). apply neqp_congr in QQ. specialize (QQ e).
    change (p | numcoef (mentry (pr (MM (u k)) (MM (expand (ws k)))) i j) e - numcoef (mentry (MM (u k ++ expand (ws k))) i j) e)%Z in QQ.
    replace (numcoef (mentry (MM (u k ++ expand (ws k))) i j) e) with (numcoef (mentry (pr (MM (u k)) (MM (expand (ws k)))) i j) e - (numcoef (mentry (pr (MM (u k)) (MM (expand (ws k)))) i j) e - numcoef (mentry (MM (u k ++ expand (ws k))) i j) e))%Z by lia. now apply Z.divide_sub_r.
  - intros idx i k e V Hi Hk. destruct (valid1 N idx V) as [q [-> Hq]]. destruct (Z.eq_dec p 0) as [P0|P0].
    + pose proof (KP [q] V) as A1. pose proof (KBB [q] V) as A2. cbn [hd] in A1, A2. rewrite P0 in A1, A2. destruct (exact_product d (MM (u q)) (MM (expand (ws q))) P B [q] [q] WP WB (SM _) (SM _) A1 A2) as [s Hs]. rewrite Hs by assumption.
      pose proof (MX q Hq) as QQ. apply (meq_ent (NI 0) (neqp p)) in QQ; [|apply sq_pr with d; auto|apply SM]. destruct QQ as (_ & _ & QQ). pose proof (SM (u q)) as (_ & R1 & C1). pose proof (SM (expand (ws q))) as (_ & R2 & C2).
      specialize (QQ i k ltac:(cbn [mrows MatrixTheory.prod]; lia) ltac:(cbn [mcols MatrixTheory.prod]; lia)). apply neqp_congr in QQ. specialize (QQ (Z.of_nat e + s)%Z). rewrite P0 in QQ. destruct QQ as [z QQ]. rewrite Z.mul_0_r in QQ.
      change (ent (NI 0) (pr (MM (u q)) (MM (expand (ws q)))) i k) with (mentry (pr (MM (u q)) (MM (expand (ws q)))) i k) in QQ. change (ent (NI 0) (MM (u q ++ expand (ws q))) i k) with (mentry (MM (u q ++ expand (ws q))) i k) in QQ.
      specialize (BZ P0 q Hq i k (Z.of_nat e + s)%Z). replace (numcoef (mentry (pr (MM (u q)) (MM (expand (ws q)))) i k) (Z.of_nat e + s)) with (numcoef (mentry (MM (u q ++ expand (ws q))) i k) (Z.of_nat e + s)) by lia. exact BZ.
    + destruct (BN P0) as (B1 & B2 & B3 & B4). assert (U : (Z.abs (prod_coef d (acoef P [q]) (acoef B [q]) i k e) <= Z.of_nat d * (Z.of_nat (Nat.min (aD P) W) * (K * (p - 1))))%Z).
      { apply prod_coef_abs; [exact B2|lia| | | |].
        - intros j f Hj. now apply B3.
        - intros j f Hj. rewrite KB' by assumption. destruct (Hg q Hq) as (_ & _ & PF & _). destruct (PF [] ltac:(constructor)) as [_ RF]. specialize (RF j k f Hj Hk P0). lia.
        - intros j f Hj Hf. unfold acoef. destruct (Nat.ltb_spec f (aD P)); [lia|reflexivity].
        - intros j f Hj Hf. rewrite KB' by assumption. destruct (Hg q Hq) as (_ & _ & _ & SF). apply (SF W); auto. intros X EX. now apply (B4 q X). }
      assert (U2 : (Z.of_nat d * (Z.of_nat (Nat.min (aD P) W) * (K * (p - 1))) <= Z.of_nat d * (Z.of_nat W * (K * (p - 1))))%Z) by (apply Z.mul_le_mono_nonneg_l; [lia|]; apply Z.mul_le_mono_nonneg_r; [|lia]; apply Z.mul_nonneg_nonneg; lia).
      unfold in_dtype. cbn [dbits]. change (64 - 1)%Z with 63%Z. lia.
  - lia.
  - exists Q. split; [exact EQ|]. split; [|exact PQ]. destruct BQ as (WQ & Q1 & Q2 & Q3 & Q4 & KQ). split; [exact WQ|]. do 4 (split; [assumption|]). intros idx V. specialize (KQ idx V). destruct (valid1 N idx V) as [k [-> Hk]]. cbn [hd] in *.
    apply (agrees_pmeq p d _ _ Q [k] ltac:(apply sq_pr with (d := d); auto) (SM _) (MX k Hk) KQ).
Qed.
(** *** the loop over the factors *)
Definition fw (f : Z) : list (Z * Z) := match pyget (t_word t) f with Ok w => w | Err _ => [] end.
Definition fl (fs : list Z) : bword := flat_map (fun f => expand (fw f)) fs.
Lemma fl_app a b : fl (a ++ b) = fl a ++ fl b. Proof using Type. apply flat_map_app. Qed.
Lemma fl_range fs : (forall f, In f fs -> goodw (fw f)) -> in_range n (fl fs).
Proof using Type. intros K. induction fs as [|f fs IH]; [constructor|]. cbn [fl flat_map]. apply in_range_app. split; [apply word_ok_range, K; now left|apply IH; intros; apply K; now right]. Qed.
Lemma get_nth {A} (l : list A) i x : i < length l -> get l i = Ok (nth i l x).
Proof using Type. intros Hi. unfold get. rewrite (nth_error_nth' l x Hi). reflexivity. Qed.
Lemma firstn_S_nth {A} (l : list A) i x : i < length l -> firstn (S i) l = firstn i l ++ [nth i l x].
Proof using Type. revert i. induction l as [|y l IH]; intros i Hi; [cbn in Hi; lia|]. destruct i as [|i]; [reflexivity|]. cbn [firstn nth List.app]. f_equal. apply IH. cbn in Hi. lia. Qed.
Lemma run_ok {B : Type} (bs : list B) (fac : B -> list Z) (b0 : B) (u : nat -> bword) len K W P : 1 <= length bs -> (forall b, In b bs -> length (fac b) = len) ->
  (forall b f, In b bs -> In f (fac b) -> factor_word f (fw f)) -> in_dtype I64 p -> (forall k, k < length bs -> in_range n (u k)) ->
  batch_ok p I64 d [length bs] (fun idx => MM (u (hd 0 idx))) P ->
  (p <> 0%Z -> (Z.of_nat d * (Z.of_nat W * (K * (p - 1))) < 2 ^ 63)%Z /\ (p - 1 <= K)%Z /\ (forall k i j e, k < length bs -> i < d -> j < d -> (Z.abs (acoef P [k] i j e) <= K)%Z) /\
     forall b f X, In b bs -> In f (fac b) -> rep_evaluate_artin_word R (fw f) = Ok X -> span_below X W) ->
  (p = 0%Z -> forall k i, k < length bs -> i <= len -> fits64 (MM (u k ++ fl (firstn i (fac (nth k bs b0)))))) ->
  exists Q, foldM (fun result i => col <- mapM (fun b => get (fac b) i) bs ;; polymat_step tb R result col) (seq 0 len) P = Ok Q /\
    batch_ok p I64 d [length bs] (fun idx => MM (u (hd 0 idx) ++ fl (fac (nth (hd 0 idx) bs b0)))) Q /\ (len <> 0 \/ batch_proj p d [length bs] P -> batch_proj p d [length bs] Q).
Proof using EJ ED EG EI Hp1 Etb.
  intros HN HL HF Ip HU BP BN BZ.
  assert (G : forall m i P, i + m = len -> (p <> 0%Z -> forall k a b e, k < length bs -> a < d -> b < d -> (Z.abs (acoef P [k] a b e) <= K)%Z) ->
    batch_ok p I64 d [length bs] (fun idx => MM (u (hd 0 idx) ++ fl (firstn i (fac (nth (hd 0 idx) bs b0))))) P ->
    exists Q, foldM (fun result i => col <- mapM (fun b => get (fac b) i) bs ;; polymat_step tb R result col) (seq i m) P = Ok Q /\
      batch_ok p I64 d [length bs] (fun idx => MM (u (hd 0 idx) ++ fl (fac (nth (hd 0 idx) bs b0)))) Q /\ (m <> 0 \/ batch_proj p d [length bs] P -> batch_proj p d [length bs] Q)).
  { assert (BN0 : p <> 0%Z -> (Z.of_nat d * (Z.of_nat W * (K * (p - 1))) < 2 ^ 63)%Z /\ (p - 1 <= K)%Z /\ forall b f X, In b bs -> In f (fac b) -> rep_evaluate_artin_word R (fw f) = Ok X -> span_below X W) by (intros P1; destruct (BN P1) as (A1 & A2 & _ & A4); auto).
    clear P BP BN. induction m as [|m IH]; intros i P0 Him KP BP; cbn [seq foldM].
    - exists P0. split; [reflexivity|]. split; [|intros [Q|Q]; [contradiction|exact Q]].
      destruct BP as (W1 & W2 & W3 & W4 & W5 & KK). split; [exact W1|]. do 4 (split; [assumption|]). intros idx V. specialize (KK idx V). destruct (valid1 _ idx V) as [k [-> Hk]]. cbn [hd] in *.
      rewrite firstn_all2 in KK; [exact KK|]. rewrite (HL (nth k bs b0)) by now apply nth_In. lia. 
    - assert (LI : forall b, In b bs -> i < length (fac b)) by (intros b Hb; rewrite (HL b Hb); lia).
      rewrite (mapM_ok (fun b => get (fac b) i) (fun b => nth i (fac b) 0%Z)) by (intros b Hb; apply get_nth; now apply LI). cbn [bind].
      pose (ws := fun k => fw (nth i (fac (nth k bs b0)) 0%Z)). pose (uu := fun k => u k ++ fl (firstn i (fac (nth k bs b0)))).
      assert (EX : forall k, k < length bs -> u k ++ fl (firstn (S i) (fac (nth k bs b0))) = uu k ++ expand (ws k)).
      { intros k Hk. unfold uu, ws. rewrite (firstn_S_nth _ i 0%Z) by (apply LI; now apply nth_In). rewrite fl_app, app_assoc. f_equal. cbn [fl flat_map]. apply app_nil_r. }
      assert (INF : forall k, k < length bs -> In (nth k bs b0) bs /\ In (nth i (fac (nth k bs b0)) 0%Z) (fac (nth k bs b0))) by (intros k Hk; pose proof (nth_In bs b0 Hk) as IB; split; [exact IB|apply nth_In; now apply LI]).
      destruct (step_ok (length bs) uu (map (fun b => nth i (fac b) 0%Z) bs) ws P0 K W) as (Q & EQ & BQ & PQ); auto.
      + now rewrite map_length.
      + intros k Hk. unfold uu. apply in_range_app. split; [now apply HU|]. apply fl_range. intros f Hf. apply (HF (nth k bs b0)); [now apply nth_In|]. rewrite <- (firstn_skipn i). apply in_or_app. now left.
      + intros k Hk. rewrite (nth_indep _ 0%Z (nth i (fac b0) 0%Z)) by now rewrite map_length. rewrite (map_nth (fun b => nth i (fac b) 0%Z)). unfold ws. destruct (INF k Hk). now apply (HF (nth k bs b0)).
      + intros P1. destruct (BN0 P1) as (A1 & A2 & A4). split; [exact A1|]. split; [destruct Mfacts as (_ & _ & Hp & _); lia|]. split; [now apply KP|]. intros k X Hk. unfold ws. destruct (INF k Hk). now apply (A4 (nth k bs b0) (nth i (fac (nth k bs b0)) 0%Z)).
      + intros P1 k Hk. rewrite <- EX by exact Hk. apply BZ; auto. lia.
      + rewrite EQ. cbn [bind]. destruct (IH (S i) Q ltac:(lia)) as (Q' & EQ' & BQ' & PQ').
        * intros P1 k a b e Hk Ha Hb. destruct (BN0 P1) as (A1 & A2 & A4). destruct (PQ [k]) as [_ RG]; [constructor; [exact Hk|constructor]|]. specialize (RG a b e Ha Hb P1). lia.
        * destruct BQ as (W1 & W2 & W3 & W4 & W5 & KK). split; [exact W1|]. do 4 (split; [assumption|]). intros idx V. specialize (KK idx V). destruct (valid1 _ idx V) as [k [-> Hk]]. cbn [hd] in *. rewrite EX by exact Hk. exact KK.
        * exists Q'. split; [exact EQ'|]. split; [exact BQ'|]. intros _. apply PQ'. now right. }
  destruct (G len 0 P) as (Q & EQ & BQ & PQ); [lia| | |].
  - intros P1. destruct (BN P1) as (_ & _ & A3 & _). exact A3.
  - destruct BP as (W1 & W2 & W3 & W4 & W5 & KK). split; [exact W1|]. do 4 (split; [assumption|]). intros idx V. specialize (KK idx V). cbn [firstn fl flat_map]. now rewrite app_nil_r.
  - exists Q. auto.
Qed.
(** *** powers of Delta *)
Lemma Mpow_pmeq w X q : goodw w -> rep_evaluate_artin_word R w = Ok X -> (0 <= q)%Z -> exists Y, nmat_pow X q = Ok Y /\ sq d Y /\ pmeq p Y (MM (wpow (expand w) q)) /\
  (w <> [] -> reduced_matrix 0 Y \/ int_matrix Y) /\ ((q <= 1)%Z -> p <> 0%Z -> forall i j k, i < d -> j < d -> (0 <= numcoef (mentry Y i j) k < p)%Z).
Proof using EJ ED EG EI Hp1.
  intros Gw EX Hq. destruct Mfacts as (_ & _ & Hp & Hd & HE & SM & BM & PM). destruct (value_ok w Gw) as (X' & EX' & SX & PX & NX & CX & RX & RW). rewrite EX in EX'. injection EX' as <-.
  destruct (npow_ok p d E X q HE SX Hq) as (Y & EY & SY & PY). exists Y. split; [exact EY|]. split; [exact SY|]. split; [|split].
  - rewrite PY. unfold wpow. destruct (Z.leb_spec 0 q); [|lia]. clear EY PY. generalize (Z.to_nat q). intros k. induction k as [|k IH]; cbn [mpow_nat repeat concat]; [reflexivity|]. rewrite PM. apply (pr_meq p d); auto; apply (mp_sq d E X k HE SX) || idtac; auto.
  - intros Nw. destruct (Z.eq_dec q 0) as [->|Nq].
    + right. unfold nmat_pow, mat_pow in EY. destruct SX as (_ & R1 & C1). rewrite R1, C1, Nat.eqb_refl in EY. cbn [negb Z.ltb Z.compare] in EY. destruct (nid_ok d) as [E' [EE' HE']]. unfold nmat_identity in EE'. rewrite EE' in EY. cbn [bind mat_pow_loop] in EY. injection EY as <-.
      destruct HE' as (W' & R' & C' & K'). apply Forall_forall. intros x Hx. apply (In_nth _ _ (NI 0)) in Hx. destruct Hx as [a [Ha <-]]. unfold mwf in W'. rewrite W', R', C' in Ha. destruct (pos_split d d a Ha) as (A1 & B1 & D1). specialize (K' _ _ A1 B1). unfold ent, entry in K'. rewrite C', <- D1 in K'. rewrite K'. destruct (_ =? _); eauto.
    + left. assert (LX : lentm X) by (eapply Forall_impl; [|exact (RW Nw)]; intros x; apply reduced_lent). pose proof (lentm_pow d X q Y Hd SX LX ltac:(lia) EY) as LY. eapply Forall_impl; [|exact LY]. apply lent_reduced0.
  - intros Q1 P1 i j k Hi Hj. destruct (npow_ok 0 d E X q HE SX Hq) as (Y' & EY' & _ & PY0). rewrite EY in EY'. injection EY' as <-.
    assert (Q : pmeq 0 Y (if (q =? 0)%Z then E else X)). { assert (q = 0 \/ q = 1)%Z as [-> | ->] by lia; [exact PY0|]. etransitivity; [exact PY0|]. cbn [Z.eqb Z.to_nat]. change (Pos.to_nat 1) with 1. cbn [mpow_nat]. first [apply (pr_id_r 0 d E X HE SX)|apply (pr_id_l 0 d E X HE SX)]. }
    assert (SZ : sq d (if (q =? 0)%Z then E else X)) by (destruct (q =? 0)%Z; [now apply isid_sq|exact SX]).
    apply (meq_ent (NI 0) (neqp 0)) in Q; [|apply SY|apply SZ]. destruct Q as (_ & _ & Q). destruct SY as (_ & R1 & C1). specialize (Q i j ltac:(lia) ltac:(lia)). apply neqp_congr in Q. destruct (Q k) as [z Qz]. rewrite Z.mul_0_r in Qz. change (ent (NI 0) Y i j) with (mentry Y i j) in Qz. replace (numcoef (mentry Y i j) k) with (numcoef (ent (NI 0) (if (q =? 0)%Z then E else X) i j) k) by lia.
    destruct (q =? 0)%Z; [|now apply CX]. destruct HE as (_ & _ & _ & KE). rewrite KE by assumption. destruct (i =? j); cbn [numcoef]; destruct (k =? 0)%Z; lia.
Qed.
Lemma start_ok {B : Type} (bs : list B) (q : B -> Z) (b0 : B) Dw K : pyget (t_word t) (t_D t) = Ok Dw -> goodw Dw -> Dw <> [] -> 1 <= length bs ->
  (forall b, In b bs -> (0 <= q b < t_tau_order t)%Z) ->
  (p <> 0%Z -> (K < 2 ^ 63)%Z /\ forall b X Y i j k, In b bs -> rep_evaluate_artin_word R Dw = Ok X -> nmat_pow X (q b) = Ok Y -> i < d -> j < d -> (Z.abs (numcoef (mentry Y i j) k) <= K)%Z) ->
  (p = 0%Z -> forall b, In b bs -> fits64 (MM (wpow (expand Dw) (q b)))) ->
  exists P, (ds <- mapM (fun b => polymat_delta_power tb R (q b)) bs ;; pack ds) = Ok P /\
    batch_ok p I64 d [length bs] (fun idx => MM (wpow (expand Dw) (q (nth (hd 0 idx) bs b0)))) P /\
    (p <> 0%Z -> forall k i j e, k < length bs -> i < d -> j < d -> (Z.abs (acoef P [k] i j e) <= K)%Z) /\
    (forall k, k < length bs -> least_degree (acoef P [k]) d d 0) /\
    ((forall b, In b bs -> (q b <= 1)%Z) -> batch_proj p d [length bs] P).
Proof using EJ ED EG EI Hp1 Etb.
  intros ED' GD ND HN HQ BN BZ. destruct Mfacts as (EN & EPP & Hp & Hd & HE & SM & BM & PM). destruct (value_ok Dw GD) as (X & EX & SX & PX & NX & CX & RX & RW).
  assert (KD : forall b, In b bs -> exists A, polymat_delta_power tb R (q b) = Ok A /\ batch_ok p I64 d [] (fun _ => MM (wpow (expand Dw) (q b))) A /\
    (p <> 0%Z -> forall i j e, i < d -> j < d -> (Z.abs (acoef A [] i j e) <= K)%Z) /\ least_degree (acoef A []) d d 0 /\ ((q b <= 1)%Z -> p <> 0%Z -> forall i j e, i < d -> j < d -> (0 <= acoef A [] i j e < p)%Z)).
  { intros b Hb. specialize (HQ b Hb). destruct (Mpow_pmeq Dw X (q b) GD EX ltac:(lia)) as (Y & EY & SY & PY & RY & CY). specialize (RY ND).
    assert (GR : in_range n (wpow (expand Dw) (q b))) by (apply in_range_wpow, word_ok_range, GD).
    assert (PE : forall i j k, i < d -> j < d -> (p | numcoef (mentry Y i j) k - numcoef (mentry (MM (wpow (expand Dw) (q b))) i j) k)%Z).
    { intros i j k Hi Hj. pose proof PY as Q. apply (meq_ent (NI 0) (neqp p)) in Q; [|apply SY|apply SM]. destruct Q as (_ & _ & Q). destruct SY as (_ & R1 & C1). specialize (Q i j ltac:(lia) ltac:(lia)). apply neqp_congr in Q. apply Q. }
    destruct (image_gen p I64 Y d SY Hd) as (A & EA & BA & CA & LA).
    - destruct (M_nonzero _ GR) as (i & j & e & Hi & Hj & N). exists i, j, e. split; [exact Hi|]. split; [exact Hj|]. intros Q. apply N. specialize (PE i j e Hi Hj). rewrite Q in PE. rewrite Z.sub_0_l in PE. now apply Z.divide_opp_r.
    - intros i j k Hi Hj. destruct (Z.eq_dec p 0) as [P0|P0].
      + specialize (PE i j k Hi Hj). rewrite P0 in PE. destruct PE as [z PE]. specialize (BZ P0 b Hb i j k). replace (numcoef (mentry Y i j) k) with (numcoef (mentry (MM (wpow (expand Dw) (q b))) i j) k) by lia. exact BZ.
      + destruct (BN P0) as [B1 B2]. specialize (B2 b X Y i j k Hb EX EY Hi Hj). unfold in_dtype. cbn [dbits]. change (64 - 1)%Z with 63%Z. lia.
    - destruct RY as [RY|RY]; auto.
    - exists A. split; [|split; [|split; [|split]]].
      + unfold polymat_delta_power. rewrite EN, Etb. cbn [bind]. rewrite (proj2 (Z.leb_le 0 (q b))), (proj2 (Z.ltb_lt (q b) (t_tau_order t))) by lia. cbn [andb assert_ bind]. rewrite ED'. cbn [bind]. rewrite EX. cbn [bind]. rewrite EY. cbn [bind]. exact EA.
      + destruct BA as (W1 & W2 & W3 & W4 & W5 & KA). split; [exact W1|]. do 4 (split; [assumption|]). intros idx V. apply (agrees_pmeq p d Y _ A idx SY (SM _) PY). now apply KA.
      + intros P0 i j e Hi Hj. destruct (CA i j e Hi Hj) as [k ->]. destruct (BN P0) as [_ B2]. now apply (B2 b X Y).
      + exact LA.
      + intros Q1 P0 i j e Hi Hj. destruct (CA i j e Hi Hj) as [k ->]. now apply CY. }
  destruct (choice_list (fun k A => polymat_delta_power tb R (q (nth k bs b0)) = Ok A /\ batch_ok p I64 d [] (fun _ => MM (wpow (expand Dw) (q (nth k bs b0)))) A /\
    (p <> 0%Z -> forall i j e, i < d -> j < d -> (Z.abs (acoef A [] i j e) <= K)%Z) /\ least_degree (acoef A []) d d 0 /\ ((q (nth k bs b0) <= 1)%Z -> p <> 0%Z -> forall i j e, i < d -> j < d -> (0 <= acoef A [] i j e < p)%Z)) A_default (length bs)) as [g Hg].
  { intros k Hk. apply KD. now apply nth_In. }
  rewrite (mapM_nth _ g) by (intros k x Hk; assert (Lk : k < length bs) by (apply nth_error_Some; congruence); rewrite <- (nth_error_nth _ _ b0 Hk); now apply Hg). cbn [bind].
  set (Fs := map g (seq 0 (length bs))). assert (LF : length Fs = length bs) by (unfold Fs; now rewrite map_length, seq_length).
  assert (NF : forall k A, nth_error Fs k = Some A -> k < length bs /\ A = g k). { intros k A Hk. assert (Lk : k < length bs) by (rewrite <- LF; apply nth_error_Some; congruence). split; [exact Lk|]. unfold Fs in Hk. rewrite nth_error_map, (nth_error_nth' (seq 0 (length bs)) 0), seq_nth in Hk by (rewrite ?seq_length; lia). cbn in Hk. congruence. }
  destruct (pack_batch p I64 d Fs (fun k => MM (wpow (expand Dw) (q (nth k bs b0))))) as (P & EP & BP & KP).
  { intros Q. rewrite Q in LF. cbn in LF. lia. }
  { intros k A Hk. destruct (NF k A Hk) as [Lk ->]. now apply Hg. }
  assert (KP' : forall k i j e, k < length bs -> i < d -> j < d -> acoef P [k] i j e = acoef (g k) [] i j e).
  { intros k i j e Hk Hi Hj. apply (KP k (g k)); auto. unfold Fs. rewrite nth_error_map, (nth_error_nth' (seq 0 (length bs)) 0), seq_nth by (rewrite ?seq_length; lia). reflexivity. }
  rewrite LF in BP. exists P. split; [exact EP|]. split; [exact BP|].
  assert (LP : forall k, k < length bs -> least_degree (acoef P [k]) d d 0).
  { intros k Hk. destruct (Hg k Hk) as (_ & _ & _ & [(i & j & Hi & Hj & Q) L2] & _). split; [exists i, j; rewrite KP' by assumption; auto|]. intros i' j' e Hi' Hj' He. lia. }
  split; [intros P0 k i j e Hk Hi Hj; rewrite KP' by assumption; now apply Hg|]. split; [exact LP|].
  intros Q1 idx V. destruct (valid1 _ idx V) as [k [-> Hk]]. split; [now apply LP|]. intros i j e Hi Hj P0. rewrite KP' by assumption. apply Hg; auto. apply Q1. now apply nth_In.
Qed.
(** *** polymat_evaluate_braids_of_same_length *)
Lemma wpow_nest (w : bword) m k : in_range n w -> braid_eq n (wpow (wpow w m) k) (wpow w (m * k)).
Proof using Type.
  intros Hw. induction k as [|k IH|k IH] using Zind2.
  - rewrite Z.mul_0_r. reflexivity.
  - rewrite wpow_succ by now apply in_range_wpow. rewrite IH, <- wpow_add by exact Hw. replace (m + m * k)%Z with (m * (k + 1))%Z by ring. reflexivity.
  - rewrite wpow_pred by now apply in_range_wpow. rewrite IH. assert (Q : braid_eq n (winv (wpow w m)) (wpow w (- m))).
    { rewrite <- (app_nil_r (winv (wpow w m))). change (@nil (nat * bool)) with (wpow w 0). replace 0%Z with (m + - m)%Z by lia. rewrite wpow_add by exact Hw. rewrite app_assoc, be_inv_l by now apply in_range_wpow. reflexivity. }
    rewrite Q, <- wpow_add by exact Hw. replace (- m + m * k)%Z with (m * (k - 1))%Z by ring. reflexivity.
Qed.
Lemma same_length_ok (bs : list nfobj) (b0 : nfobj) len Dw K W : pyget (t_word t) (t_D t) = Ok Dw -> goodw Dw -> Dw <> [] -> 1 <= length bs -> (0 < t_tau_order t)%Z ->
  braid_eq n (wpow (expand Dw) (t_tau_order t)) (FTw n) -> (forall b, In b bs -> length (o_factors b) = len) -> (forall b f, In b bs -> In f (o_factors b) -> factor_word f (fw f)) -> in_dtype I64 p ->
  (p <> 0%Z -> (K < 2 ^ 63)%Z /\ (Z.of_nat d * (Z.of_nat W * (K * (p - 1))) < 2 ^ 63)%Z /\ (p - 1 <= K)%Z /\
     (forall b X Y i j k, In b bs -> rep_evaluate_artin_word R Dw = Ok X -> nmat_pow X (o_pow b mod t_tau_order t) = Ok Y -> i < d -> j < d -> (Z.abs (numcoef (mentry Y i j) k) <= K)%Z) /\
     forall b f X, In b bs -> In f (o_factors b) -> rep_evaluate_artin_word R (fw f) = Ok X -> span_below X W) ->
  (p = 0%Z -> forall b i, In b bs -> i <= len -> fits64 (MM (wpow (expand Dw) (o_pow b mod t_tau_order t) ++ fl (firstn i (o_factors b))))) ->
  exists P, polymat_evaluate_braids_of_same_length tb R bs = Ok P /\ wfa P /\ apre P = [length bs] /\ aI P = d /\ aJ P = d /\ adt P = I64 /\
    (forall k, k < length bs -> agrees p d (MM (wpow (expand Dw) (o_pow (nth k bs b0)) ++ fl (o_factors (nth k bs b0)))) P [k] /\ least_degree (acoef P [k]) d d 0) /\
    (len <> 0 \/ (forall b, In b bs -> (o_pow b mod t_tau_order t <= 1)%Z) -> forall k i j e, k < length bs -> i < d -> j < d -> p <> 0%Z -> (0 <= acoef P [k] i j e < p)%Z).
Proof using EJ ED EG EI Hp1 Etb.
  intros ED' GD ND HN HT ET HL HF Ip BN BZ. destruct Mfacts as (EN & EPP & Hp & Hd & HE & SM & BM & PM). set (tau := t_tau_order t) in *. pose proof (word_ok_range n Dw (proj1 GD)) as RD.
  destruct (start_ok bs (fun b => (o_pow b mod tau)%Z) b0 Dw K ED' GD ND HN) as (P & EP & BP & AP & LP & PP).
  - intros b _. apply Z.mod_pos_bound. exact HT.
  - intros P0. destruct (BN P0) as (B1 & B2 & B3 & B4 & B5). split; [exact B1|exact B4].
  - intros P0 b Hb. specialize (BZ P0 b 0 Hb ltac:(lia)). cbn [firstn fl flat_map] in BZ. now rewrite app_nil_r in BZ.
  - destruct (run_ok bs o_factors b0 (fun k => wpow (expand Dw) (o_pow (nth k bs b0) mod tau)) len K W P HN HL HF Ip) as (Q & EQ & BQ & PQ).
    + intros k Hk. now apply in_range_wpow.
    + exact BP.
    + intros P0. destruct (BN P0) as (B1 & B2 & B3 & B4 & B5). split; [exact B2|]. split; [exact B3|]. split; [now apply AP|exact B5].
    + intros P0 k i Hk Hi. apply BZ; auto. now apply nth_In.
    + exists Q. destruct BQ as (W1 & W2 & W3 & W4 & W5 & KQ). split.
      { unfold polymat_evaluate_braids_of_same_length. destruct bs as [|b bs]; [cbn in HN; lia|]. rewrite (get_nth (b :: bs) 0 b) by (cbn; lia). cbn [nth bind].
        assert (FB : forallb (fun b1 => length (o_factors b1) =? length (o_factors b)) (b :: bs) = true) by (apply forallb_forall; intros x Hx; rewrite (HL x Hx), (HL b) by (now left); apply Nat.eqb_refl). rewrite FB. cbn [assert_ bind]. rewrite EN, Etb. cbn [bind]. fold tau.
        destruct (mapM (fun b1 => polymat_delta_power tb R (o_pow b1 mod tau)) (b :: bs)) as [ds|] eqn:Eds; cbn [bind] in EP |- *; [|discriminate]. rewrite EP. cbn [bind]. rewrite (HL b) by now left. exact EQ. }
      split; [exact W1|]. do 4 (split; [assumption|]). assert (VK : forall k, k < length bs -> valid_index [length bs] [k]) by (intros k Hk; constructor; [exact Hk|constructor]). split.
      * intros k Hk. split.
        { specialize (KQ [k] (VK k Hk)). cbn [hd] in KQ. set (b := nth k bs b0) in *.
          apply (agrees_twist (o_pow b / tau)) in KQ. eapply agrees_pmeq; [apply SM|apply SM| |exact KQ]. apply BM. rewrite app_assoc. apply be_app; [|reflexivity].
          rewrite <- (wpow_mor n _ _ (o_pow b / tau) ET). rewrite wpow_nest by exact RD. rewrite <- wpow_add by exact RD. rewrite <- Z.div_mod by lia. reflexivity. }
        { destruct len as [|len]; [|apply (PQ ltac:(left; lia) [k] (VK k Hk))]. cbn [seq foldM] in EQ. injection EQ as <-. now apply LP. }
      * intros KL k i j e Hk Hi Hj P0. apply (PQ ltac:(destruct KL as [KL|KL]; [left; exact KL|right; now apply PP]) [k] (VK k Hk)); auto.
Qed.
End Table.
End Eval.
