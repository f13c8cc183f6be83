(** PropsPolymat4.v – C91: the identity polymat is neutral for mul, and [A % p]
    reduces every coefficient. *)
From Verif Require Import Base ModelPoly SpecPoly ModelMatrix ModelPolymat SpecPolymat PolymatTheory PropsPolymat.
From Verif Require PolyRepTheory PropsPolymat3.
Local Open Scope nat_scope.

(** ** the identity *)
(** [eye(n)] is one n x n matrix of constants, int64, with ones exactly on the
    diagonal; a negative n is refused *)
Theorem C91_eye n :
  ((0 <= n)%Z -> exists E, eye n = Ok E /\ wfa E /\ apre E = [] /\ Z.of_nat (aI E) = n /\ Z.of_nat (aJ E) = n /\ aD E = 1 /\ adt E = I64 /\
     forall i j d, i < aI E -> j < aJ E -> acoef E [] i j d = if (i =? j) && (d =? 0) then 1%Z else 0%Z) /\
  ((n < 0)%Z -> eye n = Err ValueError).
Proof.
  split; intros H; unfold eye; destruct (Z.ltb_spec n 0); try lia; [|reflexivity].
  set (m := Z.to_nat n). assert (EP : mkA [] m m 1 I64 [btab m m 1 (fun i j _ => if i =? j then 1%Z else 0%Z)] = ptab [] m m 1 I64 (fun _ i j _ => if i =? j then 1%Z else 0%Z)) by reflexivity.
  rewrite EP. eexists. split; [reflexivity|].
  assert (K : forall (idx : list nat) i j (d : nat), in_dtype I64 (if i =? j then 1%Z else 0%Z)) by (intros; destruct (i =? j); unfold in_dtype; cbn; lia).
  split; [apply ptab_wf; intros; apply (K idx i j d)|]. cbn [ptab apre aI aJ aD adt]. split; [reflexivity|]. split; [lia|]. split; [lia|]. split; [reflexivity|]. split; [reflexivity|].
  intros i j d Hi Hj. rewrite ptab_coef; [|intros idx i0 j0 d0 **; apply (K idx i0 j0 d0)|constructor|exact Hi|exact Hj]. destruct (i =? j), d as [|d]; reflexivity.
Qed.

Lemma zsum_pick n f k : k < n -> (forall i, i < n -> i <> k -> f i = 0%Z) -> zsum n f = f k.
Proof.
  revert f k. induction n as [|n IH]; intros f k Hk H; [lia|].
  assert (ES : zsum (S n) f = (zsum n f + f n)%Z) by reflexivity.
  rewrite ES. destruct (Nat.eq_dec k n) as [->|N].
  - rewrite zsum_0; [lia|]. intros i Hi. apply H; lia.
  - rewrite (IH f k) by (try lia; intros; apply H; lia). rewrite (H n) by lia. lia.
Qed.
Lemma broadcasts_nil_r a : broadcasts a [] a.
Proof. split; [intros k; right; right; unfold axis; cbn; now destruct k|]. split; [cbn; lia|]. intros k. destruct (Nat.eqb_spec (axis a k) 1) as [E|E]; [|reflexivity]. rewrite E. unfold axis. cbn. now destruct k. Qed.
Lemma broadcasts_nil_l a : broadcasts [] a a.
Proof. split; [intros k; right; left; unfold axis; cbn; now destruct k|]. split; [reflexivity|]. intros k. replace (axis [] k) with 1 by (unfold axis; cbn; now destruct k). reflexivity. Qed.
Lemma broadcasts_fun a b c c' : broadcasts a b c -> broadcasts a b c' -> c = c'.
Proof.
  intros (_ & L & K) (_ & L' & K'). rewrite <- (rev_involutive c), <- (rev_involutive c'). f_equal. apply nth_ext with 1 1; [rewrite !rev_length; lia|]. intros k _. specialize (K k). specialize (K' k). unfold axis in *. congruence.
Qed.
Lemma operand_nil idx : operand_index [] idx = [].
Proof. reflexivity. Qed.
Lemma prod_one_r A idx E i k d : aJ A = aI E -> aJ E = aI E -> i < aI A -> k < aI E -> (forall i j d, i < aI E -> j < aI E -> acoef E [] i j d = if (i =? j) && (d =? 0) then 1%Z else 0%Z) ->
  prod_coef (aJ A) (acoef A idx) (acoef E []) i k d = acoef A idx i k d.
Proof.
  intros EJ EE Hi Hk HE. unfold prod_coef. rewrite (zsum_pick _ _ k); [|lia|].
  - rewrite (zsum_pick _ _ d); [|lia|].
    + rewrite HE by lia. rewrite Nat.eqb_refl, Nat.sub_diag. cbn [andb Nat.eqb]. lia.
    + intros e He Ne. rewrite HE by lia. rewrite Nat.eqb_refl. destruct (Nat.eqb_spec (d - e) 0); [lia|]. cbn [andb]. lia.
  - intros j Hj Nj. apply zsum_0. intros e He. rewrite HE by lia. destruct (Nat.eqb_spec j k); [contradiction|]. cbn [andb]. lia.
Qed.
Lemma prod_one_l A idx E i k d : aJ E = aI A -> aJ E = aI E -> i < aI A -> (forall i j d, i < aI E -> j < aI E -> acoef E [] i j d = if (i =? j) && (d =? 0) then 1%Z else 0%Z) ->
  prod_coef (aJ E) (acoef E []) (acoef A idx) i k d = acoef A idx i k d.
Proof.
  intros EJ EE Hi HE. unfold prod_coef. rewrite (zsum_pick _ _ i); [|lia|].
  - rewrite (zsum_pick _ _ 0); [|lia|].
    + rewrite HE by lia. rewrite Nat.eqb_refl, Nat.sub_0_r. cbn [andb Nat.eqb]. lia.
    + intros e He Ne. rewrite HE by lia. destruct (Nat.eqb_spec e 0); [lia|]. rewrite andb_false_r. lia.
  - intros j Hj Nj. apply zsum_0. intros e He. rewrite HE by lia. destruct (Nat.eqb_spec i j); [lia|]. cbn [andb]. lia.
Qed.

(** multiplying any batch on the right by the identity gives back exactly the
    array, whatever its batch shape, width and dtype *)
Theorem C91_neutral_right A E : wfa A -> eye (Z.of_nat (aJ A)) = Ok E -> mul A E None = Ok A.
Proof.
  intros W HE. destruct (C91_eye (Z.of_nat (aJ A))) as [K _]. destruct (K ltac:(lia)) as (E' & Q & WE & PE & I1 & I2 & I3 & I4 & HC). assert (E' = E) by congruence. subst E'. clear K Q HE.
  assert (HI : aI E = aJ A) by lia. assert (HJ : aJ E = aJ A) by lia. clear I1 I2.
  assert (CP : compatible (apre A) (apre E)) by (rewrite PE; apply broadcasts_nil_r).
  destruct (C64_mul A E W WE ltac:(lia) CP ltac:(lia)) as (C & EC & WC & BC & C1 & C2 & C3 & C4 & _).
  rewrite EC. f_equal. assert (PC : apre C = apre A) by (rewrite PE in BC; apply (broadcasts_fun _ _ _ _ BC), broadcasts_nil_r).
  assert (KC : forall idx i k d, valid_index (apre C) idx -> i < aI C -> k < aJ C -> prod_coef (aJ A) (acoef A (operand_index (apre A) idx)) (acoef E (operand_index (apre E) idx)) i k d = acoef A idx i k d).
  { intros idx i k d V Hi Hk. rewrite PC in V. rewrite PolyRepTheory.operand_self by exact V. rewrite PE, operand_nil. apply prod_one_r; try lia. intros i' j' d' A1 A2. apply HC; lia. }
  apply arr_ext; auto; try lia. intros idx i k d V Hi Hk _. rewrite (C64_mul_exact A E C W WE EC); auto.
  intros idx' i' k' d' V' Hi' Hk'. rewrite KC by auto. apply acoef_range; auto; [congruence|lia|lia].
Qed.
(** multiplying on the left gives the same matrices, as int64; so exactly the
    array when it is int64 already *)
Theorem C91_neutral_left A E : wfa A -> eye (Z.of_nat (aI A)) = Ok E ->
  exists C, mul E A None = Ok C /\ wfa C /\ apre C = apre A /\ aI C = aI A /\ aJ C = aJ A /\ aD C = aD A /\ adt C = I64 /\
    (forall idx i j d, valid_index (apre A) idx -> i < aI A -> j < aJ A -> acoef C idx i j d = acoef A idx i j d) /\
    (adt A = I64 -> C = A).
Proof.
  intros W HE. destruct (C91_eye (Z.of_nat (aI A))) as [K _]. destruct (K ltac:(lia)) as (E' & Q & WE & PE & I1 & I2 & I3 & I4 & HC). assert (E' = E) by congruence. subst E'. clear K Q HE.
  assert (HI : aI E = aI A) by lia. assert (HJ : aJ E = aI A) by lia. clear I1 I2.
  assert (CP : compatible (apre E) (apre A)) by (rewrite PE; apply broadcasts_nil_l).
  destruct (C64_mul E A WE W ltac:(lia) CP ltac:(lia)) as (C & EC & WC & BC & C1 & C2 & C3 & C4 & _).
  assert (PC : apre C = apre A) by (rewrite PE in BC; apply (broadcasts_fun _ _ _ _ BC), broadcasts_nil_l).
  assert (KC : forall idx i k d, valid_index (apre C) idx -> i < aI C -> k < aJ C -> prod_coef (aJ E) (acoef E (operand_index (apre E) idx)) (acoef A (operand_index (apre A) idx)) i k d = acoef A idx i k d).
  { intros idx i k d V Hi Hk. rewrite PC in V. rewrite PE, operand_nil, (PolyRepTheory.operand_self (apre A) idx V). apply prod_one_l; try lia. intros i' j' d' A1 A2. apply HC; lia. }
  assert (KK : forall idx i j d, valid_index (apre A) idx -> i < aI A -> j < aJ A -> acoef C idx i j d = acoef A idx i j d).
  { intros idx i k d V Hi Hk. rewrite (C64_mul_exact E A C WE W EC); try lia; [apply KC; try lia; congruence| |congruence].
    intros idx' i' k' d' V' Hi' Hk'. rewrite KC by auto. rewrite I4. pose proof (acoef_range A idx' i' k' d' W ltac:(congruence) ltac:(lia) ltac:(lia)) as R. revert R. unfold in_dtype. destruct (adt A); cbn; lia. }
  exists C. split; [exact EC|]. split; [exact WC|]. split; [exact PC|]. split; [lia|]. split; [lia|]. split; [lia|]. split; [congruence|]. split; [exact KK|].
  intros T. apply arr_ext; auto; try lia; [congruence|]. intros. apply KK; auto; [congruence|lia|lia].
Qed.

(** ** reduction *)
(** [A % p] keeps the shape and replaces every coefficient by its residue in
    [0, p); it never overflows, and reducing again changes nothing *)
Theorem C91_mod A p : wfa A -> (0 < p)%Z -> in_dtype (adt A) p ->
  exists C, arr_mod A p = Ok C /\ wfa C /\ apre C = apre A /\ aI C = aI A /\ aJ C = aJ A /\ aD C = aD A /\ adt C = adt A /\
    (forall idx i j d, valid_index (apre A) idx -> i < aI A -> j < aJ A ->
       (0 <= acoef C idx i j d < p)%Z /\ (p | acoef A idx i j d - acoef C idx i j d)%Z) /\
    arr_mod C p = Ok C.
Proof.
  intros W Hp Hd. assert (HB : (p <= 2 ^ (dbits (adt A) - 1))%Z) by (unfold in_dtype in Hd; lia).
  assert (HI : in_dtype I64 p) by (revert Hd; unfold in_dtype; destruct (adt A); cbn; lia).
  assert (HF : fits (adt A) p = true) by (now apply PropsPolymat3.fits_ok).
  destruct (PolyRepTheory.arr_mod_ok A p W Hp HB HI) as (C & EC & WC & C1 & C2 & C3 & C4 & C5 & K). specialize (C5 HF).
  exists C. split; [exact EC|]. split; [exact WC|]. do 5 (split; [assumption|]). split.
  - intros idx i j d V Hi Hj. rewrite K by assumption. split; [apply Z.mod_pos_bound; exact Hp|]. exists (acoef A idx i j d / p)%Z. pose proof (Z.div_mod (acoef A idx i j d) p ltac:(lia)). lia.
  - destruct (PolyRepTheory.arr_mod_ok C p WC Hp ltac:(rewrite C5; exact HB) HI) as (D & ED & WD & D1 & D2 & D3 & D4 & D5 & KD). rewrite C5 in D5. specialize (D5 HF). rewrite ED. f_equal. symmetry. apply arr_ext; auto; try congruence.
    intros idx i j d V Hi Hj _. rewrite KD by assumption. rewrite K by congruence. symmetry. apply Z.mod_mod. lia.
Qed.

(** a batch of two 2 x 2 matrices meets the hypotheses *)
Example C91_example : exists A E, A = mkA [2] 2 2 2 I32 [[1; 2; 0; -3; 5; 0; 7; 1]%Z; [0; 0; 4; 1; -1; -1; 2; 6]%Z] /\ wfa A /\ eye 2 = Ok E /\ mul A E None = Ok A /\
  arr_mod A 5 = Ok (mkA [2] 2 2 2 I32 [[1; 2; 0; 2; 0; 0; 2; 1]%Z; [0; 0; 4; 1; 4; 4; 2; 1]%Z]).
Proof.
  do 2 eexists. split; [reflexivity|]. split; [|split; [reflexivity|split; reflexivity]].
  unfold wfa. cbn [apre aI aJ aD adt ablocks]. split; [reflexivity|]. split; repeat constructor; cbn; lia.
Qed.
