(** PropsPolymat3.v – theorems for C67 (to_matrix, from_matrix), C64 (mul against
    Matrix multiplication) and C68 (overflow). *)
From Verif Require Import Base ModelPoly SpecPoly PolyTheory PolyDiv PropsPoly NumTheory ModelMatrix SpecMatrix MatrixTheory PropsMatrix JonesTheory ModelRep SpecRep RepTheory RepCanon ModelPolymat SpecPolymat PolymatTheory PropsPolymat PropsPolymat2.
From Coq Require Import Setoid Morphisms.
Local Open Scope nat_scope.

Lemma coef_make v cs k : coef (lpoly_make v cs) k = coeff_at v cs k.
Proof. rewrite coef_L, L_make. apply delta_lin. Qed.

(** ** to_matrix *)
(** the entry (i, j) of a Matrix *)
Definition mentry (M : mat num) (i j : nat) : num := nth (mcols M * i + j) (mdata M) (NI 0).
(** the Matrix represents the array: the entries are LPolys in canonical form with
    the coefficients of the array *)
Definition represents (M : mat num) (A : parr) : Prop :=
  mrows M = aI A /\ mcols M = aJ A /\ length (mdata M) = aI A * aJ A /\ reduced_matrix 0 M /\
  forall i j k, i < aI A -> j < aJ A -> numcoef (mentry M i j) k = (if (k <? 0)%Z then 0%Z else acoef A [] i j (Z.to_nat k)).
Theorem C67_to_matrix A : wfa A -> apre A = [] -> 0 < aI A -> exists M, to_matrix A = Ok M /\ represents M A.
Proof.
  intros W P H. unfold to_matrix. rewrite P. cbn [length Nat.eqb assert_ bind].
  destruct (from_rows_ent (NI 0) (fun i j => NL (lpoly_make 0 (map (fun d => bget (aJ A) (aD A) (block A []) i j d) (seq 0 (aD A))))) (aI A) (aJ A) H) as [M [EM [WM [RM [CM NM]]]]].
  exists M. split; [exact EM|]. unfold mwf in WM. split; [exact RM|]. split; [exact CM|]. split; [congruence|]. split.
  - apply Forall_forall. intros x Hx. apply (In_nth _ _ (NI 0)) in Hx. destruct Hx as [q [Hq <-]]. rewrite WM, RM, CM in Hq. destruct (pos_split (aI A) (aJ A) q Hq) as [A1 [B1 C1]]. rewrite C1. specialize (NM _ _ A1 B1). unfold ent, entry in NM. rewrite CM in NM. rewrite NM.
    eexists. split; [reflexivity|]. split; [apply canon_fix, canon_make|lia].
  - intros i j k Hi Hj. unfold mentry. specialize (NM i j Hi Hj). unfold ent, entry in NM. rewrite NM. cbn [numcoef]. fold (coef (lpoly_make 0 (map (fun d => bget (aJ A) (aD A) (block A []) i j d) (seq 0 (aD A)))) k). rewrite coef_make. unfold coeff_at. rewrite Z.sub_0_r.
    destruct (k <? 0)%Z; [reflexivity|]. rewrite coef_block by (auto; rewrite P; constructor). destruct (Nat.ltb_spec (Z.to_nat k) (aD A)).
    + now rewrite nth_map_seq.
    + apply nth_overflow. now rewrite map_length, seq_length.
Qed.
Theorem C67_to_matrix_errors A : (apre A <> [] -> to_matrix A = Err AssertionError) /\ (apre A = [] -> aI A = 0 -> to_matrix A = Err IndexError).
Proof.
  unfold to_matrix. split.
  - intros H. destruct (apre A); [congruence|reflexivity].
  - intros -> ->. reflexivity.
Qed.

(** ** from_matrix *)
Lemma zmin_spec x l : In (zmin (x :: l)) (x :: l) /\ forall y, In y (x :: l) -> (zmin (x :: l) <= y)%Z.
Proof.
  cbn [zmin]. revert x. induction l as [|z l IH]; intros x; [cbn; split; [auto|intros y [<-|[]]; lia]|]. cbn [fold_left]. destruct (IH (Z.min x z)) as [A B]. split.
  - destruct A as [A|A]; [|right; now right]. rewrite <- A. destruct (Z.min_spec x z) as [[_ ->]|[_ ->]]; cbn; auto.
  - intros y [<-|[<-|Hy]].
    + specialize (B _ (or_introl eq_refl)). lia.
    + specialize (B _ (or_introl eq_refl)). lia.
    + apply B. now right.
Qed.
Lemma zmax_ge l y : In y l -> (y <= zmax l)%Z.
Proof.
  destruct l as [|x l]; [intros []|]. cbn [zmax]. revert x. assert (M : forall l x, (x <= fold_left Z.max l x)%Z). { clear. induction l as [|z l IH]; intros x; cbn; [lia|]. specialize (IH (Z.max x z)). lia. }
  induction l as [|z l IH]; intros x; cbn [fold_left].
  - intros [<-|[]]. lia.
  - intros [<-|[<-|H]]; [specialize (M l (Z.max x z)); lia|specialize (M l (Z.max x z)); lia|]. apply IH. now right.
Qed.
Lemma coef_lval y : lcanon y -> lis_zero y = false -> coef y (lval y) <> 0%Z.
Proof.
  intros [_ C] N. assert (K : lcoeffs y <> []) by (unfold lis_zero in N; destruct (lcoeffs y); congruence). unfold coef. rewrite coeff_at_hd by exact K. now apply C.
Qed.
Lemma coef_zero y k : lis_zero y = true -> coef y k = 0%Z.
Proof. unfold lis_zero, coef. destruct (lcoeffs y); [|discriminate]. intros _. unfold coeff_at. destruct (k <? lval y)%Z; [reflexivity|]. now destruct (Z.to_nat _). Qed.
Lemma coef_shift y m k : coef (lmul y (lpoly_make m [1%Z])) k = coef y (k - m).
Proof.
  rewrite coef_L, L_mul. rewrite coef_L. unfold L. apply lin_ext. intros e. fold (L (lpoly_make m [1%Z]) (fun f => delta k (e + f)%Z)). rewrite L_make. cbn [lin]. unfold delta. destruct (Z.eqb_spec (e + m) k), (Z.eqb_spec e (k - m)); lia.
Qed.
Lemma fits_ok t x : fits t x = true <-> in_dtype t x.
Proof. unfold fits, in_dtype. rewrite andb_true_iff, Z.leb_le, Z.ltb_lt. tauto. Qed.
Lemma in_dtype_I64 t x : in_dtype t x -> in_dtype I64 x.
Proof. apply in_dtype_wider. destruct t; cbn; lia. Qed.

Definition rowf (D : nat) (y : lpoly) : list Z := map (fun d => coef y (Z.of_nat d)) (seq 0 D).
Lemma entry_row_ok t D y : lcanon y -> (forall k, in_dtype t (coef y k)) -> (forall k, (k < 0)%Z -> coef y k = 0%Z) -> (lis_zero y = false -> (ldegree y < Z.of_nat D)%Z) ->
  entry_row t D y = Ok (rowf D y).
Proof.
  intros C R N G. unfold entry_row. assert (F : forallb (fits I64) (lcoeffs y) = true).
  { apply forallb_forall. intros c Hc. apply fits_ok. destruct (in_coeffs_coef y c Hc) as [k <-]. apply (in_dtype_I64 t), R. }
  rewrite F. f_equal. apply map_ext_in. intros d _. assert (V : (0 <= lval y)%Z). { destruct (lis_zero y) eqn:Z0; [destruct C as [C _]; unfold lis_zero in Z0; destruct (lcoeffs y); [|discriminate]; rewrite C; [lia|reflexivity]|]. destruct (Z.lt_ge_cases (lval y) 0) as [K|K]; [|exact K]. exfalso. apply (coef_lval y C Z0). now apply N. }
  assert (E : coef y (Z.of_nat d) = if d <? Z.to_nat (lval y) then 0%Z else nth (d - Z.to_nat (lval y)) (lcoeffs y) 0%Z).
  { unfold coef, coeff_at. destruct (Z.ltb_spec (Z.of_nat d) (lval y)), (Nat.ltb_spec d (Z.to_nat (lval y))); try lia. f_equal. lia. }
  destruct (d <? Z.to_nat (lval y)); [now rewrite E|]. rewrite E. apply wrap_id. rewrite <- E. apply R.
Qed.
Lemma poly_array t I J D (ls : list lpoly) : length ls = I * J -> (forall y k, In y ls -> in_dtype t (coef y k)) -> (forall y d, In y ls -> D <= d -> coef y (Z.of_nat d) = 0%Z) ->
  let A := mkA [] I J D t [concat (map (rowf D) ls)] in wfa A /\ forall i j d, i < I -> j < J -> acoef A [] i j d = coef (nth (J * i + j) ls (lint 0)) (Z.of_nat d).
Proof.
  intros L R H A.
  assert (FL : Forall (fun b => length b = D) (map (rowf D) ls)). { apply Forall_map, Forall_forall. intros y _. unfold rowf. now rewrite map_length, seq_length. }
  assert (W : wfa A).
  { unfold wfa, A. cbn [apre aI aJ aD adt ablocks nitems fold_right length]. split; [reflexivity|]. split; (constructor; [|constructor]).
    - rewrite (length_concat_eq _ D FL), map_length, L. lia.
    - apply Forall_concat, Forall_map, Forall_forall. intros y Hy. unfold rowf. apply Forall_map, Forall_forall. intros d _. now apply R. }
  split; [exact W|]. intros i j d Hi Hj. assert (Q : J * i + j < length ls) by (rewrite L; nia). assert (IN : In (nth (J * i + j) ls (lint 0)) ls) by now apply nth_In.
  rewrite coef_block; [|exact W|constructor|exact Hi|exact Hj]. unfold A, block. cbn [aD aJ apre ravel ablocks nth]. destruct (Nat.ltb_spec d D) as [K|K].
  - unfold bget. rewrite nth_concat_eq by auto. replace (i * J + j) with (J * i + j) by lia. rewrite (nth_indep _ [] (rowf D (lint 0))) by (now rewrite map_length). rewrite map_nth. unfold rowf. now rewrite nth_map_seq.
  - symmetry. now apply H.
Qed.

(** the exponents with a non-zero coefficient *)
Definition has_exponent (M : mat num) (k : Z) : Prop := exists i j, i < mrows M /\ j < mcols M /\ numcoef (mentry M i j) k <> 0%Z.
Definition poly_matrix (M : mat num) : Prop := length (mdata M) = mrows M * mcols M /\ reduced_matrix 0 M.
Section From.
Variables (M : mat num) (t : dtype).
Hypothesis (PM : poly_matrix M).
Hypothesis (fit : forall i j k, i < mrows M -> j < mcols M -> in_dtype t (numcoef (mentry M i j) k)).
Let ls := map lentry (mdata M).
Lemma fm_len : length ls = mrows M * mcols M. Proof. unfold ls. rewrite map_length. apply PM. Qed.
Lemma fm_nl x : In x (mdata M) -> exists l, x = NL l /\ lcanon l.
Proof. intros H. destruct PM as [_ R]. unfold reduced_matrix in R. rewrite Forall_forall in R. destruct (R x H) as [l [-> [E _]]]. exists l. split; [reflexivity|]. now apply canon_fix. Qed.
Lemma fm_canon y : In y ls -> lcanon y.
Proof. intros H. apply in_map_iff in H. destruct H as [x [<- Hx]]. destruct (fm_nl x Hx) as [l [-> C]]. exact C. Qed.
Lemma fm_nth i j k : i < mrows M -> j < mcols M -> coef (nth (mcols M * i + j) ls (lint 0)) k = numcoef (mentry M i j) k.
Proof.
  intros Hi Hj. unfold ls, mentry. change (lint 0) with (lentry (NI 0)). rewrite map_nth. assert (IN : In (nth (mcols M * i + j) (mdata M) (NI 0)) (mdata M)) by (apply nth_In; destruct PM as [-> _]; nia).
  destruct (fm_nl _ IN) as [l [E _]]. rewrite E. reflexivity.
Qed.
Lemma fm_in y : In y ls -> exists i j, i < mrows M /\ j < mcols M /\ y = nth (mcols M * i + j) ls (lint 0).
Proof.
  intros H. apply (In_nth _ _ (lint 0)) in H. destruct H as [q [Hq <-]]. rewrite fm_len in Hq. destruct (pos_split (mrows M) (mcols M) q Hq) as [A1 [B1 C1]]. exists (q / mcols M), (q mod mcols M). split; [exact A1|]. split; [exact B1|]. now rewrite <- C1.
Qed.
Lemma fm_int : mrows M <> 0 -> mcols M <> 0 -> forallb is_int (mdata M) = false /\ forallb (fun x => negb (is_int x)) (mdata M) = true.
Proof.
  intros H1 H2. split.
  - destruct (mdata M) as [|x d] eqn:E; [destruct PM as [L _]; rewrite E in L; cbn in L; nia|]. destruct (fm_nl x) as [l [-> _]]; [rewrite E; now left|]. reflexivity.
  - apply forallb_forall. intros x Hx. destruct (fm_nl x Hx) as [l [-> _]]. reflexivity.
Qed.
Lemma fm_zero : forallb lis_zero ls = true <-> (forall k, ~ has_exponent M k).
Proof.
  split.
  - intros F k [i [j [Hi [Hj N]]]]. apply N. rewrite <- fm_nth by assumption. apply coef_zero. rewrite forallb_forall in F. apply F. apply nth_In. rewrite fm_len. nia.
  - intros F. apply forallb_forall. intros y Hy. destruct (lis_zero y) eqn:Z0; [reflexivity|]. exfalso. pose proof (coef_lval y (fm_canon y Hy) Z0) as K. destruct (fm_in y Hy) as [i [j [Hi [Hj E]]]]. apply (F (lval y)). exists i, j. split; [exact Hi|]. split; [exact Hj|]. rewrite <- fm_nth by assumption. now rewrite <- E.
Qed.
Lemma fm_min : forallb lis_zero ls = false -> let m := zmin (map lval (filter (fun x => negb (lis_zero x)) ls)) in
  has_exponent M m /\ forall k, has_exponent M k -> (m <= k)%Z.
Proof.
  intros F. cbv zeta. set (nzs := filter (fun x => negb (lis_zero x)) ls). assert (NE : nzs <> []).
  { intros E. assert (K : forallb lis_zero ls = true); [|congruence]. apply forallb_forall. intros y Hy. destruct (lis_zero y) eqn:Z0; [reflexivity|]. assert (In y nzs) as Q by (apply filter_In; now rewrite Z0). rewrite E in Q. destruct Q. }
  destruct nzs as [|y0 nz] eqn:EN; [congruence|]. cbn [map]. destruct (zmin_spec (lval y0) (map lval nz)) as [I1 I2]. change (In (zmin (map lval (y0 :: nz))) (map lval (y0 :: nz))) in I1. change (forall y, In y (map lval (y0 :: nz)) -> (zmin (map lval (y0 :: nz)) <= y)%Z) in I2. split.
  - apply in_map_iff in I1. destruct I1 as [y [Ey Hy]]. cbn [map] in Ey. rewrite <- Ey. rewrite <- EN in Hy. apply filter_In in Hy. destruct Hy as [Hy Nz]. apply negb_true_iff in Nz. pose proof (coef_lval y (fm_canon y Hy) Nz) as K. destruct (fm_in y Hy) as [i [j [Hi [Hj E]]]]. exists i, j. split; [exact Hi|]. split; [exact Hj|]. rewrite <- fm_nth by assumption. now rewrite <- E.
  - intros k [i [j [Hi [Hj N]]]]. rewrite <- fm_nth in N by assumption. set (y := nth (mcols M * i + j) ls (lint 0)) in *. assert (Hy : In y ls) by (apply nth_In; rewrite fm_len; nia).
    assert (Z0 : lis_zero y = false) by (destruct (lis_zero y) eqn:Z0; [exfalso; now apply N, coef_zero|reflexivity]). assert (Q : In y nzs) by (apply filter_In; now rewrite Z0). rewrite EN in Q.
    assert (lval y <= k)%Z. { destruct (Z.le_gt_cases (lval y) k) as [K|K]; [exact K|]. exfalso. apply N. unfold coef. now apply coeff_at_below. } pose proof (I2 (lval y) (in_map lval _ _ Q)) as K. cbn [map] in K. lia.
Qed.
(** the list of entries, all multiplied by v^s *)
Let sh (s : Z) := map (fun x => lmul x (lpoly_make s [1%Z])) ls.
Lemma fm_tail ls' s : (s = 0%Z /\ ls' = ls \/ ls' = sh s) -> forallb lis_zero ls = false -> (forall k, has_exponent M k -> (0 <= k + s)%Z) ->
  let nzs := filter (fun x => negb (lis_zero x)) ls' in
  (zmin (map lval nzs) <? 0)%Z = false /\ exists rows, mapM (entry_row t (Z.to_nat (zmax (map ldegree nzs) + 1))) ls' = Ok rows /\
    let A := mkA [] (mrows M) (mcols M) (Z.to_nat (zmax (map ldegree nzs) + 1)) t [concat rows] in
    wfa A /\ forall i j d, i < mrows M -> j < mcols M -> acoef A [] i j d = numcoef (mentry M i j) (Z.of_nat d - s).
Proof.
  intros HL F HE. cbv zeta. assert (LEN : length ls' = mrows M * mcols M) by (destruct HL as [[_ ->]| ->]; unfold sh; rewrite ?map_length; apply fm_len).
  assert (NTH : forall q k, q < length ls' -> coef (nth q ls' (lint 0)) k = coef (nth q ls (lint 0)) (k - s)).
  { intros q k Hq. destruct HL as [[-> ->]| ->]; [now rewrite Z.sub_0_r|]. unfold sh. rewrite (nth_indep _ (lint 0) (lmul (lint 0) (lpoly_make s [1%Z]))) by (rewrite map_length; rewrite LEN in Hq; now rewrite fm_len). rewrite (map_nth (fun x => lmul x (lpoly_make s [1%Z]))). apply coef_shift. }
  assert (CAN : forall y, In y ls' -> lcanon y). { intros y Hy. destruct HL as [[_ ->]| ->]; [now apply fm_canon|]. apply in_map_iff in Hy. destruct Hy as [x [<- _]]. apply canon_make. }
  assert (INY : forall y k, In y ls' -> exists i j, i < mrows M /\ j < mcols M /\ coef y k = numcoef (mentry M i j) (k - s)).
  { intros y k Hy. apply (In_nth _ _ (lint 0)) in Hy. destruct Hy as [q [Hq <-]]. rewrite NTH by exact Hq. rewrite LEN in Hq. destruct (pos_split (mrows M) (mcols M) q Hq) as [A1 [B1 C1]]. exists (q / mcols M), (q mod mcols M). split; [exact A1|]. split; [exact B1|]. rewrite C1 at 1. now apply fm_nth. }
  assert (RNG : forall y k, In y ls' -> in_dtype t (coef y k)). { intros y k Hy. destruct (INY y k Hy) as [i [j [Hi [Hj ->]]]]. now apply fit. }
  assert (NEG : forall y k, In y ls' -> (k < 0)%Z -> coef y k = 0%Z).
  { intros y k Hy Hk. destruct (INY y k Hy) as [i [j [Hi [Hj E]]]]. rewrite E. destruct (Z.eq_dec (numcoef (mentry M i j) (k - s)) 0) as [Q|Q]; [exact Q|]. specialize (HE (k - s)%Z ltac:(now exists i, j)). lia. }
  set (nzs := filter (fun x => negb (lis_zero x)) ls').
  assert (NE : exists y, In y nzs).
  { destruct (fm_min F) as [[i [j [Hi [Hj N]]]] _]. set (m := zmin _) in N. set (q := mcols M * i + j) in *. assert (Hq : q < length ls') by (rewrite LEN; unfold q; nia). exists (nth q ls' (lint 0)). apply filter_In. split; [now apply nth_In|]. destruct (lis_zero (nth q ls' (lint 0))) eqn:Z0; [|reflexivity]. exfalso. apply N. rewrite <- fm_nth by assumption. fold q. replace m with ((m + s) - s)%Z by lia. rewrite <- NTH by exact Hq. now apply coef_zero. }
  assert (NZV : forall y, In y nzs -> (0 <= lval y)%Z).
  { intros y Hy. apply filter_In in Hy. destruct Hy as [Hy Nz]. apply negb_true_iff in Nz. destruct (Z.lt_ge_cases (lval y) 0) as [K|K]; [|exact K]. exfalso. apply (coef_lval y (CAN y Hy) Nz). now apply NEG. }
  split.
  { destruct nzs as [|y0 nz] eqn:EN; [destruct NE as [y []]|]. destruct (zmin_spec (lval y0) (map lval nz)) as [I1 _]. change (In (zmin (map lval (y0 :: nz))) (map lval (y0 :: nz))) in I1. apply in_map_iff in I1. destruct I1 as [y [Ey Hy]]. specialize (NZV y Hy). apply Z.ltb_ge. cbn [map] in *. lia. }
  set (mx := zmax (map ldegree nzs)). assert (MX : forall y, In y nzs -> (ldegree y <= mx)%Z) by (intros y Hy; apply zmax_ge; now apply in_map).
  assert (MX0 : (0 <= mx)%Z). { destruct NE as [y Hy]. specialize (MX y Hy). specialize (NZV y Hy). apply filter_In in Hy. destruct Hy as [_ Nz]. apply negb_true_iff in Nz. unfold ldegree, lis_zero in *. destruct (lcoeffs y); [discriminate|]. cbn [length] in *. lia. }
  exists (map (rowf (Z.to_nat (mx + 1))) ls'). split.
  - apply mapM_ok. intros y Hy. apply entry_row_ok; auto. intros Nz. assert (In y nzs) as Q by (apply filter_In; now rewrite Nz). specialize (MX y Q). lia.
  - destruct (poly_array t (mrows M) (mcols M) (Z.to_nat (mx + 1)) ls' LEN RNG) as [WA CA].
    + intros y d Hy Hd. destruct (lis_zero y) eqn:Z0; [now apply coef_zero|]. assert (In y nzs) as Q by (apply filter_In; now rewrite Z0). specialize (MX y Q). unfold coef. apply coeff_at_above. unfold ldegree in MX. lia.
    + split; [exact WA|]. intros i j d Hi Hj. rewrite CA by assumption. rewrite NTH by (rewrite LEN; nia). now apply fm_nth.
Qed.
End From.
Lemma zero_array I J : wfa (mkA [] I J 1 I64 [repeat 0%Z (I * J)]) /\ forall i j d, i < I -> j < J -> acoef (mkA [] I J 1 I64 [repeat 0%Z (I * J)]) [] i j d = 0%Z.
Proof.
  assert (W : wfa (mkA [] I J 1 I64 [repeat 0%Z (I * J)])).
  { unfold wfa. cbn [apre aI aJ aD adt ablocks nitems fold_right length]. split; [reflexivity|]. split; (constructor; [|constructor]); [rewrite repeat_length; lia|]. apply Forall_forall. intros x Hx. apply repeat_spec in Hx. subst x. cbn. lia. }
  split; [exact W|]. intros i j d Hi Hj. rewrite coef_block; [|exact W|constructor|exact Hi|exact Hj]. unfold block. cbn [aD aJ apre ravel ablocks nth]. destruct (d <? 1); [|reflexivity]. unfold bget. apply nth_repeat.
Qed.
(** from_matrix(M) for a matrix of LPolys without negative exponents *)
Theorem C67_from_matrix M proj t : poly_matrix M -> mrows M <> 0 -> mcols M <> 0 ->
  (forall i j k, i < mrows M -> j < mcols M -> in_dtype t (numcoef (mentry M i j) k)) -> (forall k, has_exponent M k -> (0 <= k)%Z) ->
  exists A, from_matrix M proj t = Ok (Some A) /\ wfa A /\ apre A = [] /\ represents M A.
Proof.
  intros PM H1 H2 R HE. unfold from_matrix. destruct (fm_int M PM H1 H2) as [-> ->].
  assert (REP : forall A, aI A = mrows M -> aJ A = mcols M -> (forall i j d, i < mrows M -> j < mcols M -> acoef A [] i j d = numcoef (mentry M i j) (Z.of_nat d)) -> represents M A).
  { intros A EI EJ K. unfold represents. rewrite EI, EJ. destruct PM as [L RM]. split; [reflexivity|]. split; [reflexivity|]. split; [exact L|]. split; [exact RM|]. intros i j k Hi Hj. destruct (Z.ltb_spec k 0) as [Hk|Hk].
    - destruct (Z.eq_dec (numcoef (mentry M i j) k) 0) as [Q|Q]; [exact Q|]. specialize (HE k ltac:(now exists i, j)). lia.
    - rewrite K by assumption. f_equal. lia. }
  destruct (forallb lis_zero (map lentry (mdata M))) eqn:Z0.
  - eexists. split; [reflexivity|]. destruct (zero_array (mrows M) (mcols M)) as [W CA]. split; [exact W|]. split; [reflexivity|]. apply REP; [reflexivity|reflexivity|]. intros i j d Hi Hj. rewrite CA by assumption.
    destruct (Z.eq_dec (numcoef (mentry M i j) (Z.of_nat d)) 0) as [Q|Q]; [easy|]. exfalso. apply (proj1 (fm_zero M PM) Z0 (Z.of_nat d)). now exists i, j.
  - destruct (fm_min M PM Z0) as [MI _]. cbv zeta. specialize (HE _ MI) as HM. set (m := zmin _) in *. destruct (Z.ltb_spec m 0) as [K|_]; [lia|]. cbn [andb].
    destruct (fm_tail M t PM R (map lentry (mdata M)) 0%Z (or_introl (conj eq_refl eq_refl)) Z0) as [T1 [rows [T2 [W CA]]]]; [intros k Hk; specialize (HE k Hk); lia|]. cbv zeta in T1. cbv iota. rewrite T1, T2. cbn [bind]. eexists. split; [reflexivity|]. split; [exact W|]. split; [reflexivity|]. apply REP; [reflexivity|reflexivity|]. intros i j d Hi Hj. rewrite CA by assumption. now rewrite Z.sub_0_r.
Qed.
(** with proj=True a matrix with negative exponents is first multiplied by v^(-m), m
    the least exponent *)
Theorem C67_from_matrix_proj M t m : poly_matrix M ->
  (forall i j k, i < mrows M -> j < mcols M -> in_dtype t (numcoef (mentry M i j) k)) ->
  has_exponent M m -> (forall k, has_exponent M k -> (m <= k)%Z) -> (m < 0)%Z ->
  exists A, from_matrix M true t = Ok (Some A) /\ wfa A /\ apre A = [] /\ aI A = mrows M /\ aJ A = mcols M /\
    forall i j d, i < mrows M -> j < mcols M -> acoef A [] i j d = numcoef (mentry M i j) (Z.of_nat d + m).
Proof.
  intros PM R HM HL Hm. assert (H1 : mrows M <> 0) by (destruct HM as [i [j [? _]]]; lia). assert (H2 : mcols M <> 0) by (destruct HM as [i [j [? [? _]]]]; lia).
  unfold from_matrix. destruct (fm_int M PM H1 H2) as [-> ->]. destruct (forallb lis_zero (map lentry (mdata M))) eqn:Z0; [exfalso; exact (proj1 (fm_zero M PM) Z0 m HM)|].
  destruct (fm_min M PM Z0) as [MI ML]. cbv zeta in *. set (m' := zmin (map lval (filter (fun x => negb (lis_zero x)) (map lentry (mdata M))))) in *. assert (E : m' = m) by (specialize (ML m HM); specialize (HL m' MI); lia). rewrite E. destruct (Z.ltb_spec m 0) as [_|K]; [|lia]. cbn [andb negb].
  destruct (fm_tail M t PM R _ (- m)%Z (or_intror eq_refl) Z0) as [T1 [rows [T2 [W CA]]]]; [intros k Hk; specialize (HL k Hk); lia|]. cbv zeta in T1. cbv iota. rewrite T1, T2. cbn [bind]. eexists. split; [reflexivity|]. split; [exact W|]. split; [reflexivity|]. split; [reflexivity|]. split; [reflexivity|].
  intros i j d Hi Hj. rewrite CA by assumption. f_equal. lia.
Qed.
(** without proj it is refused *)
Theorem C67_from_matrix_negative M t k : poly_matrix M -> has_exponent M k -> (k < 0)%Z -> from_matrix M false t = Err ValueError.
Proof.
  intros PM HM Hk. assert (H1 : mrows M <> 0) by (destruct HM as [i [j [? _]]]; lia). assert (H2 : mcols M <> 0) by (destruct HM as [i [j [? [? _]]]]; lia).
  unfold from_matrix. destruct (fm_int M PM H1 H2) as [-> ->]. destruct (forallb lis_zero (map lentry (mdata M))) eqn:Z0; [exfalso; exact (proj1 (fm_zero M PM) Z0 k HM)|].
  destruct (fm_min M PM Z0) as [_ ML]. cbv zeta in *. specialize (ML k HM). destruct (Z.ltb_spec (zmin (map lval (filter (fun x => negb (lis_zero x)) (map lentry (mdata M))))) 0); [reflexivity|lia].
Qed.
(** a matrix of ints *)
Theorem C67_from_matrix_int M proj t : length (mdata M) = mrows M * mcols M -> mrows M <> 0 -> mcols M <> 0 ->
  Forall (fun x => exists c, x = NI c /\ in_dtype I64 c) (mdata M) ->
  exists A, from_matrix M proj t = Ok (Some A) /\ wfa A /\ apre A = [] /\ aI A = mrows M /\ aJ A = mcols M /\
    forall i j d, i < mrows M -> j < mcols M -> acoef A [] i j d = numcoef (mentry M i j) (Z.of_nat d).
Proof.
  intros L H1 H2 F. unfold from_matrix. rewrite Forall_forall in F.
  assert (F1 : forallb is_int (mdata M) = true) by (apply forallb_forall; intros x Hx; destruct (F x Hx) as [c [-> _]]; reflexivity). rewrite F1. cbv zeta.
  set (cs := map (fun x => match x with NI c => c | NL _ => 0%Z end) (mdata M)). assert (LC : length cs = mrows M * mcols M) by (unfold cs; rewrite map_length; exact L).
  assert (RC : forall c, In c cs -> in_dtype I64 c). { intros c Hc. apply in_map_iff in Hc. destruct Hc as [x [<- Hx]]. destruct (F x Hx) as [c [-> K]]. exact K. }
  destruct (Nat.eqb_spec (length cs) 0) as [K|_]; [exfalso; nia|]. cbn [orb]. assert (F2 : forallb (fits I64) cs = true) by (apply forallb_forall; intros c Hc; now apply fits_ok, RC). rewrite F2. cbn [negb].
  eexists. split; [reflexivity|]. set (A := mkA _ _ _ _ _ _). assert (W : wfa A).
  { unfold wfa, A. cbn [apre aI aJ aD adt ablocks nitems fold_right length]. split; [reflexivity|]. split; (constructor; [|constructor]); [lia|]. apply Forall_forall. intros c Hc. now apply RC. }
  split; [exact W|]. split; [reflexivity|]. split; [reflexivity|]. split; [reflexivity|]. intros i j d Hi Hj. rewrite coef_block; [|exact W|constructor|exact Hi|exact Hj]. unfold A, block. cbn [aD aJ apre ravel ablocks nth].
  assert (Q : mcols M * i + j < length (mdata M)) by nia. destruct (F _ (nth_In _ (NI 0) Q)) as [c [E _]]. unfold mentry. rewrite E. cbn [numcoef]. destruct (Nat.ltb_spec d 1), (Z.eqb_spec (Z.of_nat d) 0); try lia.
  unfold bget. replace ((i * mcols M + j) * 1 + d) with (mcols M * i + j) by lia. unfold cs. set (g := fun x => match x with NI c => c | NL _ => 0%Z end). change (nth (mcols M * i + j) (map g (mdata M)) (g (NI 0)) = c). rewrite map_nth. now rewrite E.
Qed.
(** ints and LPolys mixed: None is returned *)
Theorem C67_from_matrix_mixed M proj t c l : In (NI c) (mdata M) -> In (NL l) (mdata M) -> from_matrix M proj t = Ok None.
Proof.
  intros H1 H2. unfold from_matrix. replace (forallb is_int (mdata M)) with false. 2:{ symmetry. destruct (forallb is_int (mdata M)) eqn:F; [|reflexivity]. rewrite forallb_forall in F. specialize (F _ H2). discriminate. }
  replace (forallb (fun x => negb (is_int x)) (mdata M)) with false; [reflexivity|]. symmetry. destruct (forallb _ (mdata M)) eqn:F; [|reflexivity]. rewrite forallb_forall in F. specialize (F _ H1). discriminate.
Qed.
(** ** the two are inverse to each other *)
Lemma represents_poly M A : represents M A -> poly_matrix M.
Proof. intros [R [C [L [RM _]]]]. split; [congruence|exact RM]. Qed.
Lemma represents_unique M M' A : represents M A -> represents M' A -> M = M'.
Proof.
  intros [R [C [L [RM N]]]] [R' [C' [L' [RM' N']]]]. destruct M as [a b l], M' as [a' b' l']. cbn [mrows mcols mdata] in *. subst a b a' b'. f_equal.
  apply (nth_ext _ _ (NI 0) (NI 0)); [congruence|]. intros q Hq. assert (Hq' : q < length l') by lia. assert (Q : q < aI A * aJ A) by lia. destruct (pos_split (aI A) (aJ A) q Q) as [A1 [B1 C1]].
  unfold reduced_matrix in *. rewrite Forall_forall in RM, RM'. cbn [mdata] in *. destruct (RM _ (nth_In _ (NI 0) Hq)) as [x [Ex [Cx _]]]. destruct (RM' _ (nth_In _ (NI 0) Hq')) as [y [Ey [Cy _]]].
  rewrite Ex, Ey. f_equal. apply canon_eq; [now apply canon_fix|now apply canon_fix|]. intros k. specialize (N _ _ k A1 B1). specialize (N' _ _ k A1 B1). unfold mentry in *. cbn [mcols mdata] in *. rewrite <- C1 in *. rewrite Ex in N. rewrite Ey in N'. cbn [numcoef] in *. unfold coef. congruence.
Qed.
Lemma represents_range A M : wfa A -> apre A = [] -> represents M A -> forall i j k, i < mrows M -> j < mcols M -> in_dtype (adt A) (numcoef (mentry M i j) k).
Proof.
  intros W P [R [C [L [RM N]]]] i j k Hi Hj. rewrite R, C in *. rewrite N by assumption. destruct (k <? 0)%Z; [apply in_dtype_0|]. apply acoef_range; auto. rewrite P. constructor.
Qed.
(** to_matrix(from_matrix(M)) == M *)
Theorem C67_round_trip M proj t : poly_matrix M -> mrows M <> 0 -> mcols M <> 0 ->
  (forall i j k, i < mrows M -> j < mcols M -> in_dtype t (numcoef (mentry M i j) k)) -> (forall k, has_exponent M k -> (0 <= k)%Z) ->
  exists A, from_matrix M proj t = Ok (Some A) /\ to_matrix A = Ok M.
Proof.
  intros PM H1 H2 R HE. destruct (C67_from_matrix M proj t PM H1 H2 R HE) as [A [E [W [P RP]]]]. exists A. split; [exact E|].
  destruct (C67_to_matrix A W P) as [M' [EM RM]]; [destruct RP as [<- _]; lia|]. rewrite EM. f_equal. now apply (represents_unique M' M A).
Qed.
(** from_matrix(to_matrix(A)) has the same coefficients as A, in the dtype asked for
    or int64 *)
Theorem C67_round_trip_array A proj : wfa A -> apre A = [] -> 0 < aI A -> 0 < aJ A ->
  exists M B, to_matrix A = Ok M /\ from_matrix M proj (adt A) = Ok (Some B) /\ wfa B /\ apre B = [] /\ aI B = aI A /\ aJ B = aJ A /\
    same_poly (acoef B []) (acoef A []) (aI A) (aJ A) /\ (adt B = adt A \/ adt B = I64).
Proof.
  intros W P HI HJ. destruct (C67_to_matrix A W P HI) as [M [EM RP]]. exists M. pose proof RP as [R [C [L [RM N]]]].
  destruct (C67_from_matrix M proj (adt A) (represents_poly M A RP) ltac:(lia) ltac:(lia) (represents_range A M W P RP)) as [B [EB [WB [PB RB]]]].
  { intros k [i [j [Hi [Hj K]]]]. rewrite R, C in *. rewrite N in K by assumption. destruct (Z.ltb_spec k 0); [congruence|assumption]. }
  exists B. split; [exact EM|]. split; [exact EB|]. split; [exact WB|]. split; [exact PB|]. destruct RB as [R' [C' [L' [_ N']]]]. split; [congruence|]. split; [congruence|]. split.
  - intros i j d Hi Hj. specialize (N i j (Z.of_nat d) Hi Hj). specialize (N' i j (Z.of_nat d) ltac:(congruence) ltac:(congruence)). destruct (Z.ltb_spec (Z.of_nat d) 0); [lia|]. rewrite Nat2Z.id in *. congruence.
  - revert EB. unfold from_matrix. destruct (forallb is_int (mdata M)); [destruct (_ || _); [discriminate|intros [= <-]; now right]|]. destruct (forallb _ (mdata M)); [|discriminate]. cbv zeta. destruct (forallb lis_zero _); [intros [= <-]; now right|].
    match goal with |- context [if ?b then Err ValueError else _] => destruct b; [discriminate|] end. match goal with |- context [if ?b then Err ValueError else _] => destruct b; [discriminate|] end.
    match goal with |- context [mapM ?f ?l] => destruct (mapM f l); [|discriminate] end. cbn [bind]. intros [= <-]. now left.
Qed.

(** ** polymat.mul and the multiplication of Matrix objects *)
Lemma zsum_cut n m f : m <= n -> (forall i, m <= i < n -> f i = 0%Z) -> zsum n f = zsum m f.
Proof. intros H K. induction n as [|n IH]; [now replace m with 0 by lia|]. destruct (Nat.eq_dec m (S n)) as [->|N]; [reflexivity|]. cbn [zsum]. rewrite IH, K by (intros; try apply K; lia). lia. Qed.
Lemma coef_mul_nonneg p q d : lcanon p -> (forall k, (k < 0)%Z -> coef p k = 0%Z) -> (forall k, (k < 0)%Z -> coef q k = 0%Z) ->
  coef (lmul p q) (Z.of_nat d) = zsum (S d) (fun e => coef p (Z.of_nat e) * coef q (Z.of_nat (d - e)))%Z /\ forall k, (k < 0)%Z -> coef (lmul p q) k = 0%Z.
Proof.
  intros C Np Nq. assert (V : (0 <= lval p)%Z). { destruct (lis_zero p) eqn:Z0; [destruct C as [C _]; unfold lis_zero in Z0; destruct (lcoeffs p); [|discriminate]; rewrite C; [lia|reflexivity]|]. destruct (Z.lt_ge_cases (lval p) 0) as [K|K]; [|exact K]. exfalso. apply (coef_lval p C Z0). now apply Np. }
  set (n := Nat.max (S d) (Z.to_nat (lval p) + length (lcoeffs p))). pose proof (fun k => C13_mul_coefficients p q k 0 n V ltac:(unfold n; lia)) as F. split.
  - rewrite F. rewrite (zsum_cut n (S d)); [|unfold n; lia|].
    + apply zsum_ext. intros e He. f_equal; f_equal; lia.
    + intros e He. rewrite Nq by lia. lia.
  - intros k Hk. rewrite F. apply zsum_0. intros e _. rewrite Nq by lia. lia.
Qed.
Lemma numcoef_add x y k : numcoef (nadd x y) k = (numcoef x k + numcoef y k)%Z.
Proof. rewrite !numcoef_coerce. rewrite (coerce_add x y k). apply C13_add_coefficients. Qed.
Lemma numcoef_rsum n f k : numcoef (rsum (NI 0) nadd n f) k = zsum n (fun i => numcoef (f i) k).
Proof. induction n as [|n IH]; cbn [rsum zsum]; [cbn; now destruct (k =? 0)%Z|]. now rewrite numcoef_add, IH. Qed.
(** if no coefficient of the product overflows, mul(A, B) represents the product of
    the matrices that A and B represent, as the same Python object *)
Theorem C64_to_matrix A B C : wfa A -> wfa B -> apre A = [] -> apre B = [] -> 0 < aI A -> 0 < aJ A -> mul A B None = Ok C ->
  (forall i k d, i < aI A -> k < aJ B -> in_dtype (adt A) (prod_coef (aJ A) (acoef A []) (acoef B []) i k d)) ->
  exists MA MB MC, to_matrix A = Ok MA /\ to_matrix B = Ok MB /\ to_matrix C = Ok MC /\ nmat_mul MA MB = Ok MC.
Proof.
  intros WA WB PA PB HI HJ E R. assert (EJ : aJ A = aI B). { unfold mul in E. destruct (Nat.eqb_spec (aJ A) (aI B)); [assumption|discriminate]. }
  assert (HD : 1 <= aD A + aD B). { unfold mul in E. rewrite PA, PB, (proj2 (Nat.eqb_eq _ _) EJ) in E. cbn in E. destruct (aD A), (aD B); try lia. discriminate. }
  assert (HC : compatible (apre A) (apre B)) by (rewrite PA, PB; intros k; left; reflexivity).
  destruct (C64_mul A B WA WB EJ HC HD) as [C' [E' [WC [BC [CI [CJ [CD [CT _]]]]]]]]. rewrite E in E'. injection E' as <-.
  assert (PC : apre C = []). { destruct BC as [_ [L _]]. rewrite PA, PB in L. cbn in L. now apply length_zero_iff_nil. }
  assert (EX : forall i k d, i < aI C -> k < aJ C -> acoef C [] i k d = prod_coef (aJ A) (acoef A []) (acoef B []) i k d).
  { intros i k d Hi Hk. assert (V : valid_index (apre C) []) by (rewrite PC; constructor). rewrite (C64_mul_exact A B C WA WB E) by (auto; intros idx i' k' d' V' Hi' Hk'; rewrite PC in V'; inversion V'; subst idx; rewrite PA, PB; apply R; congruence). now rewrite PA, PB. }
  destruct (C67_to_matrix A WA PA HI) as [MA [EA [A1 [A2 [A3 [A4 A5]]]]]]. destruct (C67_to_matrix B WB PB ltac:(lia)) as [MB [EB [B1 [B2 [B3 [B4 B5]]]]]]. destruct (C67_to_matrix C WC PC ltac:(lia)) as [MC [EC RC]].
  exists MA, MB, MC. split; [exact EA|]. split; [exact EB|]. split; [exact EC|]. assert (CM : mcols MA = mrows MB) by congruence. unfold nmat_mul. rewrite (mul_ok (NI 0) nadd nmul MA MB CM). f_equal. set (P := MatrixTheory.prod (NI 0) nadd nmul MA MB).
  assert (LA : forall i j, i < mrows MA -> j < mcols MA -> exists l, mentry MA i j = NL l /\ lcanon l). { intros i j Hi Hj. unfold reduced_matrix in A4. rewrite Forall_forall in A4. destruct (A4 (mentry MA i j)) as [l [El [Cl _]]]; [apply nth_In; nia|]. exists l. split; [exact El|]. now apply canon_fix. }
  assert (LB : forall i j, i < mrows MB -> j < mcols MB -> exists l, mentry MB i j = NL l /\ lcanon l). { intros i j Hi Hj. unfold reduced_matrix in B4. rewrite Forall_forall in B4. destruct (B4 (mentry MB i j)) as [l [El [Cl _]]]; [apply nth_In; nia|]. exists l. split; [exact El|]. now apply canon_fix. }
  assert (PE : forall i k, i < mrows MA -> k < mcols MB -> mentry P i k = rsum (NI 0) nadd (mcols MA) (fun j => nmul (mentry MA i j) (mentry MB j k))) by (intros i k Hi Hk; exact (prod_e (NI 0) nadd nmul MA MB i k Hi Hk)).
  assert (PR : mrows P = mrows MA) by reflexivity. assert (PCc : mcols P = mcols MB) by reflexivity.
  assert (PL : length (mdata P) = mrows MA * mcols MB) by (exact (prod_wf (NI 0) nadd nmul MA MB)).
  assert (NL_ : forall i k, i < mrows MA -> k < mcols MB -> exists l, mentry P i k = NL l /\ lcanon l).
  { intros i k Hi Hk. rewrite PE by assumption. destruct (mcols MA) as [|c] eqn:EC1; [lia|]. cbn [rsum]. apply lent_add_r. apply lent_mul_l. destruct (LA i c Hi ltac:(lia)) as [l [El Cl]]. exists l. auto. }
  apply (represents_unique P MC C); [|exact RC]. split; [congruence|]. split; [congruence|]. split; [rewrite PL; congruence|]. split.
  - apply Forall_forall. intros x Hx. apply (In_nth _ _ (NI 0)) in Hx. destruct Hx as [q [Hq <-]]. rewrite PL in Hq. destruct (pos_split (mrows MA) (mcols MB) q Hq) as [Q1 [Q2 Q3]]. destruct (NL_ _ _ Q1 Q2) as [l [El Cl]]. unfold mentry in El. rewrite PCc, <- Q3 in El. exists l. split; [exact El|]. split; [now apply canon_fix|lia].
  - intros i k z Hi Hk. rewrite PE by congruence. rewrite numcoef_rsum.
    assert (T : forall j, j < mcols MA -> (forall d, numcoef (nmul (mentry MA i j) (mentry MB j k)) (Z.of_nat d) = zsum (S d) (fun e => acoef A [] i j e * acoef B [] j k (d - e)%nat)%Z) /\ forall y, (y < 0)%Z -> numcoef (nmul (mentry MA i j) (mentry MB j k)) y = 0%Z).
    { intros j Hj. destruct (LA i j ltac:(congruence) Hj) as [x [Ex Cx]]. destruct (LB j k ltac:(lia) ltac:(congruence)) as [y [Ey Cy]]. rewrite Ex, Ey. cbn [nmul].
      assert (Kx : forall u, coef x u = if (u <? 0)%Z then 0%Z else acoef A [] i j (Z.to_nat u)). { intros u. specialize (A5 i j u ltac:(lia) ltac:(congruence)). rewrite Ex in A5. exact A5. }
      assert (Ky : forall u, coef y u = if (u <? 0)%Z then 0%Z else acoef B [] j k (Z.to_nat u)). { intros u. specialize (B5 j k u ltac:(lia) ltac:(congruence)). rewrite Ey in B5. exact B5. }
      assert (Nx : forall u, (u < 0)%Z -> coef x u = 0%Z) by (intros u Hu; rewrite Kx; destruct (Z.ltb_spec u 0); [reflexivity|lia]).
      assert (Ny : forall u, (u < 0)%Z -> coef y u = 0%Z) by (intros u Hu; rewrite Ky; destruct (Z.ltb_spec u 0); [reflexivity|lia]). split.
      - intros d. change (coef (lmul x y) (Z.of_nat d) = zsum (S d) (fun e => acoef A [] i j e * acoef B [] j k (d - e)%nat)%Z). rewrite (proj1 (coef_mul_nonneg x y d Cx Nx Ny)). apply zsum_ext. intros e He. rewrite Kx, Ky. destruct (Z.ltb_spec (Z.of_nat e) 0), (Z.ltb_spec (Z.of_nat (d - e)) 0); try lia. now rewrite !Nat2Z.id.
      - intros u Hu. exact (proj2 (coef_mul_nonneg x y 0 Cx Nx Ny) u Hu). }
    destruct (Z.ltb_spec z 0) as [Hz|Hz]; [apply zsum_0; intros j Hj; now apply T|]. rewrite EX by assumption. unfold prod_coef. rewrite A2. apply zsum_ext. intros j Hj. rewrite <- (Z2Nat.id z) at 1 by lia. apply T. congruence.
Qed.

(** ** C68 *)
Lemma mul_shapes A B C : wfa A -> wfa B -> mul A B None = Ok C -> aJ A = aI B /\ aI C = aI A /\ aJ C = aJ B /\ adt C = adt A /\ wfa C /\ aD C = aD A + aD B - 1 /\ broadcasts (apre A) (apre B) (apre C) /\
  forall idx, valid_index (apre C) idx -> valid_index (apre A) (operand_index (apre A) idx) /\ valid_index (apre B) (operand_index (apre B) idx).
Proof.
  intros WA WB E.
  assert (EJ : aJ A = aI B). { unfold mul in E. destruct (Nat.eqb_spec (aJ A) (aI B)); [assumption|discriminate]. }
  pose proof (broadcast_shapes_spec (apre A) (apre B)) as S. destruct (broadcast_shapes (apre A) (apre B)) as [c|e] eqn:EP.
  2:{ unfold mul in E. rewrite (proj2 (Nat.eqb_eq _ _) EJ), EP in E. discriminate. }
  assert (HD : 1 <= aD A + aD B). { unfold mul in E. rewrite (proj2 (Nat.eqb_eq _ _) EJ), EP in E. cbn [assert_ bind] in E. destruct (Z.ltb_spec (Z.of_nat (aD A) + Z.of_nat (aD B) - 1) 0); [discriminate|lia]. }
  assert (HC : compatible (apre A) (apre B)) by apply S.
  destruct (C64_mul A B WA WB EJ HC HD) as [C' [E' [W' [B' [I' [J' [D' [T' K]]]]]]]]. assert (C' = C) by congruence. subst C'.
  split; [exact EJ|]. split; [exact I'|]. split; [exact J'|]. split; [exact T'|]. split; [exact W'|]. split; [exact D'|]. split; [exact B'|]. intros idx V. split.
  - destruct (broadcasts_valid _ _ _ _ B' V) as [V1 <-]. exact V1.
  - destruct (broadcasts_valid _ _ _ _ (broadcasts_sym _ _ _ B') V) as [V1 <-]. exact V1.
Qed.
Lemma zsum_le n f g : (forall i, i < n -> (f i <= g i)%Z) -> (zsum n f <= zsum n g)%Z.
Proof. induction n as [|n IH]; intros H; cbn [zsum]; [lia|]. specialize (H n ltac:(lia)) as Hn. specialize (IH ltac:(intros; apply H; lia)). lia. Qed.
Lemma zsum_const n c : zsum n (fun _ => c) = (Z.of_nat n * c)%Z.
Proof. induction n as [|n IH]; cbn [zsum]; [lia|]. rewrite IH. lia. Qed.
Lemma window_l n D c : (0 <= c)%Z -> (zsum n (fun e => if Nat.ltb e D then c else 0) <= Z.of_nat D * c)%Z.
Proof.
  intros Hc. destruct (Nat.le_gt_cases n D) as [H|H].
  - rewrite (zsum_ext n _ (fun _ => c)), zsum_const; [nia|]. intros e He. destruct (Nat.ltb_spec e D); [reflexivity|lia].
  - rewrite (zsum_cut n D); [|lia|intros e He; destruct (Nat.ltb_spec e D); [lia|reflexivity]]. rewrite (zsum_ext D _ (fun _ => c)), zsum_const; [lia|]. intros e He. destruct (Nat.ltb_spec e D); [reflexivity|lia].
Qed.
Lemma window_r d E c n : (0 <= c)%Z -> n <= S d -> (zsum n (fun e => if Nat.ltb (d - e) E then c else 0) <= Z.of_nat (n + E - S d) * c)%Z.
Proof.
  intros Hc. induction n as [|n IH]; intros H; cbn [zsum]; [nia|]. specialize (IH ltac:(lia)). destruct (Nat.ltb_spec (d - n) E) as [K|K].
  - replace (S n + E - S d) with (S (n + E - S d)) by lia. nia.
  - nia.
Qed.
Lemma prod_coef_bound J D E a b c i k d : (0 <= c)%Z -> (forall j e, j < J -> (0 <= a i j e)%Z) -> (forall j e, j < J -> (0 <= b j k e)%Z) ->
  (forall j e f, j < J -> (a i j e * b j k f <= c)%Z) -> (forall j e, j < J -> D <= e -> a i j e = 0%Z) -> (forall j e, j < J -> E <= e -> b j k e = 0%Z) ->
  (0 <= prod_coef J a b i k d <= Z.of_nat J * (Z.of_nat (Nat.min D E) * c))%Z.
Proof.
  intros Hc PA PB BD ZA ZB. unfold prod_coef. split.
  - assert (H : (zsum J (fun _ => 0%Z) <= zsum J (fun j => zsum (S d) (fun e => a i j e * b j k (d - e)%nat)))%Z); [|rewrite zsum_const in H; lia]. apply zsum_le. intros j Hj.
    assert (H : (zsum (S d) (fun _ => 0%Z) <= zsum (S d) (fun e => a i j e * b j k (d - e)%nat))%Z); [|rewrite zsum_const in H; lia]. apply zsum_le. intros e _. specialize (PA j e Hj). specialize (PB j (d - e) Hj). nia.
  - rewrite <- (zsum_const J (Z.of_nat (Nat.min D E) * c)). apply zsum_le. intros j Hj. apply Z.le_trans with (if Nat.leb D E then Z.of_nat D * c else Z.of_nat E * c)%Z.
    + destruct (Nat.leb_spec D E).
      * eapply Z.le_trans; [|apply (window_l (S d) D c Hc)]. apply zsum_le. intros e _. destruct (Nat.ltb_spec e D); [now apply BD|]. rewrite ZA by assumption. lia.
      * eapply Z.le_trans; [|replace (Z.of_nat E) with (Z.of_nat (S d + E - S d)) by lia; apply (window_r d E c (S d) Hc); lia]. apply zsum_le. intros e _. destruct (Nat.ltb_spec (d - e) E); [now apply BD|]. rewrite ZB by assumption. lia.
    + destruct (Nat.leb_spec D E); nia.
Qed.
(** all coefficients lie in [0, p) *)
Definition reduced_array (p : Z) (A : parr) : Prop := forall idx i j d, valid_index (apre A) idx -> i < aI A -> j < aJ A -> (0 <= acoef A idx i j d < p)%Z.
(** if dim * min(D, E) * (p-1)^2 fits the dtype of A, then the product is exact *)
Theorem C68_exact A B C p : wfa A -> wfa B -> (0 < p)%Z -> reduced_array p A -> reduced_array p B -> mul A B None = Ok C ->
  (Z.of_nat (aJ A) * Z.of_nat (Nat.min (aD A) (aD B)) * ((p - 1) * (p - 1)) < 2 ^ (dbits (adt A) - 1))%Z ->
  forall idx i k d, valid_index (apre C) idx -> i < aI C -> k < aJ C ->
    acoef C idx i k d = prod_coef (aJ A) (acoef A (operand_index (apre A) idx)) (acoef B (operand_index (apre B) idx)) i k d.
Proof.
  intros WA WB Hp RA RB E BND. apply (C64_mul_exact A B C WA WB E). intros idx i k d V Hi Hk.
  destruct (mul_shapes A B C WA WB E) as [EJ [CI [CJ [_ [_ [_ [_ VI]]]]]]]. destruct (VI idx V) as [VA VB].
  destruct (prod_coef_bound (aJ A) (aD A) (aD B) (acoef A (operand_index (apre A) idx)) (acoef B (operand_index (apre B) idx)) ((p - 1) * (p - 1)) i k d) as [L U].
  - nia.
  - intros j e Hj. apply RA; auto; congruence.
  - intros j e Hj. apply RB; auto; congruence.
  - intros j e f Hj. pose proof (RA _ i j e VA ltac:(congruence) Hj). pose proof (RB _ j k f VB ltac:(congruence) ltac:(congruence)). nia.
  - intros j e Hj He. now apply acoef_over.
  - intros j e Hj He. now apply acoef_over.
  - unfold in_dtype. rewrite <- Z.mul_assoc in BND. split; [|lia]. assert (0 < 2 ^ (dbits (adt A) - 1))%Z by (destruct (adt A); cbn; lia). lia.
Qed.
(** beyond the bound it can be wrong: p = 65537, 1 by 1 int32 matrices *)
Theorem C68_overflow : exists A B C, wfa A /\ wfa B /\ adt A = I32 /\ adt B = I32 /\ reduced_array 65537 A /\ reduced_array 65537 B /\ mul A B None = Ok C /\
  acoef C [] 0 0 0 = 0%Z /\ prod_coef (aJ A) (acoef A []) (acoef B []) 0 0 0 = 4294967296%Z /\ (4294967296 mod 65537 = 1)%Z.
Proof.
  set (A := mkA [] 1 1 1 I32 [[65536%Z]]). assert (W : wfa A) by (unfold wfa; cbn; repeat constructor; lia).
  assert (R : reduced_array 65537 A). { intros idx i j d V Hi Hj. cbn in V. inversion V; subst idx. cbn in Hi, Hj. assert (i = 0) by lia. assert (j = 0) by lia. subst i j. destruct d as [|d]; cbn; lia. }
  exists A, A. eexists. split; [exact W|]. split; [exact W|]. split; [reflexivity|]. split; [reflexivity|]. split; [exact R|]. split; [exact R|]. split; [vm_compute; reflexivity|]. repeat split.
Qed.
(** ** examples: the matrices of burau_generator_v2 *)
Ltac wfa_tac := unfold wfa; cbn; repeat constructor; lia.
Example C64_example : exists A B C, burau_generator_v2 4 0 = Ok A /\ burau_generator_v2 4 1 = Ok B /\ wfa A /\ wfa B /\ mul A B None = Ok C /\ aD C = 5 /\
  acoef C [] 0 1 3 = 1%Z /\ acoef C [] 0 0 3 = 0%Z /\ acoef C [] 1 2 1 = (-1)%Z.
Proof.
  do 3 eexists. split; [vm_compute; reflexivity|]. split; [vm_compute; reflexivity|]. split; [wfa_tac|]. split; [wfa_tac|]. split; [vm_compute; reflexivity|]. repeat split.
Qed.
Example C64_batch_example : exists P C, wfa P /\ apre P = [2] /\ mul P P None = Ok C /\ apre C = [2] /\ acoef C [1] 0 0 2 = 9%Z /\ acoef C [0] 0 0 1 = 4%Z.
Proof. exists (mkA [2] 1 1 2 I64 [[1; 2]; [0; 3]]%Z). eexists. split; [wfa_tac|]. split; [reflexivity|]. split; [vm_compute; reflexivity|]. repeat split. Qed.
Example C65_example : exists A P, wfa A /\ all_nonzero A /\ 1 <= nitems (apre A) /\ projectivise A = Ok P /\ P = mkA [2] 1 1 2 I64 [[5; 7]; [3; 0]]%Z.
Proof.
  exists (mkA [2] 1 1 4 I64 [[0; 5; 7; 0]; [0; 0; 3; 0]]%Z). eexists. split; [wfa_tac|]. split; [|split; [cbn; lia|split; vm_compute; reflexivity]].
  intros idx V. cbn in V. apply valid_one in V. destruct V as [k [-> Hk]]. exists 0, 0, 2. cbn. split; [lia|]. split; [lia|]. destruct k as [|[|k]]; cbn; lia.
Qed.
Example C66_example : exists A pl, wfa A /\ projlen A = Ok pl /\ pl = [2; 1]%Z /\ least_degree (acoef A [0]) 1 1 1 /\ greatest_degree (acoef A [0]) 1 1 2.
Proof.
  exists (mkA [2] 1 1 4 I64 [[0; 5; 7; 0]; [0; 0; 3; 0]]%Z). eexists. split; [wfa_tac|]. split; [vm_compute; reflexivity|]. split; [reflexivity|]. split; split.
  - exists 0, 0. cbn. lia.
  - intros i j e Hi Hj He. assert (i = 0) by lia. assert (j = 0) by lia. subst. destruct e as [|e]; [reflexivity|lia].
  - exists 0, 0. cbn. lia.
  - intros i j e Hi Hj He. assert (i = 0) by lia. assert (j = 0) by lia. subst. destruct e as [|[|[|[|e]]]]; try lia; reflexivity.
Qed.
Example C67_example : exists A B P M, burau_generator_v2 4 0 = Ok A /\ burau_generator_v2 4 1 = Ok B /\ pack [A; B] = Ok P /\ apre P = [2] /\ to_matrix A = Ok M /\ from_matrix M false I64 = Ok (Some A) /\ poly_matrix M.
Proof.
  do 4 eexists. split; [vm_compute; reflexivity|]. split; [vm_compute; reflexivity|]. split; [vm_compute; reflexivity|]. split; [reflexivity|]. split; [vm_compute; reflexivity|]. split; [vm_compute; reflexivity|].
  split; [reflexivity|]. repeat constructor; eexists; (split; [reflexivity|]); (split; [reflexivity|lia]).
Qed.
Example C68_example : exists A B C, wfa A /\ wfa B /\ reduced_array 3 A /\ adt A = I32 /\ mul A B None = Ok C /\ (Z.of_nat (aJ A) * Z.of_nat (Nat.min (aD A) (aD B)) * ((3 - 1) * (3 - 1)) < 2 ^ (dbits (adt A) - 1))%Z.
Proof.
  exists (mkA [] 1 1 2 I32 [[1; 2]]%Z), (mkA [] 1 1 2 I32 [[2; 2]]%Z). eexists. split; [wfa_tac|]. split; [wfa_tac|]. split; [|split; [reflexivity|split; [vm_compute; reflexivity|vm_compute; reflexivity]]].
  intros idx i j d V Hi Hj. cbn in V. inversion V; subst idx. cbn in Hi, Hj. assert (i = 0) by lia. assert (j = 0) by lia. subst i j. destruct d as [|[|d]]; cbn; lia.
Qed.
