(** PropsPolymat2.v – theorems for C67 (pack, zeropad, concatenate, to_matrix,
    from_matrix), C64 (mul against Matrix multiplication) and C68 (overflow). *)
From Verif Require Import Base ModelPoly SpecPoly PolyTheory PolyDiv PropsPoly NumTheory ModelMatrix SpecMatrix MatrixTheory PropsMatrix JonesTheory ModelRep SpecRep RepTheory RepCanon ModelPolymat SpecPolymat PolymatTheory PropsPolymat.
From Coq Require Import Setoid Morphisms.
Local Open Scope nat_scope.

(** ** padding *)
Lemma bpad_ok t I J D D' b i j d : i < I -> j < J -> d < D' -> bget J D' (bpad t I J D D' b) i j d = if d <? D then wrap t (bget J D b i j d) else 0%Z.
Proof. intros. unfold bpad. now rewrite bget_btab. Qed.
Lemma in_dtype_0 t : in_dtype t 0. Proof. destruct t; unfold in_dtype; cbn; lia. Qed.
(** zeropad(A, D) represents the same matrices with D degrees *)
Theorem C67_zeropad A D : wfa A -> (Z.of_nat (aD A) <= D)%Z -> exists B, zeropad A D = Ok B /\ wfa B /\ apre B = apre A /\ aI B = aI A /\ aJ B = aJ A /\ aD B = Z.to_nat D /\ adt B = adt A /\
  forall idx, valid_index (apre A) idx -> same_poly (acoef B idx) (acoef A idx) (aI A) (aJ A).
Proof.
  intros W H. unfold zeropad. rewrite (proj2 (Z.leb_le _ _) H). cbn [assert_ bind].
  assert (E : mkA (apre A) (aI A) (aJ A) (Z.to_nat D) (adt A) (map (bpad (adt A) (aI A) (aJ A) (aD A) (Z.to_nat D)) (ablocks A)) = ptab (apre A) (aI A) (aJ A) (Z.to_nat D) (adt A) (fun idx i j d => if d <? aD A then wrap (adt A) (bget (aJ A) (aD A) (block A idx) i j d) else 0%Z)).
  { unfold ptab. now rewrite (map_blocks A (bpad (adt A) (aI A) (aJ A) (aD A) (Z.to_nat D)) W). }
  rewrite E. assert (R : forall idx i j d, valid_index (apre A) idx -> i < aI A -> j < aJ A -> d < Z.to_nat D -> in_dtype (adt A) (if d <? aD A then wrap (adt A) (bget (aJ A) (aD A) (block A idx) i j d) else 0%Z)).
  { intros. destruct (d <? aD A); [apply wrap_range|apply in_dtype_0]. }
  eexists. split; [reflexivity|]. split; [now apply ptab_wf|]. cbn [ptab apre aI aJ aD adt]. repeat (split; [reflexivity|]). intros idx V i j d Hi Hj.
  match goal with |- acoef ?X _ _ _ _ = _ => change X with (ptab (apre A) (aI A) (aJ A) (Z.to_nat D) (adt A) (fun idx i j d => if d <? aD A then wrap (adt A) (bget (aJ A) (aD A) (block A idx) i j d) else 0%Z)) end.
  rewrite ptab_coef by auto. pose proof (acoef_range A idx i j d W V Hi Hj) as RG. rewrite coef_block in * by auto. destruct (Nat.ltb_spec d (aD A)), (Nat.ltb_spec d (Z.to_nat D)); try lia; auto. now apply wrap_id.
Qed.
Theorem C67_zeropad_error A D : (D < Z.of_nat (aD A))%Z -> zeropad A D = Err AssertionError.
Proof. intros H. unfold zeropad. destruct (Z.leb_spec (Z.of_nat (aD A)) D); [lia|reflexivity]. Qed.

(** ** pack *)
Lemma valid_one n idx : valid_index [n] idx <-> exists k, idx = [k] /\ k < n.
Proof.
  unfold valid_index. split.
  - intros H. inversion H as [|k ? l ? Hk Hl]; subst. inversion Hl; subst. eauto.
  - intros [k [-> Hk]]. repeat constructor. exact Hk.
Qed.
Lemma indices_one n : indices [n] = map (fun k => [k]) (seq 0 n).
Proof. cbn [indices]. generalize (seq 0 n). intros l. induction l as [|x l IH]; [reflexivity|]. change ([x] :: flat_map (fun i : nat => map (cons i) [[]]) l = [x] :: map (fun k => [k]) l). now rewrite IH. Qed.
Lemma map_nth_seq {A} (l : list A) d : l = map (fun k => nth k l d) (seq 0 (length l)).
Proof. apply (nth_ext _ _ d d); [now rewrite map_length, seq_length|]. intros k Hk. rewrite nth_map_seq by exact Hk. reflexivity. Qed.
Definition A_default : parr := mkA [] 0 0 0 I64 [].
Lemma trim_block A idx i j d : wfa A -> valid_index (apre A) idx -> i < aI A -> j < aJ A -> d < aD (trim A) -> bget (aJ A) (aD (trim A)) (block (trim A) idx) i j d = acoef A idx i j d.
Proof.
  intros W V Hi Hj Hd. destruct (C65_trim A W) as [WT [T1 [T2 [T3 [T4 [T5 [T6 _]]]]]]]. rewrite <- (T6 idx V i j d Hi Hj). rewrite coef_block; [|exact WT|now rewrite T1|now rewrite T2|now rewrite T3]. apply Nat.ltb_lt in Hd. rewrite Hd, T3. reflexivity.
Qed.
(** pack(As)[k] represents As[k]; all matrices share the smallest sufficient number
    of degrees *)
Theorem C67_pack A0 As' : let As := A0 :: As' in Forall (fun A => wfa A /\ apre A = [] /\ aI A = aI A0 /\ aJ A = aJ A0) As ->
  (forall A i j d, In A As -> i < aI A0 -> j < aJ A0 -> in_dtype (adt A0) (acoef A [] i j d)) ->
  exists P, pack As = Ok P /\ wfa P /\ apre P = [length As] /\ aI P = aI A0 /\ aJ P = aJ A0 /\ adt P = adt A0 /\
    (forall k, k < length As -> same_poly (acoef P [k]) (acoef (nth k As A_default) []) (aI A0) (aJ A0)) /\
    (aD P <> 0 -> exists k i j, k < length As /\ i < aI A0 /\ j < aJ A0 /\ acoef P [k] i j (aD P - 1) <> 0%Z).
Proof.
  intros As F R. unfold pack. cbn [length Nat.leb assert_ bind].
  assert (F1 : forallb (fun A => length (apre A) =? 0) As = true). { apply forallb_forall. intros A HA. rewrite Forall_forall in F. destruct (F A HA) as [_ [-> _]]. reflexivity. }
  assert (F2 : forallb (fun A => (aI A =? aI A0) && (aJ A =? aJ A0)) As = true). { apply forallb_forall. intros A HA. rewrite Forall_forall in F. destruct (F A HA) as [_ [_ [-> ->]]]. now rewrite !Nat.eqb_refl. }
  change (length As' <=? length As') with (Nat.leb (length As') (length As')). fold As. rewrite F1. unfold get. cbn [As nth_error bind assert_]. fold As. rewrite F2. cbn [assert_ bind].
  set (D := list_max (map aD (map trim As))). set (f := fun A => bpad (adt A0) (aI A) (aJ A) (aD A) D (block A [])).
  assert (KA : forall k, k < length As -> wfa (nth k As A_default) /\ apre (nth k As A_default) = [] /\ aI (nth k As A_default) = aI A0 /\ aJ (nth k As A_default) = aJ A0) by (intros k Hk; rewrite Forall_forall in F; apply F; now apply nth_In).
  set (g := fun idx i j d => acoef (nth (hd 0 idx) As A_default) [] i j d).
  assert (E : mkA [length As] (aI A0) (aJ A0) D (adt A0) (map f (map trim As)) = ptab [length As] (aI A0) (aJ A0) D (adt A0) g).
  { unfold ptab. f_equal. rewrite indices_one, !map_map. rewrite (map_nth_seq As A_default) at 1. rewrite map_map. apply map_ext_in. intros k Hk%in_seq. cbn [hd]. destruct (KA k ltac:(lia)) as [Wk [Pk [Ik Jk]]].
    set (A := nth k As A_default) in *. destruct (C65_trim A Wk) as [WT [T1 [T2 [T3 [T4 [T5 [T6 _]]]]]]]. unfold f. rewrite T2, T3, Ik, Jk. unfold bpad. apply btab_ext. intros i j d Hi Hj Hd. unfold g. cbn [hd]. fold A.
    assert (V : valid_index (apre A) []) by (rewrite Pk; constructor). destruct (Nat.ltb_spec d (aD (trim A))) as [L|L].
    - rewrite <- Jk at 1. rewrite trim_block by (auto; congruence). apply wrap_id. apply R; auto. apply nth_In. lia.
    - rewrite <- (T6 [] V i j d) by congruence. symmetry. now apply acoef_over. }
  change (S (length As')) with (length As). rewrite E.
  assert (RG : forall idx i j d, valid_index [length As] idx -> i < aI A0 -> j < aJ A0 -> d < D -> in_dtype (adt A0) (g idx i j d)).
  { intros idx i j d V Hi Hj Hd. apply valid_one in V. destruct V as [k [-> Hk]]. unfold g. cbn [hd]. apply R; auto. now apply nth_In. }
  assert (DM : forall k, k < length As -> aD (trim (nth k As A_default)) <= D). { intros k Hk. apply list_max_ge. rewrite map_map. apply in_map_iff. exists (nth k As A_default). split; [reflexivity|]. now apply nth_In. }
  assert (CG : forall k i j d, k < length As -> i < aI A0 -> j < aJ A0 -> acoef (ptab [length As] (aI A0) (aJ A0) D (adt A0) g) [k] i j d = acoef (nth k As A_default) [] i j d).
  { intros k i j d Hk Hi Hj. rewrite ptab_coef; auto; [|apply valid_one; eauto]. destruct (Nat.ltb_spec d D) as [L|L]; [reflexivity|].
    destruct (KA k Hk) as [Wk [Pk [Ik Jk]]]. set (A := nth k As A_default) in *. destruct (C65_trim A Wk) as [WT [T1 [T2 [T3 [T4 [T5 [T6 _]]]]]]]. assert (V : valid_index (apre A) []) by (rewrite Pk; constructor). rewrite <- (T6 [] V i j d) by congruence. symmetry. apply acoef_over. specialize (DM k Hk). fold A in DM. lia. }
  exists (ptab [length As] (aI A0) (aJ A0) D (adt A0) g). split; [reflexivity|]. split; [now apply ptab_wf|]. split; [reflexivity|]. split; [reflexivity|]. split; [reflexivity|]. split; [reflexivity|]. split.
  - intros k Hk i j d Hi Hj. now apply CG.
  - cbn [ptab aD]. intros ND. assert (In D (map aD (map trim As))) as HD by (apply list_max_in; discriminate). rewrite map_map in HD. apply in_map_iff in HD. destruct HD as [A [ED HA]].
    apply (In_nth _ _ A_default) in HA. destruct HA as [k [Hk EA]]. destruct (KA k Hk) as [Wk [Pk [Ik Jk]]]. rewrite EA in *. destruct (C65_trim A Wk) as [WT [T1 [T2 [T3 [T4 [T5 [T6 T7]]]]]]]. destruct T7 as [idx [i [j [V [Hi [Hj K]]]]]]; [congruence|].
    rewrite Pk in V. inversion V; subst idx. exists k, i, j. split; [exact Hk|]. split; [congruence|]. split; [congruence|]. change (mkA [length As] (aI A0) (aJ A0) D (adt A0) _) with (ptab [length As] (aI A0) (aJ A0) D (adt A0) g). rewrite CG by congruence. rewrite EA. now rewrite <- ED.
Qed.
Theorem C67_pack_errors As : (As = [] \/ (exists A, In A As /\ apre A <> []) \/ exists A B, In A As /\ In B As /\ (aI A <> aI B \/ aJ A <> aJ B)) -> pack As = Err AssertionError.
Proof.
  unfold pack. destruct As as [|A0 As']; [reflexivity|]. intros [H|H]; [discriminate|]. set (As := A0 :: As') in *. cbn [length Nat.leb assert_ bind]. change (1 <=? length As) with true. cbn [assert_ bind].
  destruct (forallb (fun A => length (apre A) =? 0) As) eqn:F1; [|reflexivity]. unfold get. cbn [assert_ bind As nth_error]. fold As. destruct (forallb (fun A => (aI A =? aI A0) && (aJ A =? aJ A0)) As) eqn:F2; [|reflexivity]. exfalso.
  rewrite forallb_forall in F1, F2. destruct H as [[A [HA N]]|[A [B [HA [HB N]]]]].
  - specialize (F1 A HA). apply Nat.eqb_eq in F1. apply N. now apply length_zero_iff_nil.
  - pose proof (F2 A HA) as KA. pose proof (F2 B HB) as KB. apply andb_true_iff in KA, KB. rewrite !Nat.eqb_eq in KA, KB. destruct KA, KB. destruct N; congruence.
Qed.

(** ** concatenate *)
Lemma nth_concat_var {A} (l : list (list A)) k m d : k < length l -> m < length (nth k l []) -> nth (fold_right Nat.add 0 (map (@length A) (firstn k l)) + m) (concat l) d = nth m (nth k l []) d.
Proof.
  revert k. induction l as [|x l IH]; intros k Hk Hm; [cbn in Hk; lia|]. destruct k as [|k].
  - cbn in *. now rewrite app_nth1.
  - cbn [firstn map fold_right concat nth] in *. rewrite app_nth2 by lia. rewrite <- IH by (cbn in Hk; lia). f_equal. lia.
Qed.
Lemma length_concat_sum {A} (l : list (list A)) : length (concat l) = fold_right Nat.add 0 (map (@length A) l).
Proof. induction l as [|x l IH]; cbn; [reflexivity|]. rewrite app_length. lia. Qed.
Lemma promote_widest l a t : In t (a :: l) -> (dbits t <= dbits (fold_left promote l a))%Z.
Proof.
  assert (M : forall l a, (dbits a <= dbits (fold_left promote l a))%Z).
  { clear. induction l as [|b l IH]; intros a; [cbn; lia|]. cbn [fold_left]. specialize (IH (promote a b)). destruct a, b; cbn in *; lia. }
  revert a. induction l as [|b l IH]; intros a [<-|H]; try (destruct H; fail).
  - cbn; lia.
  - apply M.
  - cbn [fold_left]. destruct H as [<-|H].
    + specialize (M l (promote a b)). destruct a, b; cbn in *; lia.
    + apply IH. now right.
Qed.
Lemma in_dtype_wider t u x : (dbits t <= dbits u)%Z -> in_dtype t x -> in_dtype u x.
Proof. destruct t, u; unfold in_dtype; cbn; lia. Qed.
Lemma Forall2_nth2 {A B} (Q : A -> B -> Prop) l l' d d' k : Forall2 Q l l' -> k < length l -> Q (nth k l d) (nth k l' d').
Proof. intros F. revert k. induction F as [|a b l l' H F IH]; intros k Hk; [cbn in Hk; lia|]. destruct k; [exact H|]. apply IH. cbn in Hk; lia. Qed.
(** the number of matrices in a batch *)
Definition nmats (A : parr) : nat := nitems (apre A).
Definition total (l : list nat) : nat := fold_right Nat.add 0 l.
(** concatenate(As) lists the matrices of the batches one after another *)
Theorem C67_concatenate A0 As' : let As := A0 :: As' in
  Forall (fun A => wfa A /\ length (apre A) = 1 /\ aI A = aI A0 /\ aJ A = aJ A0) As ->
  exists P, concatenate As = Ok P /\ wfa P /\ apre P = [total (map nmats As)] /\ aI P = aI A0 /\ aJ P = aJ A0 /\
    (forall k m, k < length As -> m < nmats (nth k As A_default) ->
      same_poly (acoef P [total (map nmats (firstn k As)) + m]) (acoef (nth k As A_default) [m]) (aI A0) (aJ A0)).
Proof.
  intros As F. unfold concatenate. fold As. change (match As with [] => _ | A1 :: _ => _ end) with
    (_ <- assert_ (forallb (fun A => length (apre A) =? 1) As) ;;
      _ <- assert_ (forallb (fun A => (aI A =? aI A0) && (aJ A =? aJ A0)) As) ;;
      let Ts := map trim As in
      let D := list_max (map aD Ts) in
      Zs <- mapM (fun A => zeropad A (Z.of_nat D)) Ts ;;
      Ok (mkA [length (concat (map ablocks Zs))] (aI A0) (aJ A0) D (fold_left promote (map adt Zs) (adt A0)) (concat (map ablocks Zs)))).
  assert (F1 : forallb (fun A => length (apre A) =? 1) As = true). { apply forallb_forall. intros A HA. rewrite Forall_forall in F. destruct (F A HA) as [_ [-> _]]. reflexivity. }
  assert (F2 : forallb (fun A => (aI A =? aI A0) && (aJ A =? aJ A0)) As = true). { apply forallb_forall. intros A HA. rewrite Forall_forall in F. destruct (F A HA) as [_ [_ [-> ->]]]. now rewrite !Nat.eqb_refl. }
  rewrite F1, F2. cbn [assert_ bind]. cbv zeta. set (D := list_max (map aD (map trim As))).
  set (Q := fun A Z => wfa Z /\ apre Z = apre A /\ aI Z = aI A0 /\ aJ Z = aJ A0 /\ aD Z = D /\ adt Z = adt A /\ forall idx, valid_index (apre A) idx -> same_poly (acoef Z idx) (acoef A idx) (aI A0) (aJ A0)).
  assert (ZS : exists Zs, mapM (fun A => zeropad A (Z.of_nat D)) (map trim As) = Ok Zs /\ Forall2 Q As Zs).
  { assert (L : forall A, In A As -> aD (trim A) <= D). { intros A HA. apply list_max_ge. rewrite map_map. apply in_map_iff. now exists A. }
    clearbody D. revert F L. clear. generalize As. intros l F. induction F as [|A l [W [P [HI HJ]]] F IH]; intros L; [exists []; split; [reflexivity|constructor]|].
    destruct IH as [Zs [E R]]; [intros B HB; apply L; now right|]. destruct (C65_trim A W) as [WT [T1 [T2 [T3 [T4 [T5 [T6 _]]]]]]]. specialize (L A (or_introl eq_refl)).
    destruct (C67_zeropad (trim A) (Z.of_nat D) WT ltac:(lia)) as [B [EB [WB [B1 [B2 [B3 [B4 [B5 B6]]]]]]]]. exists (B :: Zs). split.
    - cbn [map mapM]. rewrite EB. cbn [bind]. rewrite E. reflexivity.
    - constructor; [|exact R]. unfold Q. split; [exact WB|]. split; [congruence|]. split; [congruence|]. split; [congruence|]. split; [rewrite B4; apply Nat2Z.id|]. split; [congruence|]. intros idx V i j d Hi Hj. rewrite (B6 idx) by congruence. apply T6; congruence. }
  destruct ZS as [Zs [EZ RZ]]. rewrite EZ. cbn [bind]. set (P := mkA _ _ _ _ _ _).
  assert (LZ : map (@length _) (map ablocks Zs) = map nmats As). { clear -RZ. induction RZ as [|A Z l l' H R IH]; [reflexivity|]. cbn [map]. rewrite IH. f_equal. destruct H as [[L _] [E _]]. rewrite L, E. reflexivity. }
  assert (LN : length (concat (map ablocks Zs)) = total (map nmats As)) by (rewrite length_concat_sum, LZ; reflexivity).
  assert (LL : length Zs = length As). { clear -RZ. induction RZ; cbn; congruence. }
  assert (WP : wfa P).
  { unfold wfa, P. cbn [apre aI aJ aD adt ablocks]. split; [cbn; lia|]. split.
    - apply Forall_concat. apply Forall_map. apply Forall_forall. intros Z HZ. apply (In_nth _ _ A_default) in HZ. destruct HZ as [k [Hk <-]]. rewrite LL in Hk. pose proof (Forall2_nth2 Q As Zs A_default A_default k RZ Hk) as [[_ [FL _]] [_ [QI [QJ [QD _]]]]]. rewrite QI, QJ, QD in FL. exact FL.
    - apply Forall_concat. apply Forall_map. apply Forall_forall. intros Z HZ. assert (IN : In (adt Z) (map adt Zs)) by now apply in_map. apply (In_nth _ _ A_default) in HZ. destruct HZ as [k [Hk EZk]]. rewrite LL in Hk. pose proof (Forall2_nth2 Q As Zs A_default A_default k RZ Hk) as [[_ [_ FR]] _]. rewrite EZk in FR.
      eapply Forall_impl; [|exact FR]. intros b Hb. eapply Forall_impl; [|exact Hb]. intros x Hx. apply (in_dtype_wider (adt Z)); [|exact Hx]. apply promote_widest. now right. }
  exists P. split; [reflexivity|]. split; [exact WP|]. split; [unfold P; cbn [apre]; now rewrite LN|]. split; [reflexivity|]. split; [reflexivity|].
  intros k m Hk Hm i j d Hi Hj. pose proof (Forall2_nth2 Q As Zs A_default A_default k RZ Hk) as [WZ [Z1 [Z2 [Z3 [Z4 [Z5 Z6]]]]]]. set (Z := nth k Zs A_default) in *. set (A := nth k As A_default) in *.
  assert (PA : apre A = [nmats A]). { rewrite Forall_forall in F. destruct (F A ltac:(now apply nth_In)) as [_ [PL _]]. unfold nmats. destruct (apre A) as [|n [|]]; try discriminate. cbn. now rewrite Nat.mul_1_r. }
  assert (V : valid_index (apre A) [m]) by (rewrite PA; repeat constructor; exact Hm).
  rewrite <- (Z6 [m] V i j d Hi Hj).
  assert (SUM : total (map nmats (firstn k As)) = fold_right Nat.add 0 (map (@length _) (firstn k (map ablocks Zs)))). { rewrite <- firstn_map, <- LZ, firstn_map. reflexivity. }
  assert (NB : nth k (map ablocks Zs) [] = ablocks Z). { rewrite (nth_indep _ [] (ablocks A_default)) by (rewrite map_length; lia). now rewrite map_nth. }
  assert (LB : length (ablocks Z) = nmats A). { destruct WZ as [LB _]. rewrite LB, Z1. reflexivity. }
  assert (BND : total (map nmats (firstn k As)) + m < total (map nmats As)).
  { clear -Hk Hm. unfold A in Hm. clear A. revert k Hk Hm. generalize As. intros l. induction l as [|A l IH]; intros k Hk Hm; [cbn in Hk; lia|]. destruct k as [|k]; cbn [firstn map total fold_right nth length] in *; [unfold total; lia|]. specialize (IH k ltac:(lia) Hm). unfold total in *. lia. }
  rewrite (coef_block P); [|exact WP|unfold P; cbn [apre]; rewrite LN; repeat constructor; exact BND|exact Hi|exact Hj].
  rewrite (coef_block Z); [|exact WZ|now rewrite Z1|congruence|congruence]. rewrite Z3, Z4. unfold block. rewrite Z1, PA. unfold P. cbn [aD aJ apre ablocks ravel size fold_right].
  rewrite !Nat.mul_1_r, !Nat.add_0_r. rewrite SUM. rewrite nth_concat_var; [now rewrite NB|rewrite map_length; lia|rewrite NB; lia].
Qed.
Theorem C67_concatenate_empty : concatenate [] = Ok (mkA [0] 1 1 1 I64 []) /\ wfa (mkA [0] 1 1 1 I64 []).
Proof. split; [reflexivity|]. repeat constructor. Qed.
Theorem C67_concatenate_errors As : As <> [] -> ((exists A, In A As /\ length (apre A) <> 1) \/ exists A B, In A As /\ In B As /\ (aI A <> aI B \/ aJ A <> aJ B)) -> concatenate As = Err AssertionError.
Proof.
  destruct As as [|A0 As']; [congruence|]. intros _ H. unfold concatenate. set (As := A0 :: As') in *.
  destruct (forallb (fun A => length (apre A) =? 1) As) eqn:F1; [|reflexivity]. cbn [assert_ bind]. destruct (forallb (fun A => (aI A =? aI A0) && (aJ A =? aJ A0)) As) eqn:F2; [|reflexivity]. exfalso.
  rewrite forallb_forall in F1, F2. destruct H as [[A [HA N]]|[A [B [HA [HB N]]]]].
  - specialize (F1 A HA). now apply Nat.eqb_eq in F1.
  - pose proof (F2 A HA) as KA. pose proof (F2 B HB) as KB. apply andb_true_iff in KA, KB. rewrite !Nat.eqb_eq in KA, KB. destruct KA, KB. destruct N; congruence.
Qed.
