(** PropsValid2.v – C108: valiate_buckets finds a tracker that was fed with images of the
    representation sound. *)
From Verif Require Import Base ModelPoly SpecPoly PolyTheory PropsPoly ModelMatrix SpecMatrix MatrixTheory NumTheory ModelPolymat SpecPolymat PolymatTheory PropsPolymat PropsPolymat2 PropsPolymat3.
From Coq Require Import Permutation QArith_base.
From Verif Require Import ModelPerm ModelBraid ModelTL ModelTLMor ModelRep SpecRep RepTheory RepCanon PropsRep ModelPolyRep TableTheory NFApi PermGerm PermTable PropsGNF PropsGNF2 PolyRepTheory PolyRepSpan PropsPolyRep PropsPolyRep2 DescTheory ModelTracker DescTheory2.
From Verif Require Import SpecTracker TrackerTheory TrackerRun PropsTracker PropsDesc ModelTools PropsStats PropsValid.
Local Open Scope nat_scope.

(** what polymat_mul returns is trimmed *)
Lemma arr_mod_wfa A p C : wfa A -> (0 < p)%Z -> arr_mod A p = Ok C -> wfa C /\ apre C = apre A.
Proof.
  intros (W1 & W2 & W3) Hp. unfold arr_mod. destruct (fits I64 p) eqn:F; [|discriminate]. intros [= <-]. split; [|reflexivity]. unfold wfa. cbn [apre aI aJ aD adt ablocks]. split; [now rewrite map_length|]. split.
  - apply Forall_forall. intros b Hb. apply in_map_iff in Hb. destruct Hb as [b' [<- Hb']]. rewrite map_length. rewrite Forall_forall in W2. now apply W2.
  - apply Forall_forall. intros b Hb. apply in_map_iff in Hb. destruct Hb as [b' [<- Hb']]. apply Forall_forall. intros x Hx. apply in_map_iff in Hx. destruct Hx as [y [<- _]]. pose proof (Z.mod_pos_bound y p Hp).
    assert (G : fits (if fits (adt A) p then adt A else I64) p = true) by (destruct (fits (adt A) p) eqn:F2; assumption). remember (if fits (adt A) p then adt A else I64) as u0 eqn:Eu0. unfold fits in G. apply andb_true_iff in G. destruct G as [_ G]. apply Z.ltb_lt in G.
    set (u := dbits u0) in *. assert (U : (0 <= u - 1)%Z) by (unfold u; destruct u0; cbn; lia). pose proof (Z.pow_pos_nonneg 2 (u - 1) ltac:(lia) U). lia.
Qed.
Lemma mul_wfa A B C : mul A B None = Ok C -> wfa C.
Proof.
  intros E. unfold mul in E. destruct (assert_ (aJ A =? aI B)); [|discriminate]. cbn [bind assert_] in E. destruct (broadcast_shapes (apre A) (apre B)) as [pre|]; [|discriminate]. cbn [bind] in E.
  destruct (_ <? 0)%Z; [discriminate|]. injection E as <-. apply (ptab_wf pre (aI A) (aJ B) (Z.to_nat (Z.of_nat (aD A) + Z.of_nat (aD B) - 1)) (adt A)
    (fun idx i k d => wrap (adt A) (mul_entry (promote (adt A) (adt B)) (aJ A) (aD A) (aJ B) (aD B) (block A (bidx (apre A) idx)) (block B (bidx (apre B) idx)) i k d))). intros. apply wrap_range.
Qed.
Lemma step_trimmed p A B P : (0 <= p)%Z -> polymat_mul p A B = Ok P -> 1 <= nitems (apre P) -> exists idx, valid_index (apre P) idx /\ greatest_degree (acoef P idx) (aI P) (aJ P) (aD P - 1).
Proof.
  intros Hp E. unfold polymat_mul in E. destruct (mul A B None) as [C|] eqn:EM; [|discriminate]. cbn [bind] in E. pose proof (mul_wfa A B C EM) as WC. destruct (reduce_arr p C) as [C'|] eqn:ER; [|discriminate]. cbn [bind] in E.
  assert (W : wfa C'). { unfold reduce_arr in ER. destruct (Z.eqb_spec p 0); [injection ER as <-; exact WC|]. exact (proj1 (arr_mod_wfa C p C' WC ltac:(lia) ER)). }
  intros NE. assert (EA : apre P = apre C').
  { unfold projectivise in E. destruct (assert_ (forallb bany (ablocks C'))); [|discriminate]. cbn [bind] in E. destruct (aD C' =? 0); [discriminate|]. destruct (_ && _); [injection E as <-; reflexivity|]. destruct (proj_starts_ends C') as [[st en]|]; [|discriminate]. cbn [bind] in E. destruct (ablocks C'); [discriminate|]. injection E as <-. reflexivity. }
  assert (NZ : all_nonzero C').
  { unfold projectivise in E. destruct (forallb bany (ablocks C')) eqn:EB; [|discriminate]. intros idx V. apply (bany_acoef C' idx W V). now apply (proj1 (forallb_blocks C' bany W) EB). }
  destruct (C65_projectivise C' W ltac:(rewrite <- EA; exact NE) NZ) as (P' & E' & _ & E1 & E2 & E3 & _ & _ & idx & V & G). rewrite E in E'. injection E' as <-. exists idx. rewrite E1, E2, E3. auto.
Qed.
Lemma evaluate_trimmed tb R bs b0 P : (0 <= rep_p R)%Z -> In b0 bs -> o_factors b0 <> [] -> polymat_evaluate_braids_of_same_length (A := list nat) tb R bs = Ok P -> 1 <= nitems (apre P) ->
  exists idx, valid_index (apre P) idx /\ greatest_degree (acoef P idx) (aI P) (aJ P) (aD P - 1).
Proof.
  intros Hp Hb Hf E NE. unfold polymat_evaluate_braids_of_same_length in E. destruct bs as [|b bs]; [contradiction|]. change (get (b :: bs) 0) with (Ok b) in E. cbn [bind] in E.
  destruct (forallb _ (b :: bs)) eqn:EF; [|discriminate]. cbn [assert_ bind] in E. assert (L : length (o_factors b) <> 0).
  { rewrite forallb_forall in EF. specialize (EF b0 Hb). apply Nat.eqb_eq in EF. rewrite <- EF. destruct (o_factors b0); [contradiction|discriminate]. }
  destruct (tb (rep_n R)) as [t|]; [|discriminate]. cbn [bind] in E. destruct (mapM _ (b :: bs)) as [ds|]; [|discriminate]. cbn [bind] in E. destruct (pack ds) as [r0|]; [|discriminate]. cbn [bind] in E.
  destruct (length (o_factors b)) as [|k]; [contradiction|]. rewrite seq_S, foldM_app in E. destruct (foldM _ (seq 0 k) r0) as [r1|]; [|discriminate]. cbn [bind foldM Nat.add] in E.
  destruct (mapM _ (b :: bs)) as [col|]; [|discriminate]. cbn [bind] in E. unfold polymat_step in E. destruct (mapM _ col) as [fs|]; [|discriminate]. cbn [bind] in E. destruct (pack fs) as [im|]; [|discriminate]. cbn [bind] in E.
  destruct (polymat_mul (rep_p R) r1 im) as [P'|] eqn:EP; [|discriminate]. cbn [bind] in E. injection E as <-. exact (step_trimmed _ _ _ _ Hp EP NE).
Qed.
(** two reduced images of the same matrix with a constant term are equal *)
Lemma small_eq p a b : (p <> 0 -> 0 <= a < p)%Z -> (p <> 0 -> 0 <= b < p)%Z -> (p | a - b)%Z -> a = b.
Proof.
  intros Ha Hb [q Q]. destruct (Z.eq_dec p 0) as [->|N]; [lia|]. specialize (Ha N). specialize (Hb N). assert (q = 0)%Z by nia. lia.
Qed.
Lemma image_unique p d X A B k l : is_image p d X A k -> is_image p d X B l ->
  (exists i j, i < d /\ j < d /\ acoef A [k] i j 0 <> 0%Z) -> (exists i j, i < d /\ j < d /\ acoef B [l] i j 0 <> 0%Z) ->
  (p <> 0%Z -> forall i j e, i < d -> j < d -> (0 <= acoef A [k] i j e < p)%Z) -> (p <> 0%Z -> forall i j e, i < d -> j < d -> (0 <= acoef B [l] i j e < p)%Z) ->
  forall i j e, i < d -> j < d -> acoef A [k] i j e = acoef B [l] i j e.
Proof.
  assert (ONE : forall A B k l s s', (forall i j e, i < d -> j < d -> (p | numcoef (mentry X i j) e - (if e <? s then 0 else acoef A [k] i j (Z.to_nat (e - s))))%Z) ->
    (forall i j e, i < d -> j < d -> (p | numcoef (mentry X i j) e - (if e <? s' then 0 else acoef B [l] i j (Z.to_nat (e - s'))))%Z) ->
    (exists i j, i < d /\ j < d /\ acoef A [k] i j 0 <> 0%Z) -> (p <> 0%Z -> forall i j e, i < d -> j < d -> (0 <= acoef A [k] i j e < p)%Z) -> (s' <= s)%Z).
  { intros A0 B0 k0 l0 s s' HA HB (i & j & Hi & Hj & N) RA. destruct (Z.le_gt_cases s' s) as [|Lt]; [assumption|exfalso]. specialize (HA i j s Hi Hj). specialize (HB i j s Hi Hj). rewrite (proj2 (Z.ltb_lt _ _) Lt) in HB.
    rewrite Z.ltb_irrefl, Z.sub_diag in HA. change (Z.to_nat 0) with 0 in HA. apply N. apply (small_eq p); [intros P0; now apply RA|intros P0; pose proof (RA P0 i j 0 Hi Hj); lia|]. replace (acoef A0 [k0] i j 0 - 0)%Z with ((numcoef (mentry X i j) s - 0) - (numcoef (mentry X i j) s - acoef A0 [k0] i j 0))%Z by ring. apply Z.divide_sub_r; [exact HB|exact HA]. }
  intros [s HA] [s' HB] NA NB RA RB i j e Hi Hj. pose proof (ONE A B k l s s' HA HB NA RA) as L1. pose proof (ONE B A l k s' s HB HA NB RB) as L2. assert (s' = s) by lia. subst s'.
  specialize (HA i j (s + Z.of_nat e)%Z Hi Hj). specialize (HB i j (s + Z.of_nat e)%Z Hi Hj). destruct (Z.ltb_spec (s + Z.of_nat e) s); [lia|]. replace (Z.to_nat (s + Z.of_nat e - s)) with e in * by lia.
  apply (small_eq p); [intros P0; now apply RA|intros P0; now apply RB|]. match goal with |- (p | ?a - ?b)%Z => replace (a - b)%Z with ((numcoef (mentry X i j) (s + Z.of_nat e) - b) - (numcoef (mentry X i j) (s + Z.of_nat e) - a))%Z by ring end. now apply Z.divide_sub_r.
Qed.
Lemma tag_length cls bs im i stats tag b bs' im' i' b' : existsb is_length stats = true -> Forall2 (stat_value cls bs im i) stats tag -> Forall2 (stat_value cls bs' im' i') stats tag ->
  nth_error bs i = Some b -> nth_error bs' i' = Some b' -> length (o_factors b) = length (o_factors b').
Proof.
  intros E F. revert E. induction F as [|s v ss tag H F IH]; intros E F' Hb Hb'; [discriminate|]. inversion F' as [|? ? ? ? H' F'']; subst. cbn [existsb] in E. destruct (is_length s) eqn:P; [|now apply IH].
  destruct s; try discriminate. destruct H as (c & C1 & C2). destruct H' as (c' & C1' & C2'). rewrite Hb in C1. rewrite Hb' in C1'. injection C1 as <-. injection C1' as <-. lia.
Qed.
(** C108.  A tracker of bucketing.py that was only given GNF braids with at least one
    factor, together with their images under a JonesRep, is found sound by
    valiate_buckets; the bounds on n, p and the coefficients are those of C61_gnf. *)
Theorem C108_sound n r p R tb d cls rnd rint cap stats m w os tr : jones_rep n r p = Ok R -> 2 <= n -> gnf_table n tb -> p <> 1%Z -> rep_dimension R = Ok (Z.of_nat d) -> 1 <= cap ->
  (p <> 0%Z -> (Z.of_nat d * (Z.of_nat (n * (n - 1) + 1) * ((p - 1) * (p - 1))) < 2 ^ 63)%Z) ->
  (forall bs im, In (Add bs im) os -> images_of n p R tb d I64 bs im /\ Forall (fun b => o_factors b <> [] /\
     (p = 0%Z -> forall X,
       (forall i, i <= length (o_factors b) -> rep_evaluate_nf tb R (NFObj n (o_pow b) (firstn i (o_factors b))) = Ok X -> int64_matrix X) /\
       (forall f, In f (o_factors b) -> rep_evaluate_nf tb R (NFObj n 0 [f]) = Ok X -> int64_matrix X))) bs) ->
  new_run cls rnd rint cap stats m w os = Ok tr ->
  valiate_buckets (polymat_evaluate_braids_of_same_length tb R) tr = Ok None.
Proof.
  intros EJ n2 Ht Hp1 ED HC BN HO H.
  assert (F : Forall (op_ok d d I64) os). { apply Forall_forall. intros [bs im|t] Ho; [|exact Logic.I]. destruct (HO bs im Ho) as [(W & _ & E1 & E2 & E3 & _) _]. cbn. auto. }
  destruct (jones_rep_ok n r p R EJ) as (_ & _ & Hp & _). assert (RP : rep_p R = p) by (destruct (jones_all n r p R EJ) as (d' & gens & invs & E & EN & EP & _); exact EP).
  assert (KEY : forall tag b, dget tag_eqb (tr_buckets tr) tag = Some b -> exists P, polymat_evaluate_braids_of_same_length tb R (fst (braids_images b)) = Ok P /\ same_shape (snd (braids_images b)) P /\
    forall k i j e, k < length (fst (braids_images b)) -> i < d -> j < d -> acoef (snd (braids_images b)) [k] i j e = acoef P [k] i j e).
  { intros tag b G. destruct (C76_stored_bucketing n p R tb d cls rnd rint cap stats m w os tr _ HO H tag b G) as [IM QB].
    destruct (new_run_ok _ _ _ _ _ _ _ _ _ _ _ _ F H) as (_ & EL & h & HH & TO). destruct TO as (_ & _ & _ & _ & TO). specialize (TO tag). rewrite G in TO. destruct TO as [NE0 (items & B & _ & Ho & _)]. destruct (holds_perm _ _ _ _ Ho) as [rest PM].
    destruct (stored_batch _ _ _ _ _ _ _ _ B) as (E0 & W & P0 & E1 & E2 & E3 & E4 & BK). set (im := snd (braids_images b)) in *. set (bs := fst (braids_images b)) in *. rewrite Forall_forall in QB.
    assert (HX : forall x, In x items -> exists bs0 im0 i, nth_error bs0 i = Some (ibraid x) /\ Forall2 (stat_value cls bs0 im0 i) stats tag /\ projective (iimage x)).
    { intros x Hx. assert (Hs : In x (since tagdec tag h)) by (apply (Permutation_in _ (Permutation_sym PM)), in_app_iff; now left). destruct (history_in _ _ _ _ _ _ _ HH (since_in _ _ _ Hs)) as (bs0 & im0 & i & _ & Hb & FS & PR & _). exists bs0, im0, i. split; [exact Hb|]. split; [exact FS|]. apply PR. }
    assert (LI : length bs = length items) by (rewrite E0; apply map_length).
    destruct IM as (_ & AP & _ & _ & _ & IM). 
    assert (HL : forall x y, In x bs -> In y bs -> length (o_factors x) = length (o_factors y)).
    { intros x y Hx Hy. rewrite E0 in Hx, Hy. apply in_map_iff in Hx. apply in_map_iff in Hy. destruct Hx as (x' & <- & Hx). destruct Hy as (y' & <- & Hy). destruct (HX x' Hx) as (b1 & m1 & i1 & N1 & F1 & _). destruct (HX y' Hy) as (b2 & m2 & i2 & N2 & F2 & _). exact (tag_length _ _ _ _ _ _ _ _ _ _ _ EL F1 F2 N1 N2). }
    assert (NEB : bs <> []).
    { assert (Lc : length items = Nat.min cap (length (since tagdec tag h))) by apply Ho. intros Q. rewrite Q in LI. cbn [length] in LI. destruct (since tagdec tag h); [contradiction|]. cbn [length] in Lc. lia. }
    destruct (C61_gnf n r p R tb bs d EJ n2 Ht Hp1 ED NEB) as (P & EP & WP & PP & P1 & P2 & P3 & KP); auto.
    - intros x Hx. apply In_nth_error in Hx. destruct Hx as [k Hk]. apply (IM k x Hk).
    - intros Z0 x X Hx. destruct (QB x Hx) as [_ Q]. exact (Q Z0 X).
    - assert (AE : forall k i j e, k < length bs -> i < d -> j < d -> acoef im [k] i j e = acoef P [k] i j e).
      { intros k i j e Lk. destruct (nth_error bs k) as [x|] eqn:Ex; [|apply nth_error_None in Ex; lia]. destruct (IM k x Ex) as (_ & (X & EX & I1) & N1 & R1). destruct (KP k x Ex) as ((X' & EX' & I2) & N2 & R2). rewrite EX in EX'. injection EX' as <-. now apply (image_unique p d X im P k k). }
      exists P. split; [exact EP|]. split; [|exact AE]. split; [exact WP|]. split; [congruence|]. split; [congruence|]. split; [congruence|].
      destruct bs as [|b0 bs'] eqn:EB; [contradiction|]. rewrite <- EB in *. assert (Hb0 : In b0 bs) by (rewrite EB; now left).
      destruct (evaluate_trimmed tb R bs b0 P ltac:(lia) Hb0 (proj1 (QB b0 Hb0)) EP) as (idx & V & [(i1 & j1 & Hi1 & Hj1 & N1) Z1]); [rewrite PP, EB; unfold nitems; cbn [fold_right length]; lia|].
      rewrite PP in V. apply valid_one in V. destruct V as (k & -> & Lk). rewrite P1 in Hi1. rewrite P2 in Hj1. rewrite P1, P2 in Z1.
      destruct (nth_error items k) as [x|] eqn:Ex; [|apply nth_error_None in Ex; lia]. destruct (HX x (nth_error_In _ _ Ex)) as (_ & _ & _ & _ & _ & (WX & PX & [(i2 & j2 & Hi2 & Hj2 & N2) _] & [(i3 & j3 & Hi3 & Hj3 & N3) Z3])).
      destruct (proj1 (Forall_forall _ _) (bi_ok _ _ _ _ _ _ _ _ B) x (nth_error_In _ _ Ex)) as (_ & _ & X1 & X2 & X3 & X4). rewrite X1, X2 in *. rewrite X3 in *.
      assert (AX : forall i j e, i < d -> j < d -> acoef im [k] i j e = acoef (iimage x) [] i j e).
      { intros i j e Hi Hj. assert (Vk : valid_index (apre im) [k]) by (rewrite P0; apply valid_one; exists k; split; [reflexivity|lia]). assert (Vx : valid_index (apre (iimage x)) []) by (rewrite PX; constructor). rewrite (coef_block im [k]) by (auto; lia). rewrite (coef_block (iimage x) []) by (auto; lia). rewrite E2, E3, X2, X3, (BK k x Ex). reflexivity. }
      rewrite E3. set (Dd := span_of stats tag) in *. assert (1 <= Dd) by (destruct Dd; [rewrite acoef_over in N2 by lia; lia|lia]). assert (1 <= aD P) by (destruct (aD P) eqn:Q; [rewrite acoef_over in N1 by lia; lia|lia]).
      destruct (Nat.lt_trichotomy Dd (aD P)) as [Lt|[Eq|Gt]]; [exfalso|exact Eq|exfalso].
      + apply N1. rewrite <- AE, AX by assumption. apply Z3; auto. lia.
      + apply N3. rewrite <- AX, AE by assumption. apply Z1; auto. lia. }
  destruct (C108_checks (polymat_evaluate_braids_of_same_length tb R) cls rnd rint cap stats m w d d I64 os tr F H) as (r0 & Er & Hr).
  - intros tag b G. destruct (KEY tag b G) as (P & EP & S & _). eauto.
  - rewrite Er. destruct r0 as [[[x y] z]|]; [|reflexivity]. exfalso. destruct Hr as (tag & b & P & k & G & EP & Nk & _ & _ & NEQ). destruct (KEY tag b G) as (P' & EP' & _ & AE). rewrite EP in EP'. injection EP' as <-. apply NEQ. intros i j e Hi Hj. apply AE; auto. apply nth_error_Some. congruence.
Qed.
(** The comparison of numpy broadcasts the axis of the degrees, so an image of another
    length than the right one may be accepted: the matrix (1 + v) Id, stored for the
    identity braid, is found sound. *)
Theorem C108_broadcast_refuted : exists R im tr, jones_rep 3 1 2 = Ok R /\ op_ok 2 2 I64 (Add [NFObj 3 0 []] im) /\
  new_run 0 (fun _ => inject_Z 0) (fun _ => 0) 20 [CanonicalLength; ProjectiveLength] GreedyFirst None [Add [NFObj 3 0 []] im] = Ok tr /\
  valiate_buckets (polymat_evaluate_braids_of_same_length (gtb hdpick) R) tr = Ok None /\
  exists tag b P, dget tag_eqb (tr_buckets tr) tag = Some b /\ polymat_evaluate_braids_of_same_length (gtb hdpick) R (fst (braids_images b)) = Ok P /\
    acoef (snd (braids_images b)) [0] 0 0 1 = 1%Z /\ acoef P [0] 0 0 1 = 0%Z.
Proof.
  destruct (jones_rep 3 1 2) as [R|] eqn:EJ; [|discriminate]. injection EJ as <-. eexists _, (mkA [1] 2 2 2 I64 [[1; 1; 0; 0; 0; 0; 1; 1]%Z]), _. split; [reflexivity|]. split.
  - cbn [op_ok]. split; [|auto]. split; [reflexivity|]. split; cbn [aI aJ aD adt ablocks]; (constructor; [|constructor]); [reflexivity|]. repeat constructor; unfold in_dtype; cbn; lia.
  - split; [vm_compute; reflexivity|]. split; [vm_compute; reflexivity|]. eexists [0; 2]%Z, _, _. split; [vm_compute; reflexivity|]. split; [vm_compute; reflexivity|]. split; vm_compute; reflexivity.
Qed.
(** the hypotheses of C108_sound hold for a run with two braids *)
Example C108_case : exists R im tr, jones_rep 3 1 2 = Ok R /\ rep_dimension R = Ok (Z.of_nat 2) /\ gnf_table 3 (gtb hdpick) /\ images_of 3 2 R (gtb hdpick) 2 I64 ex_bs im /\
  new_run 0 (fun _ => inject_Z 0) (fun _ => 0) 20 [CanonicalLength; ProjectiveLength] GreedyFirst None [Add ex_bs im] = Ok tr /\ bcontents tr = [([1; 3]%Z, [(0, [2]); (0, [4])]%Z)] /\
  valiate_buckets (polymat_evaluate_braids_of_same_length (gtb hdpick) R) tr = Ok None.
Proof.
  destruct (jones_rep 3 1 2) as [R|] eqn:EJ; [|discriminate]. assert (ED : rep_dimension R = Ok (Z.of_nat 2)) by (injection EJ as <-; vm_compute; reflexivity).
  assert (L7 : 3 < 7) by lia. pose proof (gtb_is_table hdpick 3 hdpick_ok L7) as GT. assert (NE : ex_bs <> []) by discriminate.
  destruct (ex_images R 2 ex_bs EJ ED eq_refl NE) as (im & EI & IM). { intros b [<-|[<-|[]]]; eexists _, _; (split; [reflexivity|]); auto. }
  assert (EN : exists tr, new_run 0 (fun _ => inject_Z 0) (fun _ => 0) 20 [CanonicalLength; ProjectiveLength] GreedyFirst None [Add ex_bs im] = Ok tr /\ bcontents tr = [([1; 3]%Z, [(0, [2]); (0, [4])]%Z)]).
  { assert (Q : exists tr, ex_new R ex_bs = Ok tr /\ bcontents tr = [([1; 3]%Z, [(0, [2]); (0, [4])]%Z)]) by (injection EJ as <-; eexists; split; vm_compute; reflexivity). destruct Q as (tr & Q & Q2). rewrite EI in Q. cbn [bind] in Q. eauto. }
  destruct EN as (tr & EN & EB). exists R, im, tr. split; [reflexivity|]. split; [exact ED|]. split; [exact GT|]. split; [exact IM|]. split; [exact EN|]. split; [exact EB|].
  assert (N3 : 2 <= 3) by lia. assert (P1 : 2%Z <> 1%Z) by lia.
  apply (C108_sound 3 1 2 R (gtb hdpick) 2 0 (fun _ => inject_Z 0) (fun _ => 0) 20 [CanonicalLength; ProjectiveLength] GreedyFirst None [Add ex_bs im] tr EJ N3 GT P1 ED); auto; try lia.
  intros bs im' [[= <- <-]|[]]. split; [exact IM|]. repeat constructor; try discriminate; intros Q; discriminate.
Qed.
