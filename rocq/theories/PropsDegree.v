(** PropsDegree.v – C133: the degrees that occur in the matrix of a braid lie between
    r(n-r+1) inf(b) and r(n-r+1) sup(b); so projective lengths and the memory of the
    search are bounded. *)
From Verif Require Import Base ModelPoly SpecPoly PolyTheory PropsPoly ModelTL SpecTL TLTheory TLCells PropsTL ModelMatrix SpecMatrix MatrixTheory ModelTLMor TLMorTheory PropsTLMor2 JonesTheory TLGens TLFlip MarkovTheory.
From Coq Require Import Ring Setoid Morphisms Permutation.
From Verif Require Import ModelPerm Germ GermNF GermAct GermBraid PermTheory WeakOrder SpecPerm SpecPermTheory PermWords ModelBraid SpecBraid BraidTheory FullTwistBraid FullTwist ModelRep SpecRep NumTheory RepTheory RepCanon PropsRep FullTwistRep ModelPolymat PropsPolymat3 PropsTwist PolyRepTheory PolyRepSpan EmbedTheory PropsStable TableTheory NFApi PermGerm PermTable PropsGNF PropsGNF2 ModelPolyRep ModelTracker PropsPolyRep4 TrackerRun2 PropsTracker2 ModelSearch PropsDesc2 PropsKernel PropsScalar HalfTwist PropsBranch PropsReflect PropsReflect2.
From Verif Require PropsSearch PropsSearch2.
Local Open Scope nat_scope.
#[local] Existing Instance neqp_equiv.
#[local] Existing Instance pmeq_equiv.

Lemma pos_nneg w : Forall (fun l => snd l = true) w -> nneg' w = 0%Z.
Proof. unfold nneg'. induction 1 as [|[i e] w H _ IH]; [reflexivity|]. cbn [snd] in H. subst e. exact IH. Qed.
Lemma neg_npos w : Forall (fun l => snd l = true) w -> npos (winv w) = 0%Z.
Proof.
  unfold npos, winv. intros F. assert (E : filter (fun l : nat * bool => snd l) (rev (map (fun l => (fst l, negb (snd l))) w)) = []); [|now rewrite E].
  assert (G : Forall (fun l : nat * bool => snd l = false) (rev (map (fun l => (fst l, negb (snd l))) w))) by (apply Forall_rev, Forall_map; eapply Forall_impl; [|exact F]; cbn; intros l ->; reflexivity).
  induction G as [|l q H _ IH]; [reflexivity|]. cbn [filter]. now rewrite H.
Qed.

Section D.
Variables (n r : nat).
Hypothesis (Hr : 2 * r <= n).
Let d := length (Wb n r).
Let c : Z := Z.of_nat (r * (n - r + 1)).
Local Notation Y w i j := (ev n w (ddelta (nth i (Wb n r) (did 0))) (nth j (Wb n r) (did 0))).
Definition low (w : bword) (lo : Z) : Prop := forall i j e, i < d -> j < d -> coef (Y w i j) e <> 0%Z -> (lo <= e)%Z.
Definition upp (w : bword) (hi : Z) : Prop := forall i j e, i < d -> j < d -> coef (Y w i j) e <> 0%Z -> (e <= hi)%Z.
Lemma range_word w : in_range n w -> low w (- 2 * nneg' w) /\ upp w (2 * npos w).
Proof using Hr.
  intros Hw. assert (R0 : forall i, rng n (n - 2 * r) (ddelta (nth i (Wb n r) (did 0))) 0 0).
  { intros i x _ k N. rewrite ddelta_coef in N. destruct (diag_eqb _ _); cbn [andb] in N; [|contradiction]. destruct (Z.eqb_spec k 0); [lia|contradiction]. }
  assert (K : forall i j e, i < d -> j < d -> coef (Y w i j) e <> 0%Z -> (0 - 2 * nneg' w <= e <= 0 + 2 * npos w)%Z).
  { intros i j e Hi Hj N. destruct (b_in n r Hr j Hj) as [T _]. exact (rng_ev n (n - 2 * r) w Hw _ _ _ (R0 i) _ T e N). }
  split; intros i j e Hi Hj N; specialize (K i j e Hi Hj N); lia.
Qed.
Lemma Y_braid u w i j : in_range n u -> braid_eq n u w -> i < d -> j < d -> leq (Y u i j) (Y w i j).
Proof using Hr. intros Ru BE Hi Hj. destruct (b_in n r Hr j Hj) as [T _]. exact (ev_braid n (n - 2 * r) u w BE Ru _ _ T). Qed.
Lemma low_braid u w lo : in_range n u -> braid_eq n u w -> low u lo -> low w lo.
Proof using Hr. intros Ru BE L i j e Hi Hj N. apply (L i j e Hi Hj). now rewrite (Y_braid u w i j Ru BE Hi Hj e). Qed.
Lemma upp_braid u w hi : in_range n u -> braid_eq n u w -> upp u hi -> upp w hi.
Proof using Hr. intros Ru BE L i j e Hi Hj N. apply (L i j e Hi Hj). now rewrite (Y_braid u w i j Ru BE Hi Hj e). Qed.
Lemma sgn_nz : ((-1) ^ Z.of_nat (r * (n - 1)) <> 0)%Z. Proof using Type. apply Z.pow_nonzero; [discriminate|apply Nat2Z.is_nonneg]. Qed.
Lemma coef_hs' x e : coef (lmul (hs n r) x) e = ((-1) ^ Z.of_nat (r * (n - 1)) * coef x (e - c))%Z.
Proof using Hr.
  assert (E : leq (lmul (hs n r) x) (lmul (lint ((-1) ^ Z.of_nat (r * (n - 1)))) (lmul (vpow c) x))) by (unfold c; rewrite (hs_pow n r Hr); ring). now rewrite (E e), coef_scale, vpow_coef.
Qed.
Lemma Y_delta w i j e : in_range n w -> i < d -> j < d -> (coef (Y (hw n ++ w) i j) e <> 0%Z <-> coef (Y w (pi n r i) j) (e - c) <> 0%Z).
Proof using Hr. intros Rw Hi Hj. rewrite (Y_left n r Hr w i j Rw Hi Hj e), coef_hs'. pose proof sgn_nz. split; intros N Q; apply N; [now rewrite Q, Z.mul_0_r|]. apply Z.mul_eq_0 in Q. destruct Q; [contradiction|assumption]. Qed.
Lemma low_delta w lo : in_range n w -> (low w lo <-> low (hw n ++ w) (lo + c)).
Proof using Hr.
  intros Rw. split; intros L i j e Hi Hj N.
  - apply (Y_delta w i j e Rw Hi Hj) in N. specialize (L _ _ _ (pi_lt n r Hr i Hi) Hj N). lia.
  - assert (N' : coef (Y (hw n ++ w) (pi n r i) j) (e + c) <> 0%Z) by (apply (proj2 (Y_delta w (pi n r i) j (e + c)%Z Rw (pi_lt n r Hr i Hi) Hj)); rewrite (pi_pi n r Hr) by exact Hi; now replace (e + c - c)%Z with e by lia). specialize (L _ _ _ (pi_lt n r Hr i Hi) Hj N'). lia.
Qed.
Lemma upp_delta w hi : in_range n w -> (upp w hi <-> upp (hw n ++ w) (hi + c)).
Proof using Hr.
  intros Rw. split; intros L i j e Hi Hj N.
  - apply (Y_delta w i j e Rw Hi Hj) in N. specialize (L _ _ _ (pi_lt n r Hr i Hi) Hj N). lia.
  - assert (N' : coef (Y (hw n ++ w) (pi n r i) j) (e + c) <> 0%Z) by (apply (proj2 (Y_delta w (pi n r i) j (e + c)%Z Rw (pi_lt n r Hr i Hi) Hj)); rewrite (pi_pi n r Hr) by exact Hi; now replace (e + c - c)%Z with e by lia). specialize (L _ _ _ (pi_lt n r Hr i Hi) Hj N'). lia.
Qed.
Section Pow.
Variable P : bword -> Z -> Prop.
Hypothesis (PB : forall u w v, in_range n u -> braid_eq n u w -> P u v -> P w v) (PD : forall w v, in_range n w -> (P w v <-> P (hw n ++ w) (v + c)%Z)).
Lemma P_left k w v : in_range n w -> (P w v <-> P (wpow (hw n) k ++ w) (v + k * c)%Z).
Proof using Hr PB PD.
  intros Rw. assert (Rk : forall j, in_range n (wpow (hw n) j ++ w)) by (intros j; apply in_range_app; auto using wpow_range). assert (Rd : forall j, in_range n (hw n ++ wpow (hw n) j ++ w)) by (intros j; apply in_range_app; auto using hw_range).
  assert (St : forall j x, P (wpow (hw n) (j + 1) ++ w) (x + c) <-> P (wpow (hw n) j ++ w) x).
  { intros j x. rewrite (PD (wpow (hw n) j ++ w) x (Rk j)). assert (BE : braid_eq n (wpow (hw n) (j + 1) ++ w) (hw n ++ wpow (hw n) j ++ w)) by (rewrite (wpow_succ n) by apply hw_range; now rewrite app_assoc). split; apply PB; auto. now symmetry. }
  induction k as [|k IH|k IH] using Z_ind2.
  - replace (v + 0 * c)%Z with v by lia. reflexivity.
  - rewrite IH. replace (v + (k + 1) * c)%Z with (v + k * c + c)%Z by lia. symmetry. apply St.
  - rewrite IH, <- (St (k - 1)%Z (v + (k - 1) * c)%Z). replace (k - 1 + 1)%Z with k by lia. now replace (v + (k - 1) * c + c)%Z with (v + k * c)%Z by lia.
Qed.
End Pow.
Lemma range_braid tb b w : 2 <= n -> gnf_table n tb -> denotes tb n b w -> in_range n w -> low w (c * inf b) /\ upp w (c * sup b).
Proof using Hr.
  intros n2 Ht Db Rw. destruct (C54_inf_sup n tb b w (hw n) n2 Ht Db (delta_lifts n ltac:(lia))) as (K1 & K2 & _). split.
  - destruct (proj2 (K1 (inf b)) (Z.le_refl _)) as (u & Ru & Pu & BE). apply (P_left low low_braid low_delta (- inf b) w (c * inf b) Rw). replace (c * inf b + - inf b * c)%Z with 0%Z by lia. apply (low_braid u); [exact Ru|now symmetry|].
    pose proof (proj1 (range_word u Ru)) as L. rewrite (pos_nneg u Pu) in L. exact L.
  - destruct (proj2 (K2 (sup b)) (Z.le_refl _)) as (u & Ru & Pu & BE). assert (Ri : in_range n (winv u)) by now apply in_range_winv.
    assert (BE' : braid_eq n (wpow (hw n) (sup b) ++ winv u) w).
    { assert (A : braid_eq n (w ++ u) (wpow (hw n) (sup b))). { rewrite <- BE. rewrite app_assoc. transitivity ([] ++ wpow (hw n) (sup b)); [|reflexivity]. apply be_app; [now apply be_inv_r|reflexivity]. }
      rewrite <- A. rewrite <- app_assoc. transitivity (w ++ []); [apply be_app; [reflexivity|now apply be_inv_r]|now rewrite app_nil_r]. }
    apply (upp_braid (wpow (hw n) (sup b) ++ winv u)); [apply in_range_app; auto using wpow_range|exact BE'|]. replace (c * sup b)%Z with (0 + sup b * c)%Z by lia. apply (P_left upp upp_braid upp_delta (sup b) (winv u) 0 Ri).
    pose proof (proj2 (range_word (winv u) Ri)) as L. rewrite (neg_npos u Pu) in L. exact L.
Qed.
End D.

(** C133.  A power of v that occurs, modulo p, in the matrix of a braid lies between
    r(n-r+1) inf(b) and r(n-r+1) sup(b). *)
Theorem C133_degrees n r p tb R d b X : 2 <= n -> gnf_table n tb -> jones_rep n r p = Ok R -> rep_dimension R = Ok (Z.of_nat d) -> nf_value tb n b -> rep_evaluate_nf tb R b = Ok X ->
  forall i j e, i < d -> j < d -> ~ (p | numcoef (mentry X i j) e)%Z -> (Z.of_nat (r * (n - r + 1)) * inf b <= e <= Z.of_nat (r * (n - r + 1)) * sup b)%Z.
Proof.
  intros n2 Ht EJ ED Vb EX i j e Hi Hj N. pose proof (gnf_table_ptab n tb Ht) as Etb. pose proof (ptab_ok n n2) as TK. pose proof (jones_rep_ok n r p R EJ) as (_ & Hr & _).
  destruct (api_word _ _ _ _ _ _ _ _ _ TK tb Etb b Vb) as (u & Eu & Hu & _ & Db). pose proof (word_ok_range n u Hu) as Ru. destruct (range_braid n r Hr tb b (expand u) n2 Ht Db Ru) as [L U].
  destruct (entry_Y n r p R d EJ ED u Hu) as (A & EA & _ & XA). unfold rep_evaluate_nf in EX. rewrite Eu in EX. cbn [bind] in EX. rewrite EX in EA. injection EA as <-.
  pose proof (XA _ i j (be_refl n _) Ru Hi Hj) as Q. apply neqp_congr in Q. specialize (Q e). unfold Xe in Q. cbn [numcoef] in Q. pose proof (d_Wb n r p R d EJ ED) as Ed. rewrite Ed in Hi, Hj.
  match type of Q with (_ | _ - ?z)%Z => assert (NZ : z <> 0%Z) by (intros Z0; apply N; rewrite Z0, Z.sub_0_r in Q; exact Q) end. split; [exact (L i j e Hi Hj NZ)|exact (U i j e Hi Hj NZ)].
Qed.
(** So the projective length is at most r(n-r+1) times the canonical length, plus 1. *)
Theorem C133_projlen n r p tb R d b X v : 2 <= n -> gnf_table n tb -> jones_rep n r p = Ok R -> rep_dimension R = Ok (Z.of_nat d) -> nf_value tb n b -> rep_evaluate_nf tb R b = Ok X -> rep_span p d X v ->
  (1 <= v <= Z.of_nat (r * (n - r + 1)) * Z.of_nat (canonical_length b) + 1)%Z.
Proof.
  intros n2 Ht EJ ED Vb EX (s & A & (i & j & Hi & Hj & N1) & (i' & j' & Hi' & Hj' & N2)). pose proof (A i j s Hi Hj N1) as B.
  pose proof (C133_degrees n r p tb R d b X n2 Ht EJ ED Vb EX) as K. pose proof (K _ _ _ Hi Hj N1) as K1. pose proof (K _ _ _ Hi' Hj' N2) as K2. unfold sup, inf, canonical_length in *. split; [lia|]. nia.
Qed.
(** s1 s2^-1 in B_4 modulo 2: inf = -1, sup = 1, so the degrees lie between -4 and 4; the
    degrees -2, 0 and 2 occur *)
Example C133_case : exists R b X, gnf_table 4 PropsSearch2.tb4 /\ jones_rep 4 1 2 = Ok R /\ rep_dimension R = Ok (Z.of_nat 3) /\ nf_value PropsSearch2.tb4 4 b /\ rep_evaluate_nf PropsSearch2.tb4 R b = Ok X /\
  inf b = (-1)%Z /\ sup b = 1%Z /\ existsb (fun k => Z.odd (numcoef (mentry X (k / 3) (k mod 3)) (-2))) (seq 0 9) = true /\ existsb (fun k => Z.odd (numcoef (mentry X (k / 3) (k mod 3)) 2)) (seq 0 9) = true.
Proof.
  assert (exists R, jones_rep 4 1 2 = Ok R /\ rep_dimension R = Ok (Z.of_nat 3)) as (R & EJ & ED) by (eexists; split; vm_compute; reflexivity). pose proof PropsSearch2.C100_case_table as G.
  set (w := [(0, 1); (1, -1)]%Z). assert (Hw : word_ok 4 w) by (repeat constructor; cbn; lia). destruct (api_from_word _ _ _ _ _ _ _ _ _ (ptab_ok 4 ltac:(lia)) PropsSearch2.tb4 (gnf_table_ptab 4 _ G) w Hw) as (b & Eb & Db).
  assert (Q : match from_artin_word PropsSearch2.tb4 4 w, jones_rep 4 1 2 with Ok b, Ok R => match rep_evaluate_nf PropsSearch2.tb4 R b with Ok X => inf b = (-1)%Z /\ sup b = 1%Z /\ existsb (fun k => Z.odd (numcoef (mentry X (k / 3) (k mod 3)) (-2))) (seq 0 9) = true /\ existsb (fun k => Z.odd (numcoef (mentry X (k / 3) (k mod 3)) 2)) (seq 0 9) = true | Err _ => False end | _, _ => False end) by (vm_compute; auto).
  rewrite Eb, EJ in Q. destruct (rep_evaluate_nf PropsSearch2.tb4 R b) as [X|] eqn:EX; [|destruct Q]. exists R, b, X. repeat (split; [assumption || apply Db || apply Q|]). apply Q.
Qed.
