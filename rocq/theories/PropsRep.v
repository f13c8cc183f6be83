(** PropsRep.v – theorems for C58 and C59: the cell representations. *)
From Verif Require Import Base ModelPoly SpecPoly PolyTheory PolyDiv EvalTheory PropsPoly NumTheory ModelMatrix SpecMatrix MatrixTheory PropsMatrix SpecBraid ModelTL SpecTL TLTheory TLAlg TLAlg2 TLBasis TLCells TLRel PropsTL ModelTLMor TLMorTheory TLGens PropsTLMor PropsTLMor2 JonesTheory ModelPerm ModelBraid TableTheory PermGerm PermTable NFApi WeakOrder PermWords SpecPerm SpecPermTheory PropsPerm2 PropsGNF PropsGNF2 ModelRep SpecRep RepTheory RepCanon.
From Coq Require Import Ring Setoid Morphisms.
Local Open Scope nat_scope.
Local Notation pr := (MatrixTheory.prod (NI 0) nadd nmul).
Local Notation lpr := (MatrixTheory.prod (lint 0) ladd lmul).
Local Notation isid := (MatrixTheory.is_identity (NI 0) (NI 1)).
#[local] Existing Instance pmeq_equiv.

(** ** from matrices of LPolys to matrices of numbers *)
Definition lsq (d : nat) (A : mat lpoly) : Prop := mwf A /\ mrows A = d /\ mcols A = d.
Lemma lsq_NL d A : lsq d A -> sq d (mat_map NL A).
Proof. intros [W [R C]]. unfold sq, mwf in *. cbn [mat_map mrows mcols mdata]. now rewrite map_length. Qed.
Lemma ent_NL d A i j : lsq d A -> i < d -> j < d -> ent (NI 0) (mat_map NL A) i j = NL (ent (lint 0) A i j).
Proof.
  intros [W [R C]] Hi Hj. unfold ent, entry, mwf in *. cbn [mat_map mcols mdata]. rewrite C in *. rewrite R in W. rewrite (nth_indep _ _ (NL (lint 0))); [apply map_nth|]. rewrite map_length, W. now apply pos_lt.
Qed.
Lemma pmeq_ent p d A B : sq d A -> sq d B -> (forall i j, i < d -> j < d -> neqp p (ent (NI 0) A i j) (ent (NI 0) B i j)) -> pmeq p A B.
Proof.
  intros [WA [RA CA]] [WB [RB CB]] H. unfold pmeq. apply (meq_ent (NI 0) (neqp p)); auto. split; [congruence|]. split; [congruence|]. intros i j Hi Hj. apply H; congruence.
Qed.
Lemma coerce_rsum d f g : (forall k, k < d -> leq (coerce (f k)) (g k)) -> leq (coerce (rsum (NI 0) nadd d f)) (rsum (lint 0) ladd d g).
Proof. induction d as [|d IH]; intros H; cbn [rsum]; [reflexivity|]. rewrite coerce_add, IH, H by (auto; lia). reflexivity. Qed.
Lemma NL_mul p d X Y Z : lsq d X -> lsq d Y -> mat_mul (lint 0) ladd lmul X Y = Ok Z -> lsq d Z /\ pmeq p (pr (mat_map NL X) (mat_map NL Y)) (mat_map NL Z).
Proof.
  intros SX SY. pose proof SX as [WX [RX CX]]. pose proof SY as [WY [RY CY]]. rewrite (mul_ok (lint 0) ladd lmul) by congruence. intros [= <-].
  assert (SZ : lsq d (lpr X Y)) by (split; [apply prod_wf|split; assumption]). split; [exact SZ|]. apply (pmeq_ent p d); [apply sq_pr; now apply lsq_NL|now apply lsq_NL|].
  intros i j Hi Hj. apply neq_neqp. unfold neq. rewrite (ent_NL d (lpr X Y)) by auto. rewrite (prod_e (NI 0) nadd nmul) by (cbn [mat_map mrows mcols]; congruence). cbn [coerce]. rewrite (prod_e (lint 0) ladd lmul) by congruence. cbn [mat_map mcols]. rewrite CX.
  apply coerce_rsum. intros k Hk. rewrite !(ent_NL d) by auto. rewrite coerce_mul. reflexivity.
Qed.
Lemma lentm_NL d A : lsq d A -> (forall i j, i < d -> j < d -> lcanon (ent (lint 0) A i j)) -> lentm (mat_map NL A).
Proof. intros S H. apply (lentm_ent d); [now apply lsq_NL|]. intros i j Hi Hj. rewrite (ent_NL d) by auto. eexists. split; [reflexivity|auto]. Qed.

Lemma jones_rep_ok n r p R : jones_rep n r p = Ok R -> 1 <= n /\ 2 * r <= n /\ (0 <= p)%Z /\ R = mkRep n p (jones_dimension n r) (jones_gens_invs n r p).
Proof.
  unfold jones_rep. destruct (Nat.leb_spec 1 n); [|discriminate]. cbn [assert_ bind]. destruct (Nat.leb_spec (2 * r) n); [|discriminate]. cbn [assert_ bind]. destruct (Z.leb_spec 0 p); [|discriminate]. cbn [assert_ bind]. intros [= <-]. auto.
Qed.
Lemma jones_dim n r B : 2 * r <= n -> cell_basis n r = Ok B -> jones_dimension n r = Ok (Z.of_nat (length B)).
Proof.
  intros Hr EB. pose proof (B_dim n r Hr B EB) as K. unfold cell_dimension in K. destruct (2 * r <=? n); [|discriminate]. cbn [assert_ bind] in K. unfold jones_dimension. destruct (r =? 0) eqn:E0; [|exact K].
  apply Nat.eqb_eq in E0. subst r. rewrite <- K. destruct n; reflexivity.
Qed.
(** the reduction applied by artin_gens_invs *)
Definition red (p : Z) (A : mat lpoly) : mat num := if (p =? 0)%Z then mat_map NL A else mat_map (nreduce p) (mat_map NL A).
Lemma red_sq p d A : lsq d A -> sq d (red p A).
Proof. intros H. unfold red. destruct (p =? 0)%Z; [now apply lsq_NL|now apply sq_map, lsq_NL]. Qed.
Lemma red_pmeq p A : (0 <= p)%Z -> pmeq p (red p A) (mat_map NL A).
Proof. intros Hp. unfold red. destruct (Z.eqb_spec p 0); [reflexivity|]. apply map_reduce_pmeq. lia. Qed.
Lemma red_reduced p A : (0 <= p)%Z -> lentm (mat_map NL A) -> reduced_matrix p (red p A).
Proof.
  intros Hp H. unfold red. destruct (Z.eqb_spec p 0) as [->|N].
  - eapply Forall_impl; [|exact H]. apply lent_reduced0.
  - unfold reduced_matrix. cbn [mat_map mdata]. apply Forall_map. eapply Forall_impl; [|exact H]. intros x. apply lent_reduce. lia.
Qed.

(** ** the generators of JonesCellRep(n, r, p) *)
Section Jones.
Variables (n r : nat) (p : Z).
Hypothesis (Hr : 2 * r <= n) (Hp : (0 <= p)%Z).
Variable B : list diag.
Hypothesis (EB : cell_basis n r = Ok B).
Let d := length B.
Definition isc (x : mor) (A : mat num) : Prop := exists X, cell_matrix x r = Ok X /\ lsq d X /\ A = red p X /\ lentm (mat_map NL X).
Lemma cm_isc x : sqm n x -> exists X, cell_matrix x r = Ok X /\ lsq d X /\ lentm (mat_map NL X).
Proof using Hr EB.
  intros S. destruct (cell_matrix_ok n r Hr B EB x S) as [A [E [W [R [C N]]]]]. exists A. split; [exact E|]. assert (L : lsq d A) by (split; auto). split; [exact L|]. apply (lentm_NL d); [exact L|]. intros i j Hi Hj. now apply N.
Qed.
Lemma isc_mul x y xy A C K : sqm n x -> sqm n y -> mor_mul x y = Ok xy -> isc x A -> isc y C -> isc xy K -> pmeq p (pr A C) K.
Proof using Hr Hp EB.
  intros Sx Sy E [X [EX [SX [-> _]]]] [Y [EY [SY [-> _]]]] [Z [EZ [SZ [-> _]]]].
  pose proof (cell_matrix_mul n r Hr B EB x y xy X Y Z Sx Sy E EX EY EZ) as M. destruct (NL_mul p d X Y Z SX SY M) as [_ Q].
  rewrite (red_pmeq p Z Hp), <- Q. apply (pr_meq p d); auto using red_sq, lsq_NL, red_pmeq.
Qed.
Lemma isc_id e A E : mor_id n = Ok e -> isc e A -> isid d E -> pmeq p A E.
Proof using Hr Hp EB.
  intros Ee [X [EX [SX [-> _]]]] HE. destruct (cell_matrix_id n r Hr B EB e X Ee EX) as [W [R [C N]]]. rewrite (red_pmeq p X Hp). apply (pmeq_ent p d); [now apply lsq_NL|now apply isid_sq|].
  intros i j Hi Hj. rewrite (ent_NL d) by auto. destruct HE as [_ [_ [_ HE]]]. rewrite N, HE by auto. apply neq_neqp. unfold neq. destruct (i =? j); reflexivity.
Qed.
Lemma isc_reduced x A : isc x A -> sq d A /\ reduced_matrix p A.
Proof using Hp. intros [X [EX [SX [-> L]]]]. split; [now apply red_sq|now apply red_reduced]. Qed.
Lemma gens_ok gs hs : tl_gens_invs n = Ok (gs, hs) -> exists gens invs, jones_gens_invs n r p = Ok (gens, invs) /\
  Forall2 isc gs gens /\ Forall2 isc hs invs /\ length gens = n - 1 /\ length invs = n - 1.
Proof using Hr Hp EB.
  intros E. destruct (C31_gens_invs n) as [gs' [hs' [E' [L1 [L2 _]]]]]. rewrite E in E'. injection E' as <- <-.
  assert (Sg : forall g, In g gs -> sqm n g) by (intros g Hg; apply In_nth_error in Hg; destruct Hg as [i Hi]; now apply (gens_lin n gs hs i)).
  assert (Sh : forall g, In g hs -> sqm n g) by (intros g Hg; apply In_nth_error in Hg; destruct Hg as [i Hi]; now apply (invs_lin n gs hs i)).
  set (Q := fun x X => cell_matrix x r = Ok X /\ lsq d X /\ lentm (mat_map NL X)).
  destruct (mapM_Forall2 (fun x => cell_matrix x r) Q gs) as [G [EG FG]]; [intros x Hx; destruct (cm_isc x (Sg x Hx)) as [X K]; exists X; split; [apply K|exact K]|].
  destruct (mapM_Forall2 (fun x => cell_matrix x r) Q hs) as [H [EH FH]]; [intros x Hx; destruct (cm_isc x (Sh x Hx)) as [X K]; exists X; split; [apply K|exact K]|].
  exists (map (red p) G), (map (red p) H). assert (FF : forall a b, Forall2 Q a b -> Forall2 isc a (map (red p) b)).
  { intros a b F. induction F as [|x X a b [K1 [K2 K3]] _ IH]; cbn [map]; constructor; [|exact IH]. exists X. auto. }
  split; [|split; [auto|split; [auto|]]].
  - unfold jones_gens_invs, cell_matrices. rewrite E. cbn [bind]. rewrite EG. cbn [bind]. rewrite EH. cbn [bind]. unfold red. destruct (p =? 0)%Z; [reflexivity|]. now rewrite !map_map.
  - rewrite !map_length. apply Forall2_len in FG, FH. lia.
Qed.
End Jones.

(** everything that is needed about the representation *)
Lemma nth_isc {A B} (P : A -> B -> Prop) l l' d i : Forall2 P l l' -> i < length l -> exists x, nth_error l i = Some x /\ P x (nth i l' d).
Proof. intros F. revert i. induction F; intros [|i] Hlt; cbn in *; try lia; eauto. apply IHF. lia. Qed.
Lemma jones_all n r p R : jones_rep n r p = Ok R -> exists d gens invs E,
  rep_n R = n /\ rep_p R = p /\ (0 <= p)%Z /\ 0 < d /\ rep_dimension R = Ok (Z.of_nat d) /\ rep_artin_gens_invs R = Ok (gens, invs) /\ rep_id R = Ok E /\ isid d E /\
  length gens = n - 1 /\ length invs = n - 1 /\ Forall (sq d) gens /\ Forall (sq d) invs /\ Forall (reduced_matrix p) gens /\ Forall (reduced_matrix p) invs /\
  (forall i, i + 1 < n -> pmeq p (pr (G gens E i) (H invs E i)) E /\ pmeq p (pr (H invs E i) (G gens E i)) E) /\
  (forall i j, i + 2 <= j -> j + 1 < n -> pmeq p (pr (G gens E i) (G gens E j)) (pr (G gens E j) (G gens E i))) /\
  (forall i, i + 2 < n -> pmeq p (pr (pr (G gens E i) (G gens E (i + 1))) (G gens E i)) (pr (pr (G gens E (i + 1)) (G gens E i)) (G gens E (i + 1)))).
Proof.
  intros EJ. destruct (jones_rep_ok n r p R EJ) as [Hn [Hr [Hp ->]]]. cbn [rep_n rep_p rep_dimension rep_artin_gens_invs].
  destruct (C32_cell_basis n r Hr) as [B [EB _]]. set (d := length B). pose proof (cell_pos n r Hr B EB) as Hd. fold d in Hd.
  destruct (C31_gens_invs n) as [gs [hs [Et [Lgs [Lhs _]]]]]. destruct (gens_ok n r p Hr Hp B EB gs hs Et) as [gens [invs [EG [FG [FH [Lg Lh]]]]]].
  destruct (nid_ok d) as [E [EE HE]]. exists d, gens, invs, E. split; [reflexivity|]. split; [reflexivity|]. split; [exact Hp|]. split; [exact Hd|].
  pose proof (jones_dim n r B Hr EB) as ED. fold d in ED. split; [exact ED|]. split; [exact EG|]. split; [unfold rep_id; cbn [rep_dimension]; rewrite ED; exact EE|]. split; [exact HE|]. split; [exact Lg|]. split; [exact Lh|].
  assert (FF : forall a b, Forall2 (isc r p B) a b -> Forall (sq d) b /\ Forall (reduced_matrix p) b).
  { intros a b F. induction F as [|x y a b K _ [IH1 IH2]]; [split; constructor|]. destruct (isc_reduced r p Hp B x y K) as [K1 K2]. split; constructor; auto. }
  destruct (FF _ _ FG) as [SG RG]. destruct (FF _ _ FH) as [SH RH]. do 4 (split; [assumption|]). clear FF.
  assert (NG : forall i, i + 1 < n -> exists g, nth_error gs i = Some g /\ sqm n g /\ isc r p B g (G gens E i)).
  { intros i Hi. destruct (nth_isc _ gs gens E i FG ltac:(lia)) as [g [K1 K2]]. exists g. split; [exact K1|]. split; [now apply (gens_lin n gs hs i)|exact K2]. }
  assert (NH : forall i, i + 1 < n -> exists g, nth_error hs i = Some g /\ sqm n g /\ isc r p B g (H invs E i)).
  { intros i Hi. destruct (nth_isc _ hs invs E i FH ltac:(lia)) as [g [K1 K2]]. exists g. split; [exact K1|]. split; [now apply (invs_lin n gs hs i)|exact K2]. }
  assert (HC : forall x, sqm n x -> exists A, isc r p B x A /\ sq d A).
  { intros x Sx. destruct (cm_isc n r Hr B EB x Sx) as [X [K1 [K2 K3]]]. exists (red p X). assert (K : isc r p B x (red p X)) by (exists X; auto). split; [exact K|]. now apply (isc_reduced r p Hp B x). }
  split; [|split].
  - intros i Hi. destruct (NG i Hi) as [g [Eg [Sg Ig]]], (NH i Hi) as [h [Eh [Sh Ih]]]. destruct (C31_inverse n gs hs i g h Et Eg Eh) as [one [E1 [M1 M2]]].
    destruct (sqm_id n) as [one' [E1' [S1 _]]]. rewrite E1 in E1'. injection E1' as <-. destruct (HC one S1) as [U [IU SU]]. split.
    + rewrite (isc_mul n r p Hr Hp B EB g h one _ _ U Sg Sh M1 Ig Ih IU). now apply (isc_id n r p Hr Hp B EB one).
    + rewrite (isc_mul n r p Hr Hp B EB h g one _ _ U Sh Sg M2 Ih Ig IU). now apply (isc_id n r p Hr Hp B EB one).
  - intros i j Hij Hj. destruct (NG i ltac:(lia)) as [g [Eg [Sg Ig]]], (NG j Hj) as [h [Eh [Sh Ih]]]. destruct (C31_far_commutation n gs hs i j g h Et ltac:(lia) Eg Eh) as [x [M1 M2]].
    destruct (sqm_mul n g h Sg Sh) as [x' [E1' [Sx _]]]. rewrite M1 in E1'. injection E1' as <-. destruct (HC x Sx) as [U [IU SU]].
    rewrite (isc_mul n r p Hr Hp B EB g h x _ _ U Sg Sh M1 Ig Ih IU), (isc_mul n r p Hr Hp B EB h g x _ _ U Sh Sg M2 Ih Ig IU). reflexivity.
  - intros i Hi. destruct (NG i ltac:(lia)) as [g [Eg [Sg Ig]]], (NG (i + 1) ltac:(lia)) as [h [Eh [Sh Ih]]]. destruct (C31_braid_relation n gs hs i g h Et Eg Eh) as [gh [hg [x [M1 [M2 [M3 M4]]]]]].
    destruct (sqm_mul n g h Sg Sh) as [y [E1' [Sgh _]]]. rewrite M1 in E1'. injection E1' as <-. destruct (sqm_mul n h g Sh Sg) as [y [E1' [Shg _]]]. rewrite M2 in E1'. injection E1' as <-.
    destruct (sqm_mul n gh g Sgh Sg) as [y [E1' [Sx _]]]. rewrite M3 in E1'. injection E1' as <-.
    destruct (HC gh Sgh) as [U [IU SU]], (HC hg Shg) as [V [IV SV]], (HC x Sx) as [W [IW SW]].
    destruct (isc_reduced r p Hp B _ _ Ig) as [Qg _], (isc_reduced r p Hp B _ _ Ih) as [Qh _].
    transitivity W.
    + rewrite <- (isc_mul n r p Hr Hp B EB gh g x _ _ W Sgh Sg M3 IU Ig IW). apply (pr_meq p d); auto using sq_pr; [|reflexivity]. now apply (isc_mul n r p Hr Hp B EB g h gh).
    + rewrite <- (isc_mul n r p Hr Hp B EB hg h x _ _ W Shg Sh M4 IV Ih IW). apply (pr_meq p d); auto using sq_pr; [|reflexivity]. symmetry. now apply (isc_mul n r p Hr Hp B EB h g hg).
Qed.

(** ** C58 *)
(** cell_matrix(x, r) for x in TL(n, n): its (i, j) entry is the coefficient of
    the i-th diagram of cell_basis(n, r) in x * (j-th diagram). *)
Theorem C58_cell_matrix n r x : 2 * r <= n -> morphism x -> motop x = n -> mobot x = n -> exists B A,
  cell_basis n r = Ok B /\ cell_matrix x r = Ok A /\ is_matrix A /\ mrows A = length B /\ mcols A = length B /\
  forall i j bi bj, nth_error B i = Some bi -> nth_error B j = Some bj ->
    exists c y, mat_get A (Z.of_nat i) (Z.of_nat j) = Ok c /\ mor_mul_diag x bj = Ok y /\ mor_coefficient y bi = Ok c.
Proof.
  intros Hr Mx T Bt. destruct (C32_cell_basis n r Hr) as [B [EB _]]. assert (S : sqm n x) by (split; [now apply morphism_wf|auto]).
  destruct (cell_matrix_ok n r Hr B EB x S) as [A [EA [W [R [C N]]]]]. exists B, A. split; [exact EB|]. split; [exact EA|]. split; [now apply is_matrix_wf|]. split; [exact R|]. split; [exact C|].
  intros i j bi bj Hi Hj. assert (Li : i < length B) by (apply nth_error_Some; congruence). assert (Lj : j < length B) by (apply nth_error_Some; congruence).
  destruct (N i j Li Lj) as [_ [_ [y [Ey Hy]]]]. apply (nth_error_nth _ _ (did 0)) in Hi, Hj. rewrite Hi in Hy. rewrite Hj in Ey.
  exists (ent (lint 0) A i j), y. split; [apply mat_get_ok; auto; congruence|]. split; [exact Ey|exact Hy].
Qed.
(** cell_matrix is multiplicative and unital *)
Theorem C58_cell_matrix_mul n r x y xy : 2 * r <= n -> morphism x -> morphism y -> motop x = n -> mobot x = n -> motop y = n -> mobot y = n ->
  mor_mul x y = Ok xy -> exists X Y XY, cell_matrix x r = Ok X /\ cell_matrix y r = Ok Y /\ cell_matrix xy r = Ok XY /\ mat_mul (lint 0) ladd lmul X Y = Ok XY.
Proof.
  intros Hr Mx My T1 B1 T2 B2 E. destruct (C32_cell_basis n r Hr) as [B [EB _]].
  assert (Sx : sqm n x) by (split; [now apply morphism_wf|auto]). assert (Sy : sqm n y) by (split; [now apply morphism_wf|auto]).
  destruct (sqm_mul n x y Sx Sy) as [z [E' [Sz _]]]. rewrite E in E'. injection E' as <-.
  destruct (cell_matrix_ok n r Hr B EB x Sx) as [X [EX _]], (cell_matrix_ok n r Hr B EB y Sy) as [Y [EY _]], (cell_matrix_ok n r Hr B EB xy Sz) as [Z [EZ _]].
  exists X, Y, Z. repeat (split; [assumption|]). now apply (cell_matrix_mul n r Hr B EB x y xy).
Qed.
(** JonesCellRep(n, r, p) is constructed for n >= 1, 2r <= n, p >= 0 and nothing else *)
Theorem C58_constructor n r p : (1 <= n /\ 2 * r <= n /\ (0 <= p)%Z <-> exists R, jones_rep n r p = Ok R) /\ (~ (1 <= n /\ 2 * r <= n /\ (0 <= p)%Z) -> jones_rep n r p = Err AssertionError).
Proof.
  unfold jones_rep. destruct (Nat.leb_spec 1 n); cbn [assert_ bind]; [|split; [split; [lia|intros [R K]; discriminate]|reflexivity]].
  destruct (Nat.leb_spec (2 * r) n); cbn [assert_ bind]; [|split; [split; [lia|intros [R K]; discriminate]|reflexivity]].
  destruct (Z.leb_spec 0 p); cbn [assert_ bind]; [|split; [split; [lia|intros [R K]; discriminate]|reflexivity]]. split; [split; [eauto|auto]|]. intros K. exfalso. apply K. auto.
Qed.
(** its generators: n-1 square matrices of the dimension of the representation,
    with LPoly entries in canonical form and coefficients reduced modulo p *)
Theorem C58_generators n r p R : jones_rep n r p = Ok R -> exists d gens invs,
  rep_dimension R = Ok (Z.of_nat d) /\ 0 < d /\ rep_artin_gens_invs R = Ok (gens, invs) /\ length gens = n - 1 /\ length invs = n - 1 /\
  Forall (square d) (gens ++ invs) /\ Forall (reduced_matrix p) (gens ++ invs).
Proof.
  intros EJ. destruct (jones_all n r p R EJ) as [d [gens [invs [E [_ [_ [_ [Hd [ED [EG [_ [_ [L1 [L2 [S1 [S2 [R1 [R2 _]]]]]]]]]]]]]]]]]].
  exists d, gens, invs. repeat (split; [assumption|]). split; [|apply Forall_app; auto]. apply Forall_app. split; [eapply Forall_impl; [|exact S1]|eapply Forall_impl; [|exact S2]]; intros A; apply sq_square.
Qed.
Lemma unit_of_pmeq p d A E : isid d E -> sq d A -> pmeq p A E -> is_unit_matrix p d A.
Proof.
  intros HE SA M. split; [now apply sq_square|]. intros i j Hi Hj. apply neqp_congr. destruct (isid_sq d E HE) as [WE [RE CE]]. destruct SA as [WA [RA CA]]. unfold pmeq in M.
  apply (meq_ent (NI 0) (neqp p)) in M; auto. destruct M as [_ [_ M]]. specialize (M i j ltac:(congruence) ltac:(congruence)). destruct HE as [_ [_ [_ HE]]]. rewrite HE in M by auto. unfold ent, entry in M. now rewrite CA in M.
Qed.
Theorem C58_inverse n r p R d gens invs i g h : jones_rep n r p = Ok R -> rep_dimension R = Ok (Z.of_nat d) -> rep_artin_gens_invs R = Ok (gens, invs) ->
  nth_error gens i = Some g -> nth_error invs i = Some h ->
  exists x y, nmat_mul g h = Ok x /\ nmat_mul h g = Ok y /\ is_unit_matrix p d x /\ is_unit_matrix p d y.
Proof.
  intros EJ ED EG Eg Eh. destruct (jones_all n r p R EJ) as [d' [gens' [invs' [E [_ [_ [_ [Hd [ED' [EG' [_ [HE [L1 [L2 [S1 [S2 [_ [_ [HI _]]]]]]]]]]]]]]]]]]].
  rewrite ED in ED'. injection ED' as ED'. apply Nat2Z.inj in ED'. subst d'. rewrite EG in EG'. injection EG' as <- <-.
  assert (Hi : i + 1 < n). { assert (i < length gens) by (apply nth_error_Some; congruence). lia. }
  rewrite Forall_forall in S1, S2. pose proof (S1 g (nth_error_In _ _ Eg)) as Sg. pose proof (S2 h (nth_error_In _ _ Eh)) as Sh. destruct (HI i Hi) as [K1 K2].
  unfold G, H in K1, K2. rewrite (nth_error_nth _ _ E Eg), (nth_error_nth _ _ E Eh) in K1, K2. exists (pr g h), (pr h g). rewrite (nmul_ok d g h Sg Sh), (nmul_ok d h g Sh Sg).
  split; [reflexivity|]. split; [reflexivity|]. split; eapply unit_of_pmeq; eauto using sq_pr.
Qed.
Theorem C58_far_commutation n r p R gens invs i j g h : jones_rep n r p = Ok R -> rep_artin_gens_invs R = Ok (gens, invs) ->
  i + 2 <= j -> nth_error gens i = Some g -> nth_error gens j = Some h ->
  exists x y, nmat_mul g h = Ok x /\ nmat_mul h g = Ok y /\ mat_congr p x y.
Proof.
  intros EJ EG Hij Eg Eh. destruct (jones_all n r p R EJ) as [d [gens' [invs' [E [_ [_ [_ [Hd [_ [EG' [_ [HE [L1 [L2 [S1 [S2 [_ [_ [_ [HF _]]]]]]]]]]]]]]]]]]]].
  rewrite EG in EG'. injection EG' as <- <-. assert (Hj : j + 1 < n). { assert (j < length gens) by (apply nth_error_Some; congruence). lia. }
  rewrite Forall_forall in S1, S2. pose proof (S1 g (nth_error_In _ _ Eg)) as Sg. pose proof (S1 h (nth_error_In _ _ Eh)) as Sh. pose proof (HF i j Hij Hj) as K.
  unfold G in K. rewrite (nth_error_nth _ _ E Eg), (nth_error_nth _ _ E Eh) in K. exists (pr g h), (pr h g). rewrite (nmul_ok d g h Sg Sh), (nmul_ok d h g Sh Sg).
  split; [reflexivity|]. split; [reflexivity|]. now apply pmeq_congr.
Qed.
Theorem C58_braid_relation n r p R gens invs i g h : jones_rep n r p = Ok R -> rep_artin_gens_invs R = Ok (gens, invs) ->
  nth_error gens i = Some g -> nth_error gens (i + 1) = Some h ->
  exists gh hg x y, nmat_mul g h = Ok gh /\ nmat_mul gh g = Ok x /\ nmat_mul h g = Ok hg /\ nmat_mul hg h = Ok y /\ mat_congr p x y.
Proof.
  intros EJ EG Eg Eh. destruct (jones_all n r p R EJ) as [d [gens' [invs' [E [_ [_ [_ [Hd [_ [EG' [_ [HE [L1 [L2 [S1 [S2 [_ [_ [_ [_ HB]]]]]]]]]]]]]]]]]]]].
  rewrite EG in EG'. injection EG' as <- <-. assert (Hj : i + 2 < n). { assert (i + 1 < length gens) by (apply nth_error_Some; congruence). lia. }
  rewrite Forall_forall in S1, S2. pose proof (S1 g (nth_error_In _ _ Eg)) as Sg. pose proof (S1 h (nth_error_In _ _ Eh)) as Sh. pose proof (HB i Hj) as K.
  unfold G in K. rewrite (nth_error_nth _ _ E Eg), (nth_error_nth _ _ E Eh) in K. exists (pr g h), (pr h g), (pr (pr g h) g), (pr (pr h g) h).
  rewrite (nmul_ok d g h Sg Sh), (nmul_ok d h g Sh Sg), (nmul_ok d (pr g h) g), (nmul_ok d (pr h g) h) by auto using sq_pr.
  do 4 (split; [reflexivity|]). now apply pmeq_congr.
Qed.
(** over the integers (p = 0) the relations hold as equalities of Python objects *)
Theorem C58_relations_exact n r R gens invs : jones_rep n r 0 = Ok R -> rep_artin_gens_invs R = Ok (gens, invs) ->
  (forall i j g h, i + 2 <= j -> nth_error gens i = Some g -> nth_error gens j = Some h -> nmat_mul g h = nmat_mul h g /\ is_ok (nmat_mul g h) = true) /\
  (forall i g h, nth_error gens i = Some g -> nth_error gens (i + 1) = Some h ->
     (gh <- nmat_mul g h ;; nmat_mul gh g) = (hg <- nmat_mul h g ;; nmat_mul hg h) /\ is_ok (gh <- nmat_mul g h ;; nmat_mul gh g) = true).
Proof.
  intros EJ EG. destruct (jones_all n r 0 R EJ) as [d [gens' [invs' [E [_ [_ [_ [Hd [_ [EG' [_ [HE [L1 [L2 [S1 [S2 [R1 [R2 _]]]]]]]]]]]]]]]]]].
  rewrite EG in EG'. injection EG' as <- <-. rewrite Forall_forall in S1, R1.
  assert (LM : forall g, In g gens -> lentm g) by (intros g Hg; eapply Forall_impl; [|exact (R1 g Hg)]; intros x; apply reduced_lent).
  assert (RM : forall A, lentm A -> reduced_matrix 0 A) by (intros A HA; eapply Forall_impl; [|exact HA]; apply lent_reduced0). split.
  - intros i j g h Hij Eg Eh. destruct (C58_far_commutation n r 0 R gens invs i j g h EJ EG Hij Eg Eh) as [x [y [E1 [E2 K]]]]. rewrite E1, E2. split; [|reflexivity]. f_equal.
    pose proof (nth_error_In _ _ Eg) as Ig. pose proof (nth_error_In _ _ Eh) as Ih. rewrite (nmul_ok d) in E1, E2 by auto. injection E1 as <-. injection E2 as <-.
    apply (reduced_matrix_inj 0); [lia| | |exact K]; apply RM; apply (lentm_pr d); auto.
  - intros i g h Eg Eh. destruct (C58_braid_relation n r 0 R gens invs i g h EJ EG Eg Eh) as [gh [hg [x [y [E1 [E3 [E2 [E4 K]]]]]]]].
    rewrite E1, E2. cbn [bind]. rewrite E3, E4. split; [|reflexivity]. f_equal.
    pose proof (nth_error_In _ _ Eg) as Ig. pose proof (nth_error_In _ _ Eh) as Ih. rewrite (nmul_ok d) in E1, E2 by auto. injection E1 as <-. injection E2 as <-.
    rewrite (nmul_ok d) in E3, E4 by auto using sq_pr. injection E3 as <-. injection E4 as <-.
    apply (reduced_matrix_inj 0); [lia| | |exact K]; apply RM; apply (lentm_pr d); auto using sq_pr.
Qed.
(** a concrete case: the 3-dimensional reduced Burau representation of B_4 modulo 5 *)
Example C58_case : exists R gens invs, jones_rep 4 1 5 = Ok R /\ rep_dimension R = Ok 3%Z /\ rep_artin_gens_invs R = Ok (gens, invs) /\ length gens = 3 /\
  nth_error gens 1 = Some (mkM 3 3 (map NL [mkL 0 [1]; mkL 0 []; mkL 0 []; mkL 1 [4]; mkL 2 [4]; mkL 1 [4]; mkL 0 []; mkL 0 []; mkL 0 [1]]%Z)).
Proof. do 3 eexists. split; [reflexivity|]. split; [reflexivity|]. split; [vm_compute; reflexivity|]. split; reflexivity. Qed.

(** ** C59 *)
Lemma eval_ok n r p R w : jones_rep n r p = Ok R -> word_ok n w -> exists d gens invs E A,
  rep_dimension R = Ok (Z.of_nat d) /\ rep_artin_gens_invs R = Ok (gens, invs) /\ rep_id R = Ok E /\ isid d E /\ (0 <= p)%Z /\
  rep_evaluate_artin_word R w = Ok A /\ sq d A /\ pmeq p A (M gens invs E (expand w)) /\ (nontrivial_word w -> reduced_matrix p A) /\
  (forall u, sq d (M gens invs E u)) /\ (forall u v, braid_eq n u v -> pmeq p (M gens invs E u) (M gens invs E v)) /\ (forall u v, pmeq p (M gens invs E (u ++ v)) (pr (M gens invs E u) (M gens invs E v))).
Proof.
  intros EJ Hw. destruct (jones_all n r p R EJ) as [d [gens [invs [E [EN [EP [Hp [Hd [ED [EG [EI [HE [L1 [L2 [S1 [S2 [R1 [R2 [K1 [K2 K3]]]]]]]]]]]]]]]]]]]].
  destruct (letters_ok p n d gens invs E HE L1 L2 S1 S2 w Hw) as [ms [Ems [Sms F]]]. destruct (F E [] (isid_sq d E HE) ltac:(reflexivity)) as [A [EA [SA MA]]]. cbn [List.app] in MA.
  exists d, gens, invs, E, (if (p =? 0)%Z then A else mat_map (nreduce p) A). repeat (split; [assumption|]).
  split; [unfold rep_evaluate_artin_word; rewrite EG; cbn [bind]; rewrite Ems; cbn [bind]; rewrite EI; cbn [bind]; rewrite EA; cbn [bind]; now rewrite EP|].
  split; [destruct (p =? 0)%Z; [exact SA|now apply sq_map]|]. split; [destruct (Z.eqb_spec p 0); [exact MA|rewrite map_reduce_pmeq by lia; exact MA]|].
  split; [|split; [intros u; now apply M_sq|split; [intros u v; now apply (M_braid p n d)|intros u v; now apply (M_app p d)]]].
  intros [i [e [Hie He]]]. assert (LA : lentm A).
  { apply (lentm_fold d ms Hd Sms E A (isid_sq d E HE)); [|exact EA]. right. apply mapM_Ok_Forall2 in Ems.
    assert (LG : forall g, In g gens \/ In g invs -> sq d g /\ lentm g).
    { intros g Hg. rewrite Forall_forall in S1, S2, R1, R2. split; [destruct Hg; auto|]. assert (RG : reduced_matrix p g) by (destruct Hg; auto). eapply Forall_impl; [|exact RG]. intros x. apply reduced_lent. }
    assert (PI : forall (l : list (mat num)) k g, pyget l k = Ok g -> In g l).
    { intros l k g. unfold pyget, get. destruct (0 <=? k)%Z; [destruct (nth_error l _) eqn:Q; [intros [= <-]; eapply nth_error_In; eauto|discriminate]|].
      destruct (0 <=? k + _)%Z; [|discriminate]. destruct (nth_error l _) eqn:Q; [intros [= <-]; eapply nth_error_In; eauto|discriminate]. }
    clear EA MA F Hw Sms. induction Ems as [|[i' e'] m w ms Em _ IH]; [destruct Hie|]. destruct Hie as [[= -> ->]|Hie]; [left|right; auto].
    unfold rep_letter in Em. destruct (Z.leb_spec 0 e).
    - destruct (pyget gens i) as [g|] eqn:Eg; [|discriminate]. cbn [bind] in Em. destruct (LG g ltac:(left; eauto)). eapply lentm_pow in Em; eauto. lia.
    - destruct (pyget invs i) as [g|] eqn:Eg; [|discriminate]. cbn [bind] in Em. destruct (LG g ltac:(right; eauto)). eapply lentm_pow in Em; eauto. lia. }
  destruct (Z.eqb_spec p 0) as [->|N].
  - eapply Forall_impl; [|exact LA]. apply lent_reduced0.
  - unfold reduced_matrix. cbn [mat_map mdata]. apply Forall_map. eapply Forall_impl; [|exact LA]. intros x. apply lent_reduce. lia.
Qed.

(** two words of B_n that are equal as braids evaluate to the same matrix modulo p ... *)
Theorem C59_braid_invariant n r p R u w : jones_rep n r p = Ok R -> word_ok n u -> word_ok n w -> braid_eq n (expand u) (expand w) ->
  exists A B, rep_evaluate_artin_word R u = Ok A /\ rep_evaluate_artin_word R w = Ok B /\ mat_congr p A B.
Proof.
  intros EJ Hu Hw E. destruct (eval_ok n r p R u EJ Hu) as [d [gens [invs [I [A [ED [EG [EI [HI [Hp [EA [SA [MA [RA [MS [MB MM]]]]]]]]]]]]]]]].
  destruct (eval_ok n r p R w EJ Hw) as [d' [gens' [invs' [I' [B [ED' [EG' [EI' [HI' [_ [EB [SB [MB' [RB _]]]]]]]]]]]]]]. rewrite EG in EG'. injection EG' as <- <-. rewrite EI in EI'. injection EI' as <-.
  exists A, B. split; [exact EA|]. split; [exact EB|]. apply pmeq_congr. rewrite MA, MB'. auto.
Qed.
(** ... and, if both words have a letter with a non-zero exponent, to the same Python object *)
Theorem C59_braid_invariant_object n r p R u w : jones_rep n r p = Ok R -> word_ok n u -> word_ok n w -> braid_eq n (expand u) (expand w) ->
  nontrivial_word u -> nontrivial_word w ->
  exists A, rep_evaluate_artin_word R u = Ok A /\ rep_evaluate_artin_word R w = Ok A /\ reduced_matrix p A.
Proof.
  intros EJ Hu Hw E Nu Nw. destruct (C59_braid_invariant n r p R u w EJ Hu Hw E) as [A [B [EA [EB K]]]].
  destruct (eval_ok n r p R u EJ Hu) as [d [gens [invs [I [A' [ED [EG [EI [HI [Hp [EA' [SA [MA [RA _]]]]]]]]]]]]]]. rewrite EA in EA'. injection EA' as <-.
  destruct (eval_ok n r p R w EJ Hw) as [d' [gens' [invs' [I' [B' [ED' [EG' [EI' [HI' [_ [EB' [SB [MB' [RB _]]]]]]]]]]]]]]. rewrite EB in EB'. injection EB' as <-.
  pose proof (reduced_matrix_inj p A B Hp (RA Nu) (RB Nw) K) as <-. exists A. auto.
Qed.
(** concatenation of words goes to the product of matrices, the empty word to the
    int identity matrix, a word of length one to the generator or its inverse *)
Theorem C59_concatenation n r p R u w : jones_rep n r p = Ok R -> word_ok n u -> word_ok n w ->
  exists A B C P, rep_evaluate_artin_word R u = Ok A /\ rep_evaluate_artin_word R w = Ok B /\ rep_evaluate_artin_word R (u ++ w) = Ok C /\
    nmat_mul A B = Ok P /\ mat_congr p C P.
Proof.
  intros EJ Hu Hw. destruct (eval_ok n r p R u EJ Hu) as [d [gens [invs [I [A [ED [EG [EI [HI [Hp [EA [SA [MA [RA [MS [MB MM]]]]]]]]]]]]]]]].
  destruct (eval_ok n r p R w EJ Hw) as [d' [gens' [invs' [I' [B [ED' [EG' [EI' [HI' [_ [EB [SB [MB' [RB _]]]]]]]]]]]]]]. rewrite EG in EG'. injection EG' as <- <-. rewrite EI in EI'. injection EI' as <-.
  assert (Huw : word_ok n (u ++ w)) by (apply Forall_app; auto).
  destruct (eval_ok n r p R (u ++ w) EJ Huw) as [d2 [gens2 [invs2 [I2 [C [ED2 [EG2 [EI2 [HI2 [_ [EC [SC [MC [RC _]]]]]]]]]]]]]]. rewrite EG in EG2. injection EG2 as <- <-. rewrite EI in EI2. injection EI2 as <-.
  rewrite ED in ED'. injection ED' as ED'. apply Nat2Z.inj in ED'. subst d'. exists A, B, C, (pr A B). repeat (split; [assumption|]). split; [now apply (nmul_ok d)|].
  apply pmeq_congr. rewrite MC. unfold expand. rewrite flat_map_app. fold (expand u). fold (expand w). rewrite MM. symmetry. now apply (pr_meq p d).
Qed.
Theorem C59_generators n r p R i : jones_rep n r p = Ok R -> i + 1 < n -> exists gens invs g h A B,
  rep_artin_gens_invs R = Ok (gens, invs) /\ nth_error gens i = Some g /\ nth_error invs i = Some h /\
  rep_evaluate_artin_word R [(Z.of_nat i, 1%Z)] = Ok A /\ rep_evaluate_artin_word R [(Z.of_nat i, (-1)%Z)] = Ok B /\ A = g /\ B = h.
Proof.
  intros EJ Hi. destruct (C58_generators n r p R EJ) as [d0 [gens0 [invs0 [ED0 [Hd0 [EG0 [Lg [Lh [SQ RD]]]]]]]]].
  assert (Hw : forall e, word_ok n [(Z.of_nat i, e)]) by (intros e; constructor; [cbn; lia|constructor]).
  destruct (eval_ok n r p R _ EJ (Hw 1%Z)) as [d [gens [invs [I [A [ED [EG [EI [HI [Hp [EA [SA [MA [RA [MS [MB MM]]]]]]]]]]]]]]]].
  destruct (eval_ok n r p R _ EJ (Hw (-1)%Z)) as [d' [gens' [invs' [I' [B [ED' [EG' [EI' [HI' [_ [EB [SB [MB' [RB _]]]]]]]]]]]]]].
  rewrite EG in EG'. injection EG' as <- <-. rewrite EI in EI'. injection EI' as <-. rewrite EG in EG0. injection EG0 as <- <-. rewrite ED in ED', ED0. injection ED' as ED'. injection ED0 as ED0. apply Nat2Z.inj in ED', ED0. subst d' d0.
  destruct (nth_error gens i) as [g|] eqn:Eg; [|apply nth_error_None in Eg; lia]. destruct (nth_error invs i) as [h|] eqn:Eh; [|apply nth_error_None in Eh; lia].
  exists gens, invs, g, h, A, B. do 5 (split; [first [assumption|reflexivity]|]). apply Forall_app in SQ, RD. destruct SQ as [SQ1 SQ2], RD as [RD1 RD2]. rewrite Forall_forall in SQ1, SQ2, RD1, RD2.
  pose proof (nth_error_In _ _ Eg) as Ig. pose proof (nth_error_In _ _ Eh) as Ih.
  split; apply (reduced_matrix_inj p); auto; try (first [apply RA|apply RB]; eexists _, _; split; [now left|lia]); apply pmeq_congr.
  - rewrite MA. replace (expand [(Z.of_nat i, 1%Z)]) with [(i, true)] by (unfold expand; cbn [flat_map fst snd]; now rewrite Nat2Z.id). cbn [M fold_right]. unfold lt, G. cbn [fst snd]. rewrite (nth_error_nth _ _ I Eg). apply (pr_id_r p d); [exact HI|apply sq_square; auto].
  - rewrite MB'. replace (expand [(Z.of_nat i, (-1)%Z)]) with [(i, false)] by (unfold expand; cbn [flat_map fst snd]; now rewrite Nat2Z.id). cbn [M fold_right]. unfold lt, H. cbn [fst snd]. rewrite (nth_error_nth _ _ I Eh). apply (pr_id_r p d); [exact HI|apply sq_square; auto].
Qed.
Theorem C59_empty_word n r p R d : jones_rep n r p = Ok R -> rep_dimension R = Ok (Z.of_nat d) ->
  exists A, rep_evaluate_artin_word R [] = Ok A /\ rep_id R = Ok A /\ is_unit_matrix p d A /\ Forall (fun x => x = NI 0 \/ x = NI 1) (mdata A).
Proof.
  intros EJ ED. destruct (jones_all n r p R EJ) as [d' [gens [invs [E [EN [EP [Hp [Hd [ED' [EG [EI [HE _]]]]]]]]]]]]. rewrite ED in ED'. injection ED' as ED'. apply Nat2Z.inj in ED'. subst d'.
  assert (F : Forall (fun x => x = NI 0 \/ x = NI 1) (mdata E)).
  { destruct HE as [W [RE [CE HE]]]. apply Forall_forall. intros x Hx. apply (In_nth _ _ (NI 0)) in Hx. destruct Hx as [q [Hq <-]]. unfold mwf in W. rewrite W, RE, CE in Hq. destruct (pos_split d d q Hq) as [A1 [B1 C1]].
    specialize (HE _ _ A1 B1). unfold ent, entry in HE. rewrite CE, <- C1 in HE. rewrite HE. destruct (_ =? _); auto. }
  exists E. split; [|split; [exact EI|split; [apply (unit_of_pmeq p d E E HE (isid_sq d E HE)); reflexivity|exact F]]].
  unfold rep_evaluate_artin_word. rewrite EG. cbn [bind mapM]. rewrite EI. cbn [bind foldM]. rewrite EP. destruct (p =? 0)%Z; [reflexivity|]. f_equal. destruct E as [a b l]. cbn [mdata] in F. unfold mat_map. cbn [mrows mcols mdata]. f_equal.
  clear - F. induction F as [|x l [-> | ->] _ IH]; cbn [map nreduce]; [reflexivity| |]; now rewrite IH.
Qed.
(** normal forms: evaluate(a * b) = evaluate(a) * evaluate(b) modulo p; evaluate(b)
    is the value of every word of the braid b *)
Theorem C59_gnf_word n r p R tb b w : jones_rep n r p = Ok R -> 2 <= n -> gnf_table n tb -> word_ok n w -> from_artin_word tb n w = Ok b ->
  exists A B, rep_evaluate_nf tb R b = Ok A /\ rep_evaluate_artin_word R w = Ok B /\ mat_congr p A B.
Proof.
  intros EJ n2 Ht Hw Eb. destruct (api_from_word _ _ _ _ _ _ _ _ _ (ptab_ok n n2) tb (gnf_table_ptab n tb Ht) w Hw) as [b' [Eb' [_ [u [Eu [Hu Q]]]]]]. rewrite Eb in Eb'. injection Eb' as <-.
  unfold rep_evaluate_nf. rewrite Eu. cbn [bind]. now apply (C59_braid_invariant n r p R u w).
Qed.
Theorem C59_gnf_mul n r p R tb a b : jones_rep n r p = Ok R -> 2 <= n -> gnf_table n tb -> nf_value tb n a -> nf_value tb n b ->
  exists c A B C P, nf_mul tb a b = Ok c /\ rep_evaluate_nf tb R a = Ok A /\ rep_evaluate_nf tb R b = Ok B /\ rep_evaluate_nf tb R c = Ok C /\
    nmat_mul A B = Ok P /\ mat_congr p C P.
Proof.
  intros EJ n2 Ht Va Vb. destruct (C45_gnf_mul n tb a b n2 Ht Va Vb) as [c [wa [wb [wc [Ec [Vc [Ea [Eb [Ewc Q]]]]]]]]].
  pose proof (api_word _ _ _ _ _ _ _ _ _ (ptab_ok n n2) tb (gnf_table_ptab n tb Ht)) as AW.
  destruct (AW a Va) as [? [E1 [Ha _]]]. rewrite Ea in E1. injection E1 as <-. destruct (AW b Vb) as [? [E1 [Hb _]]]. rewrite Eb in E1. injection E1 as <-. destruct (AW c Vc) as [? [E1 [Hc _]]]. rewrite Ewc in E1. injection E1 as <-.
  destruct (C59_concatenation n r p R wa wb EJ Ha Hb) as [A [B [C [P [EA [EB [EC [EP K]]]]]]]].
  assert (Hab : word_ok n (wa ++ wb)) by (apply Forall_app; auto).
  destruct (C59_braid_invariant n r p R wc (wa ++ wb) EJ Hc Hab) as [C' [C'' [EC' [EC'' K']]]]; [unfold expand; rewrite flat_map_app; exact Q|]. rewrite EC in EC''. injection EC'' as <-.
  exists c, A, B, C', P. unfold rep_evaluate_nf. rewrite Ea, Eb, Ewc. cbn [bind]. repeat (split; [assumption|]). apply pmeq_congr in K, K'. apply pmeq_congr. now rewrite K'.
Qed.
(** a permutation is evaluated as its positive lift *)
Theorem C59_perm n r p R tb x : jones_rep n r p = Ok R -> 2 <= n -> gnf_table n tb -> is_perm_word n x ->
  exists b A B, gnf_from_perm tb x = Ok b /\ rep_evaluate_perm R x = Ok A /\ rep_evaluate_nf tb R b = Ok B /\ mat_congr p A B.
Proof.
  intros EJ n2 Ht Hx. destruct (shortlex_sl n x Hx) as [u [Eu Su]]. pose proof (sl_redw n u x Su) as Ru.
  assert (Lf : lifts n x (pword u)). { exists u. split; [|reflexivity]. now apply shortest_redw. }
  assert (Lx : length x = n) by (apply Permutation.Permutation_length in Hx; now rewrite seq_length in Hx).
  destruct (C48_from_perm_seq n tb [x] [pword u] n2 Ht ltac:(auto) ltac:(auto)) as [b [Eb [_ [wb [Ewb [Hwb Q]]]]]]. cbn [concat] in Q. rewrite app_nil_r in Q.
  set (w := map (fun i => (Z.of_nat i, 1%Z)) u). assert (Hw : word_ok n w).
  { unfold w, word_ok. apply Forall_map. eapply Forall_impl; [|exact (redw_range n u x Ru)]. cbn. intros; lia. }
  assert (Xw : expand w = pword u). { unfold w, expand, pword. clear. induction u as [|i u IH]; [reflexivity|]. cbn [map flat_map fst snd]. rewrite Nat2Z.id, IH. reflexivity. }
  destruct (C59_braid_invariant n r p R w wb EJ Hw Hwb) as [A [B [EA [EB K]]]]; [rewrite Xw; now apply be_sym|].
  exists b, A, B. split; [unfold gnf_from_perm; rewrite Lx; exact Eb|]. split; [unfold rep_evaluate_perm, perm_artin_word; rewrite Eu; exact EA|]. split; [unfold rep_evaluate_nf; rewrite Ewb; exact EB|exact K].
Qed.
(** evaluate(a.inv()) is inverse to evaluate(a) *)
Theorem C59_gnf_inverse n r p R tb d a : jones_rep n r p = Ok R -> rep_dimension R = Ok (Z.of_nat d) -> 2 <= n -> gnf_table n tb -> nf_value tb n a ->
  exists i A B P, nf_inv tb a = Ok i /\ rep_evaluate_nf tb R a = Ok A /\ rep_evaluate_nf tb R i = Ok B /\ nmat_mul A B = Ok P /\ is_unit_matrix p d P.
Proof.
  intros EJ ED n2 Ht Va. destruct (C45_gnf_inverse n tb a n2 Ht Va) as [i [e [Ei [Vi [Ee [E1 E2]]]]]].
  destruct (C59_gnf_mul n r p R tb a i EJ n2 Ht Va Vi) as [c [A [B [C [P [Ec [EA [EB [EC [EP K]]]]]]]]]]. rewrite E1 in Ec. injection Ec as <-.
  exists i, A, B, P. repeat (split; [assumption|]).
  destruct (api_id _ _ _ _ _ _ _ _ _ (ptab_ok n n2) tb (gnf_table_ptab n tb Ht)) as [e' [Ee' [_ [w [Ew [Hw Q]]]]]]. rewrite Ee in Ee'. injection Ee' as <-.
  unfold rep_evaluate_nf in EC. rewrite Ew in EC. cbn [bind] in EC. assert (H0 : word_ok n []) by constructor.
  destruct (C59_braid_invariant n r p R w [] EJ Hw H0 Q) as [C' [U [EC' [EU K']]]]. rewrite EC in EC'. injection EC' as <-.
  destruct (C59_empty_word n r p R d EJ ED) as [U' [EU' [_ [[SU UU] _]]]]. rewrite EU in EU'. injection EU' as <-.
  apply pmeq_congr in K, K'. assert (M : pmeq p P U) by (rewrite <- K; exact K'). apply pmeq_congr in M. destruct M as [M1 [M2 M3]]. destruct SU as [SU1 [SU2 SU3]].
  assert (L : length (mdata P) = length (mdata U)) by (clear - M3; induction M3; cbn; auto).
  split; [split; [congruence|split; congruence]|]. intros k j Hk Hj. specialize (UU k j Hk Hj). intros q. specialize (UU q).
  assert (X : congr p (nth (d * k + j) (mdata P) (NI 0)) (nth (d * k + j) (mdata U) (NI 0))).
  { clear - M3. revert M3. generalize (mdata P), (mdata U). induction (d * k + j) as [|m IH]; intros l l' F; inversion F; subst; cbn [nth]; auto; intros q; rewrite Z.sub_diag; apply Z.divide_0_r. }
  specialize (X q). pose proof (Z.divide_add_r _ _ _ X UU) as Y. destruct Y as [z Y]. exists z. lia.
Qed.
(** a concrete case *)
Example C59_case : exists R A, jones_rep 4 1 5 = Ok R /\ rep_evaluate_artin_word R [(0, 2); (1, -1)]%Z = Ok A /\ word_ok 4 [(0, 2); (1, -1)]%Z /\ nontrivial_word [(0, 2); (1, -1)]%Z /\
  mdata A = map NL [mkL 0 [1; 0; 4; 0; 1]; mkL (-1) [1; 0; 4]; mkL 0 [1; 0; 4]; mkL (-1) [4]; mkL (-2) [4]; mkL (-1) [4]; mkL 0 []; mkL 0 []; mkL 0 [1]]%Z.
Proof. do 2 eexists. split; [reflexivity|]. split; [vm_compute; reflexivity|]. split; [repeat constructor; cbn; lia|]. split; [exists 0%Z, 2%Z; split; [now left|lia]|reflexivity]. Qed.
(** Python's [==] on the results is not a braid invariant: the empty word gives an
    int matrix, sigma_0 sigma_0^-1 an LPoly matrix, and an LPoly never equals an int *)
Theorem C59_python_equality_refuted : exists R A B, jones_rep 3 1 0 = Ok R /\ braid_eq 3 (expand []) (expand [(0, 1); (0, -1)]%Z) /\
  rep_evaluate_artin_word R [] = Ok A /\ rep_evaluate_artin_word R [(0, 1); (0, -1)]%Z = Ok B /\ mat_eqb neqb A B = false.
Proof.
  do 3 eexists. split; [reflexivity|]. split; [apply be_sym; apply (be_cancel 3 0 true); lia|]. split; [vm_compute; reflexivity|]. split; [vm_compute; reflexivity|reflexivity].
Qed.
