(** PropsTLMor.v – properties C31, C35 (TLMor.flip) and C36. *)
From Verif Require Import Base ModelPoly SpecPoly PolyTheory PolyDiv EvalTheory PropsPoly ModelTL SpecTL TLTheory TLAlg TLAlg2 TLBasis TLCells TLRel PropsTL ModelMatrix ModelTLMor TLMorTheory.
From Coq Require Import Ring Setoid Morphisms Permutation Sorting.Sorted.
Local Open Scope nat_scope.

(** A TLMor object: something the constructor returned from a dict with TLDiag
    keys and LPoly values. *)
Definition is_dict (t : terms) : Prop := NoDup (map fst t) /\ (forall d c, In (d, c) t -> diagram d /\ is_lpoly c).
Definition morphism (m : mor) : Prop := exists top bot t, is_dict t /\ mor_make top bot t = Ok m.
(** the coefficient the API reports *)
Definition has_coef (m : mor) (d : diag) (c : lpoly) : Prop := mor_coefficient m d = Ok c.
Definition of_type (top bot : nat) (d : diag) : Prop := diagram d /\ dtop d = top /\ dbot d = bot.

Lemma make_type_dec top bot t : is_dict t -> (isdict top bot t) \/ (mor_make top bot t = Err ValueError /\ exists d c, In (d, c) t /\ ~ (dtop d = top /\ dbot d = bot)).
Proof.
  intros [N H]. destruct (forallb (fun '(d, _) => (dtop d =? top) && (dbot d =? bot)) t) eqn:E.
  - left. rewrite forallb_forall in E. split; [exact N| |].
    + intros [d c] Hx. specialize (E _ Hx). cbn in E. apply andb_prop in E. rewrite !Nat.eqb_eq in E. split; [apply (H _ _ Hx)|exact E].
    + intros [d c] Hx. apply is_lpoly_canon, (H _ _ Hx).
  - right. unfold mor_make. rewrite E. split; [reflexivity|]. assert (K : exists x, In x t /\ (fun '(d, _) => (dtop d =? top) && (dbot d =? bot)) x = false).
    { clear N H. induction t as [|x t IH]; [discriminate|]. cbn [forallb] in E. apply andb_false_iff in E. destruct E as [E|E]; [exists x; split; [now left|exact E]|].
      destruct (IH E) as [y [Hy Ey]]. exists y. split; [now right|exact Ey]. }
    destruct K as [[d c] [Hx K]]. exists d, c. split; [exact Hx|]. intros [A B]. rewrite A, B, !Nat.eqb_refl in K. discriminate.
Qed.
Lemma morphism_wf m : morphism m <-> wf m.
Proof.
  split.
  - intros [top [bot [t [D E]]]]. destruct (make_type_dec top bot t D) as [K|[K _]]; [|congruence].
    destruct (mor_make_ok _ _ _ K) as [m' [E' [W _]]]. rewrite E in E'. injection E' as ->. exact W.
  - intros W. exists (motop m), (mobot m), (moterms m). pose proof (wf_dict _ W) as D. split.
    + split; [apply D|]. intros d c Hx. split; [apply (id_typed _ _ _ D _ Hx)|apply canon_is_lpoly, (id_canon _ _ _ D _ Hx)].
    + destruct (mor_make_ok _ _ _ D) as [m' [E [W' [T [B [S _]]]]]]. rewrite E. f_equal. now apply wf_eqF.
Qed.
Lemma coef_sum m d : wf m -> of_type (motop m) (mobot m) d -> exists c, has_coef m d c /\ lcanon c /\ leq c (msum (moterms m) (ddelta d)).
Proof.
  intros W [Dd [T B]]. unfold has_coef, mor_coefficient. rewrite T, B, !Nat.eqb_refl. cbn [andb negb]. eexists. split; [reflexivity|]. split.
  - destruct (tget (moterms m) d) as [c|] eqn:G; [|apply canon_make]. apply tget_in in G; [|apply W]. apply (id_canon _ _ _ (wf_dict _ W) _ G).
  - symmetry. apply (msum_delta (moterms m) d). apply W.
Qed.
Lemma coef_uniq m d c c' : has_coef m d c -> has_coef m d c' -> c = c'. Proof. unfold has_coef. congruence. Qed.
Ltac coefs W d T H := destruct (coef_sum _ d W T) as [? [H [? ?]]].

(** ** C36 *)
(** the constructor: wrong diagram types raise ValueError; otherwise the
    coefficients are those of the dict, absent diagrams having coefficient 0 *)
Theorem C36_constructor top bot t : is_dict t ->
  ((exists d c, In (d, c) t /\ ~ (dtop d = top /\ dbot d = bot)) -> mor_make top bot t = Err ValueError) /\
  ((forall d c, In (d, c) t -> dtop d = top /\ dbot d = bot) -> exists m, mor_make top bot t = Ok m /\ motop m = top /\ mobot m = bot /\
     (forall d c, In (d, c) t -> has_coef m d c) /\ (forall d, of_type top bot d -> ~ In d (map fst t) -> has_coef m d (lint 0))).
Proof.
  intros D. destruct (make_type_dec top bot t D) as [K|[K [d0 [c0 [H0 N0]]]]].
  - split; [intros [d [c [H N]]]; exfalso; apply N; destruct (id_typed _ _ _ K _ H) as [_ ?]; assumption|]. intros _.
    destruct (mor_make_ok _ _ _ K) as [m [E [W [T [B [S _]]]]]]. exists m. split; [exact E|]. split; [exact T|]. split; [exact B|]. split.
    + intros d c Hx. pose proof (id_typed _ _ _ K _ Hx) as Td. cbn [fst] in Td. rewrite <- T, <- B in Td. destruct (coef_sum m d W Td) as [c' [Hc [Cc Ec]]].
      assert (c' = c) as <-; [|exact Hc]. apply canon_eq; [exact Cc|apply (id_canon _ _ _ K _ Hx)|]. rewrite Ec, S, msum_delta by apply K. unfold tgetd.
      apply tget_in in Hx; [|apply K]. now rewrite Hx.
    + intros d Td Hn. rewrite <- T, <- B in Td. destruct (coef_sum m d W Td) as [c' [Hc [Cc Ec]]].
      assert (c' = lint 0) as <-; [|exact Hc]. apply canon_eq; [exact Cc|apply canon_make|]. rewrite Ec, S, msum_delta by apply K. unfold tgetd.
      apply tget_none in Hn. rewrite Hn. reflexivity.
  - split; [intros _; exact K|]. intros H. exfalso. apply N0. eauto.
Qed.
(** zero coefficients are never stored, no diagram is stored twice, and the
    terms are in strictly increasing lexicographic order *)
Theorem C36_stored_terms m : morphism m ->
  (forall d c, In (d, c) (moterms m) -> c <> lint 0 /\ of_type (motop m) (mobot m) d) /\ NoDup (map fst (moterms m)) /\ StronglySorted lex_lt (map (fun x => dseq (fst x)) (moterms m)).
Proof.
  intros H. apply morphism_wf in H. destruct H as [[N T C] S Z]. split; [|split; [exact N|]].
  - intros d c Hx. split; [|exact (T _ Hx)]. intros E. pose proof (Z _ Hx) as K. apply (lis_zero_spec c (C _ Hx)) in E. cbn [snd] in K. congruence.
  - clear Z C. induction S as [|x l S IH F]; cbn [map]; [constructor|]. inversion N as [|? ? N1 N2]; subst. constructor; [apply IH; [exact N2|intros; apply T; now right]|].
    rewrite Forall_forall in *. intros s Hs. apply in_map_iff in Hs. destruct Hs as [y [<- Hy]]. specialize (F y Hy).
    destruct (T x (or_introl eq_refl)) as [[_ Lx] [Tx Bx]]. destruct (T y (or_intror Hy)) as [[_ Ly] [Ty By]].
    unfold diag_leb in F. rewrite Tx, Ty, Bx, By, !Nat.eqb_refl in F. apply list_leb_spec in F; [|lia]. destruct F as [F|F]; [|exact F].
    exfalso. apply N1. apply in_map_iff. exists y. split; [|exact Hy]. destruct x as [[t b s] c], y as [[t' b' s'] c']; cbn in *. congruence.
Qed.
(** two morphisms are equal iff they have the same type and coefficients, and
    [==] decides it *)
Theorem C36_equality x y : morphism x -> morphism y ->
  (x = y <-> motop x = motop y /\ mobot x = mobot y /\ forall d c, of_type (motop x) (mobot x) d -> (has_coef x d c <-> has_coef y d c)).
Proof.
  intros Hx Hy. apply morphism_wf in Hx, Hy. split; [intros ->; repeat split; auto|]. intros [E1 [E2 H]]. apply wf_eq; auto. intros d Td.
  destruct (coef_sum x d Hx Td) as [c [A [_ B]]]. assert (Td' : of_type (motop y) (mobot y) d) by (rewrite <- E1, <- E2; exact Td). destruct (coef_sum y d Hy Td') as [c' [A' [_ B']]].
  apply (H d c Td) in A. rewrite <- B, <- B'. now rewrite (coef_uniq _ _ _ _ A A').
Qed.
Theorem C36_eqb x y : morphism x -> morphism y -> (mor_eqb x y = true <-> x = y).
Proof.
  intros Hx Hy. apply morphism_wf in Hx, Hy. unfold mor_eqb. rewrite !andb_true_iff, !Nat.eqb_eq, forallb_forall. split.
  - intros [[[E1 E2] L] F]. apply wf_eqF; auto. intros G. apply msum_perm.
    assert (I : incl (moterms x) (moterms y)).
    { intros [d c] Hp. specialize (F _ Hp). cbn in F. destruct (tget (moterms y) d) as [c'|] eqn:Q; [|discriminate]. apply leqb_eq in F. subst c'. apply tget_in in Q; [exact Q|apply Hy]. }
    apply NoDup_Permutation_bis; [apply NoDup_of_keys, Hx|lia|exact I].
  - intros ->. repeat split; auto. intros [d c] Hp. apply (tget_in _ _ _ (id_nodup _ _ _ (wf_dict _ Hy))) in Hp. rewrite Hp. now apply leqb_eq.
Qed.
Ltac start H := apply morphism_wf in H.
Lemma has_coef_eq m d c : wf m -> of_type (motop m) (mobot m) d -> lcanon c -> leq (msum (moterms m) (ddelta d)) c -> has_coef m d c.
Proof. intros W T C E. destruct (coef_sum m d W T) as [c' [H [C' E']]]. assert (c' = c) as <- by (apply canon_eq; auto; now rewrite E'). exact H. Qed.
Lemma has_coef_sum m d c : wf m -> of_type (motop m) (mobot m) d -> has_coef m d c -> leq (msum (moterms m) (ddelta d)) c.
Proof. intros W T H. destruct (coef_sum m d W T) as [c' [H' [_ E]]]. now rewrite (coef_uniq _ _ _ _ H H'). Qed.
(** sums, differences, negatives and scalar multiples are coefficientwise *)
Theorem C36_add x y : morphism x -> morphism y ->
  (~ (motop x = motop y /\ mobot x = mobot y) -> mor_add x y = Err ValueError) /\
  (motop x = motop y -> mobot x = mobot y -> exists r, mor_add x y = Ok r /\ morphism r /\ motop r = motop x /\ mobot r = mobot x /\
    forall d a b, of_type (motop x) (mobot x) d -> has_coef x d a -> has_coef y d b -> has_coef r d (ladd a b)).
Proof.
  intros Hx Hy. start Hx. start Hy. split.
  - intros N. unfold mor_add. destruct (Nat.eqb_spec (motop x) (motop y)), (Nat.eqb_spec (mobot x) (mobot y)); try reflexivity. exfalso. auto.
  - intros E1 E2. destruct (mor_add_ok x y Hx Hy E1 E2) as [r [E [W [T [B S]]]]]. exists r. split; [exact E|]. split; [now apply morphism_wf|]. split; [exact T|]. split; [exact B|].
    intros d a b Td Ha Hb. apply has_coef_eq; [exact W|rewrite T, B; exact Td|apply canon_make|]. rewrite S, (has_coef_sum x d a Hx Td Ha), (has_coef_sum y d b Hy); [reflexivity|rewrite <- E1, <- E2; exact Td|exact Hb].
Qed.
Theorem C36_sub x y : morphism x -> morphism y -> motop x = motop y -> mobot x = mobot y -> exists r, mor_sub x y = Ok r /\ morphism r /\ motop r = motop x /\ mobot r = mobot x /\
    forall d a b, of_type (motop x) (mobot x) d -> has_coef x d a -> has_coef y d b -> has_coef r d (lsub a b).
Proof.
  intros Hx Hy E1 E2. start Hx. start Hy. destruct (mor_sub_ok x y Hx Hy E1 E2) as [r [E [W [T [B S]]]]]. exists r. split; [exact E|]. split; [now apply morphism_wf|]. split; [exact T|]. split; [exact B|].
  intros d a b Td Ha Hb. apply has_coef_eq; [exact W|rewrite T, B; exact Td|apply canon_make|]. rewrite S, (has_coef_sum x d a Hx Td Ha), (has_coef_sum y d b Hy); [reflexivity|rewrite <- E1, <- E2; exact Td|exact Hb].
Qed.
Theorem C36_scale x s : morphism x -> exists r, mor_scale x s = Ok r /\ morphism r /\ motop r = motop x /\ mobot r = mobot x /\
    forall d a, of_type (motop x) (mobot x) d -> has_coef x d a -> has_coef r d (lmul (coerce s) a).
Proof.
  intros Hx. start Hx. destruct (mor_scale_ok x s Hx) as [r [E [W [T [B S]]]]]. exists r. split; [exact E|]. split; [now apply morphism_wf|]. split; [exact T|]. split; [exact B|].
  intros d a Td Ha. apply has_coef_eq; [exact W|rewrite T, B; exact Td|apply canon_make|]. now rewrite S, (has_coef_sum x d a Hx Td Ha).
Qed.
Theorem C36_neg x : morphism x -> exists r, mor_neg x = Ok r /\ morphism r /\ motop r = motop x /\ mobot r = mobot x /\
    forall d a, of_type (motop x) (mobot x) d -> has_coef x d a -> has_coef r d (lneg a).
Proof.
  intros Hx. start Hx. destruct (mor_neg_ok x Hx) as [r [E [W [T [B S]]]]]. exists r. split; [exact E|]. split; [now apply morphism_wf|]. split; [exact T|]. split; [exact B|].
  intros d a Td Ha. apply has_coef_eq; [exact W|rewrite T, B; exact Td|apply canon_make|]. now rewrite S, (has_coef_sum x d a Hx Td Ha).
Qed.
(** products: the coefficient of d in x * y is the sum, over all pairs of a term
    a u of x and a term b l of y whose diagrams compose to d with k bubbles, of
    (v + v^-1)^k a b *)
Definition lsum (l : list lpoly) : lpoly := fold_right ladd (lint 0) l.
Definition contribution (d : diag) (p : (diag * lpoly) * (diag * lpoly)) : lpoly :=
  match tld_mul (fst (fst p)) (fst (snd p)) with
  | Ok (e, k) => if diag_eqb e d then lmul (lprod (lpoly_make (-1) [1; 0; 1]%Z) k) (lmul (snd (fst p)) (snd (snd p))) else lint 0
  | Err _ => lint 0
  end.
Lemma lsum_cons x l : lsum (x :: l) = ladd x (lsum l). Proof. reflexivity. Qed.
Lemma lsum_app a b : leq (lsum (a ++ b)) (ladd (lsum a) (lsum b)).
Proof.
  induction a as [|x a IH]; cbn [app].
  - change (lsum []) with (lint 0). ring.
  - rewrite !lsum_cons, IH. ring.
Qed.
Lemma canon_lsum l : lcanon (lsum l). Proof. destruct l; apply canon_make. Qed.
Lemma bil_contribution x y d : wf x -> wf y -> mobot x = motop y -> leq (bil (moterms x) (moterms y) (ddelta d)) (lsum (map (contribution d) (list_prod (moterms x) (moterms y)))).
Proof.
  intros Wx Wy E. unfold bil. assert (Hx : forall u, In u (moterms x) -> typed (motop x) (mobot x) (fst u)) by apply Wx. assert (Hy : forall u, In u (moterms y) -> typed (motop y) (mobot y) (fst u)) by apply Wy.
  clear Wx Wy. revert Hx. induction (moterms x) as [|[u cu] lx IH]; intros Hx; cbn [msum list_prod map fst snd]; [reflexivity|].
  rewrite map_app, lsum_app, IH by (intros; apply Hx; now right). clear IH. apply ladd_proper; [|reflexivity]. destruct (Hx _ (or_introl eq_refl)) as [Du [Tu Bu]]. clear Hx. cbn [fst] in *.
  rewrite <- msum_scale. revert Hy. induction (moterms y) as [|[l cl] ly IH]; intros Hy; cbn [msum map fst snd]; [reflexivity|].
  rewrite lsum_cons. rewrite <- IH by (intros; apply Hy; now right). clear IH. apply ladd_proper; [|reflexivity].
  destruct (Hy _ (or_introl eq_refl)) as [Dl [Tl Bl]]. cbn [fst] in *. unfold contribution. cbn [fst snd]. destruct (dprod_ok u l Du Dl ltac:(congruence)) as [-> _].
  destruct (dprod u l) as [e k]. cbn [fst snd]. unfold ddelta, q2. rewrite lprod_lpn. destruct (diag_eqb_spec d e) as [Ed|N], (diag_eqb_spec e d); try congruence; [change (lpoly_make (-1) [1%Z; 0%Z; 1%Z]) with Q2; ring|ring].
Qed.
Theorem C36_mul x y : morphism x -> morphism y ->
  (mobot x <> motop y -> mor_mul x y = Err ValueError) /\
  (mobot x = motop y -> exists r, mor_mul x y = Ok r /\ morphism r /\ motop r = motop x /\ mobot r = mobot y /\
    forall d, of_type (motop x) (mobot y) d -> has_coef r d (lsum (map (contribution d) (list_prod (moterms x) (moterms y))))).
Proof.
  intros Hx Hy. start Hx. start Hy. split.
  - intros N. unfold mor_mul. destruct (Nat.eqb_spec (mobot x) (motop y)); [contradiction|reflexivity].
  - intros E1. destruct (mor_mul_ok x y Hx Hy E1) as [r [E [W [T [B S]]]]]. exists r. split; [exact E|]. split; [now apply morphism_wf|]. split; [exact T|]. split; [exact B|].
    intros d Td. apply has_coef_eq; [exact W|rewrite T, B; exact Td|apply canon_lsum|]. rewrite S. now apply bil_contribution.
Qed.
Theorem C36_associative x y z xy yz : morphism x -> morphism y -> morphism z -> mor_mul x y = Ok xy -> mor_mul y z = Ok yz ->
  exists r, mor_mul xy z = Ok r /\ mor_mul x yz = Ok r.
Proof. intros Hx Hy Hz. start Hx. start Hy. start Hz. now apply mor_mul_assoc. Qed.
Theorem C36_identity x : morphism x -> exists i j, mor_id (motop x) = Ok i /\ mor_id (mobot x) = Ok j /\ mor_mul i x = Ok x /\ mor_mul x j = Ok x.
Proof.
  intros Hx. start Hx. destruct (mor_id_ok (motop x)) as [i [Ei _]], (mor_id_ok (mobot x)) as [j [Ej _]]. exists i, j. repeat split; auto; [now apply mor_id_l|now apply mor_id_r].
Qed.
Theorem C36_distributive_left x y z s : morphism x -> morphism y -> morphism z -> mor_add y z = Ok s -> mobot x = motop y ->
  exists xy xz r, mor_mul x y = Ok xy /\ mor_mul x z = Ok xz /\ mor_add xy xz = Ok r /\ mor_mul x s = Ok r.
Proof.
  intros Hx Hy Hz Es B. start Hx. start Hy. start Hz.
  assert (K : motop y = motop z /\ mobot y = mobot z). { unfold mor_add in Es. destruct (Nat.eqb_spec (motop y) (motop z)), (Nat.eqb_spec (mobot y) (mobot z)); try discriminate. auto. }
  destruct K as [K1 K2]. destruct (mor_add_ok y z Hy Hz K1 K2) as [? [E [Ws [Ts [Bs Ss]]]]]. rewrite Es in E. injection E as <-.
  destruct (mor_mul_ok x y Hx Hy B) as [xy [E1 [W1 [T1 [B1 S1]]]]]. destruct (mor_mul_ok x z Hx Hz ltac:(congruence)) as [xz [E2 [W2 [T2 [B2 S2]]]]].
  destruct (mor_add_ok xy xz W1 W2 ltac:(congruence) ltac:(congruence)) as [r [E3 [W3 [T3 [B3 S3]]]]]. destruct (mor_mul_ok x s Hx Ws ltac:(congruence)) as [r' [E4 [W4 [T4 [B4 S4]]]]].
  exists xy, xz, r. repeat split; auto. rewrite E4. f_equal. apply wf_eqF; auto; try congruence. intros F. rewrite S3, S4, S1, S2. unfold bil. rewrite <- msum_add. apply msum_ext. intros u _. apply Ss.
Qed.
Theorem C36_distributive_right x y z s : morphism x -> morphism y -> morphism z -> mor_add x y = Ok s -> mobot x = motop z ->
  exists xz yz r, mor_mul x z = Ok xz /\ mor_mul y z = Ok yz /\ mor_add xz yz = Ok r /\ mor_mul s z = Ok r.
Proof.
  intros Hx Hy Hz Es B. start Hx. start Hy. start Hz.
  assert (K : motop x = motop y /\ mobot x = mobot y). { unfold mor_add in Es. destruct (Nat.eqb_spec (motop x) (motop y)), (Nat.eqb_spec (mobot x) (mobot y)); try discriminate. auto. }
  destruct K as [K1 K2]. destruct (mor_add_ok x y Hx Hy K1 K2) as [? [E [Ws [Ts [Bs Ss]]]]]. rewrite Es in E. injection E as <-.
  destruct (mor_mul_ok x z Hx Hz B) as [xz [E1 [W1 [T1 [B1 S1]]]]]. destruct (mor_mul_ok y z Hy Hz ltac:(congruence)) as [yz [E2 [W2 [T2 [B2 S2]]]]].
  destruct (mor_add_ok xz yz W1 W2 ltac:(congruence) ltac:(congruence)) as [r [E3 [W3 [T3 [B3 S3]]]]]. destruct (mor_mul_ok s z Ws Hz ltac:(congruence)) as [r' [E4 [W4 [T4 [B4 S4]]]]].
  exists xz, yz, r. repeat split; auto. rewrite E4. f_equal. apply wf_eqF; auto; try congruence. intros F. rewrite S3, S4, S1, S2. unfold bil. apply Ss.
Qed.
(** scalars move freely through products *)
Theorem C36_scalars x y c xy : morphism x -> morphism y -> mor_mul x y = Ok xy ->
  exists cx cy r, mor_scale x c = Ok cx /\ mor_scale y c = Ok cy /\ mor_scale xy c = Ok r /\ mor_mul cx y = Ok r /\ mor_mul x cy = Ok r.
Proof.
  intros Hx Hy E. start Hx. start Hy. assert (B : mobot x = motop y) by (unfold mor_mul in E; destruct (Nat.eqb_spec (mobot x) (motop y)); [assumption|discriminate]).
  destruct (mor_mul_ok x y Hx Hy B) as [? [E1 [W1 [T1 [B1 S1]]]]]. rewrite E in E1. injection E1 as <-.
  destruct (mor_scale_ok x c Hx) as [cx [Ex [Wx [Tx [Bx Sx]]]]], (mor_scale_ok y c Hy) as [cy [Ey [Wy [Ty [By Sy]]]]], (mor_scale_ok xy c W1) as [r [Er [Wr [Tr [Br Sr]]]]].
  destruct (mor_mul_ok cx y Wx Hy ltac:(congruence)) as [r1 [E2 [W2 [T2 [B2 S2]]]]]. destruct (mor_mul_ok x cy Hx Wy ltac:(congruence)) as [r2 [E3 [W3 [T3 [B3 S3]]]]].
  exists cx, cy, r. repeat split; auto.
  - rewrite E2. f_equal. apply wf_eqF; auto; try congruence. intros F. rewrite S2, Sr, S1. unfold bil. apply Sx.
  - rewrite E3. f_equal. apply wf_eqF; auto; try congruence. intros F. rewrite S3, Sr, S1. unfold bil. rewrite <- msum_scale. apply msum_ext. intros u _. apply Sy.
Qed.
(** adding a scalar adds that multiple of the identity; only for square types *)
Theorem C36_add_scalar x c : morphism x ->
  if motop x =? mobot x then exists i ci, mor_id (motop x) = Ok i /\ mor_scale i c = Ok ci /\ mor_addn x c = mor_add x ci else mor_addn x c = Err ValueError.
Proof.
  intros Hx. unfold mor_addn. rewrite (Nat.eqb_sym (mobot x)). destruct (Nat.eqb_spec (motop x) (mobot x)) as [E|E]; [|reflexivity]. rewrite <- E.
  destruct (mor_id_ok (motop x)) as [i [Ei [Wi [Ti [Bi _]]]]]. rewrite Ei. cbn [bind]. destruct (mor_scale_ok i c Wi) as [r [Er [Wr [Tr [Br Sr]]]]], (mor_scale_ok i (NL (coerce c)) Wi) as [r' [Er' [Wr' [Tr' [Br' Sr']]]]].
  exists i, r. split; [reflexivity|]. split; [exact Er|]. rewrite Er'. cbn [bind]. f_equal. apply wf_eqF; auto; try congruence. intros F. rewrite Sr, Sr'. reflexivity.
Qed.
(** powers *)
Fixpoint mor_iter (x : mor) (k : nat) : res mor := match k with 0 => mor_id (motop x) | S k' => r <- mor_iter x k' ;; mor_mul x r end.
Definition sq (n : nat) (m : mor) : Prop := wf m /\ motop m = n /\ mobot m = n.
Lemma sq_mul n x y : sq n x -> sq n y -> exists r, mor_mul x y = Ok r /\ sq n r.
Proof. intros [Wx [Tx Bx]] [Wy [Ty By]]. destruct (mor_mul_ok x y Wx Wy ltac:(congruence)) as [r [E [W [T [B _]]]]]. exists r. split; [exact E|]. split; [exact W|]. split; congruence. Qed.
Lemma sq_id n : exists i, mor_id n = Ok i /\ sq n i.
Proof. destruct (mor_id_ok n) as [i [E [W [T [B _]]]]]. exists i. split; [exact E|]. split; [exact W|auto]. Qed.
Lemma iter_sq n x : sq n x -> forall k, exists r, mor_iter x k = Ok r /\ sq n r.
Proof.
  intros Sx. induction k as [|k [r [E Sr]]]; cbn [mor_iter]; [destruct Sx as [_ [-> _]]; apply sq_id|]. rewrite E. cbn [bind]. now apply sq_mul.
Qed.
Lemma iter_add n x : sq n x -> forall a b ra rb rab, mor_iter x a = Ok ra -> mor_iter x b = Ok rb -> mor_iter x (a + b) = Ok rab -> mor_mul ra rb = Ok rab.
Proof.
  intros Sx. induction a as [|a IH]; intros b ra rb rab Ea Eb Eab; cbn [mor_iter Nat.add] in *.
  - rewrite Eb in Eab. injection Eab as <-. destruct (iter_sq n x Sx b) as [rb' [Eb' [W [T B]]]]. rewrite Eb in Eb'. injection Eb' as <-. apply mor_id_l; [exact W|].
    destruct Sx as [_ [Tx _]]. rewrite T, <- Tx. exact Ea.
  - destruct (iter_sq n x Sx a) as [r [Er Sr]]. rewrite Er in Ea. cbn [bind] in Ea. destruct (iter_sq n x Sx (a + b)) as [s [Es Ss]]. rewrite Es in Eab. cbn [bind] in Eab.
    pose proof (IH b r rb s Er Eb Es) as K. destruct (iter_sq n x Sx b) as [? [Eb' Sb]]. rewrite Eb in Eb'. injection Eb' as <-.
    destruct (mor_mul_assoc x r rb ra s) as [q [Q1 Q2]]; try apply Sx; try apply Sr; try apply Sb; auto. rewrite Q1. congruence.
Qed.
Lemma mor_pow_loop_ok n x fuel : sq n x -> forall exp acc pow2 a b, (0 <= exp)%Z -> 0 < fuel -> (exp = 0%Z \/ S (Z.to_nat (Z.log2 exp)) < fuel) ->
  mor_iter x a = Ok acc -> mor_iter x b = Ok pow2 -> mor_pow_loop fuel exp acc pow2 = mor_iter x (a + b * Z.to_nat exp).
Proof.
  intros Sx. induction fuel as [|fuel IH]; intros exp acc pow2 a b Hexp HF0 HF Ha Hp; [lia|]. cbn [mor_pow_loop].
  destruct (Z.eqb_spec exp 0) as [->|N].
  - cbn [Z.to_nat]. now rewrite Nat.mul_0_r, Nat.add_0_r.
  - destruct HF as [?|HF]; [contradiction|]. assert (HF1 : 0 < fuel) by lia.
    assert (HF2 : (exp / 2 = 0)%Z \/ S (Z.to_nat (Z.log2 (exp / 2))) < fuel).
    { destruct (Z.eq_dec exp 1) as [->|]; [left; reflexivity|right]. replace (exp / 2)%Z with (Z.shiftr exp 1) by (rewrite Z.shiftr_div_pow2 by lia; reflexivity).
      rewrite Z.log2_shiftr by lia. pose proof (Z.log2_le_mono 2 exp ltac:(lia)). change (Z.log2 2) with 1%Z in *. lia. }
    pose proof (Z.div_mod exp 2 ltac:(lia)) as DM. pose proof (Z.mod_pos_bound exp 2 ltac:(lia)) as MB.
    assert (D0 : (0 <= exp / 2)%Z) by (apply Z.div_pos; lia).
    destruct (iter_sq n x Sx (b + b)) as [r2 [E2 _]]. pose proof (iter_add n x Sx b b _ _ _ Hp Hp E2) as M2.
    destruct (Z.eqb_spec (exp mod 2) 1) as [M|M].
    + destruct (iter_sq n x Sx (a + b)) as [r1 [E1 _]]. rewrite (iter_add n x Sx a b _ _ _ Ha Hp E1), M2. cbn [bind]. rewrite (IH (exp / 2)%Z r1 r2 (a + b) (b + b)) by auto.
      f_equal. replace (Z.to_nat exp) with (2 * Z.to_nat (exp / 2) + 1) by lia. lia.
    + rewrite M2. cbn [bind]. rewrite (IH (exp / 2)%Z acc r2 a (b + b)) by auto. f_equal. replace (Z.to_nat exp) with (2 * Z.to_nat (exp / 2)) by lia. lia.
Qed.
Theorem C36_power x k : morphism x ->
  (motop x <> mobot x \/ (k < 0)%Z -> mor_pow x k = Err ValueError) /\
  (motop x = mobot x -> (0 <= k)%Z -> mor_pow x k = mor_iter x (Z.to_nat k) /\ exists r, mor_pow x k = Ok r /\ morphism r).
Proof.
  intros Hx. start Hx. unfold mor_pow. split.
  - intros H. destruct (Nat.eqb_spec (motop x) (mobot x)); cbn [negb]; [|reflexivity]. destruct (Z.ltb_spec k 0); [reflexivity|]. exfalso. lia.
  - intros E Hk. rewrite (proj2 (Nat.eqb_eq _ _) E). cbn [negb]. destruct (Z.ltb_spec k 0); [lia|].
    assert (Sx : sq (motop x) x) by (split; [exact Hx|auto]). destruct (sq_id (motop x)) as [i [Ei _]]. rewrite Ei. cbn [bind].
    assert (P : mor_pow_loop (S (S (Z.to_nat (Z.log2 k)))) k i x = mor_iter x (Z.to_nat k)).
    { replace (mor_iter x (Z.to_nat k)) with (mor_iter x (0 + 1 * Z.to_nat k)) by (f_equal; lia). apply (mor_pow_loop_ok (motop x)); auto; try lia.
      cbn [mor_iter]. rewrite Ei. cbn [bind]. apply mor_id_r; [exact Hx|]. now rewrite <- E. }
    rewrite P. split; [reflexivity|]. destruct (iter_sq _ x Sx (Z.to_nat k)) as [r [Er [Wr _]]]. exists r. split; [exact Er|now apply morphism_wf].
Qed.
(** quotient keeps exactly the diagrams with enough through strands *)
Theorem C36_quotient x k : morphism x -> exists r, mor_quotient x k = Ok r /\ morphism r /\ motop r = motop x /\ mobot r = mobot x /\
  forall d c, of_type (motop x) (mobot x) d -> has_coef x d c -> has_coef r d (if k <=? through_strands d then c else lint 0).
Proof.
  intros Hx. start Hx. unfold mor_quotient.
  assert (D : isdict (motop x) (mobot x) (filter (fun '(d, _) => k <=? through_strands d) (moterms x))).
  { apply (isdict_sub _ _ (moterms x)); [apply Hx|intros y Hy; apply filter_In in Hy; apply Hy|]. apply NoDup_map_filter. apply Hx. }
  destruct (mor_make_ok _ _ _ D) as [r [E [W [T [B [S _]]]]]]. exists r. split; [exact E|]. split; [now apply morphism_wf|]. split; [exact T|]. split; [exact B|].
  intros d c Td Hc. apply has_coef_eq; [exact W|rewrite T, B; exact Td| |].
  - destruct (k <=? through_strands d); [|apply canon_make]. destruct (coef_sum x d Hx Td) as [c' [H' [C' _]]]. now rewrite (coef_uniq _ _ _ _ Hc H').
  - rewrite S. apply (has_coef_sum x d c Hx Td) in Hc. destruct (k <=? through_strands d) eqn:K; [rewrite <- Hc|]; clear - K;
    (induction (moterms x) as [|[e a] t IH]; cbn [filter msum fst snd]; [reflexivity|]; destruct (k <=? through_strands e) eqn:Q; cbn [msum fst snd]; rewrite IH; unfold ddelta; destruct (diag_eqb_spec d e) as [->|]; try congruence; ring).
Qed.
(** a concrete case for the hypotheses of C36: two-term morphisms of type (2, 2) *)
Definition C36_x : mor := mkMor 2 2 [(mkD 2 2 [1; 0; 3; 2], lpoly_make 0 [0; -1]%Z); (mkD 2 2 [3; 2; 1; 0], lpoly_make 0 [1]%Z)].
Definition C36_y : mor := mkMor 2 2 [(mkD 2 2 [1; 0; 3; 2], lpoly_make (-1) [-1]%Z); (mkD 2 2 [3; 2; 1; 0], lpoly_make 0 [1]%Z)].
Example C36_nontrivial : morphism C36_x /\ morphism C36_y /\ (exists r, mor_mul C36_x C36_y = Ok r /\ mor_id 2 = Ok r) /\ (exists r, mor_add C36_x C36_y = Ok r /\ length (moterms r) = 2) /\
  (exists r, mor_pow C36_x 3 = Ok r /\ length (moterms r) = 2) /\ mor_quotient C36_x 2 = mor_id 2.
Proof.
  assert (D1 : diagram (mkD 2 2 [1; 0; 3; 2])) by (split; [apply is_cm_Ok; vm_compute; reflexivity|reflexivity]).
  assert (D2 : diagram (mkD 2 2 [3; 2; 1; 0])) by (split; [apply is_cm_Ok; vm_compute; reflexivity|reflexivity]).
  split; [|split].
  - exists 2, 2, (moterms C36_x). split; [|vm_compute; reflexivity]. split; [repeat constructor; cbn; intuition congruence|]. intros d c [[= <- <-]|[[= <- <-]|[]]]; (split; [assumption|eexists _, _; reflexivity]).
  - exists 2, 2, (moterms C36_y). split; [|vm_compute; reflexivity]. split; [repeat constructor; cbn; intuition congruence|]. intros d c [[= <- <-]|[[= <- <-]|[]]]; (split; [assumption|eexists _, _; reflexivity]).
  - split; [eexists; split; vm_compute; reflexivity|]. split; [eexists; split; [vm_compute; reflexivity|reflexivity]|]. split; [eexists; split; [vm_compute; reflexivity|reflexivity]|]. vm_compute. reflexivity.
Qed.
