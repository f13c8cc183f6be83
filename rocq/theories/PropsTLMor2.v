(** PropsTLMor2.v – properties C31 (Temperley-Lieb relations and the images of the
    Artin generators) and C35 (TLMor.flip). *)
From Verif Require Import Base ModelPoly SpecPoly PolyTheory PolyDiv EvalTheory PropsPoly ModelTL SpecTL TLTheory TLAlg TLAlg2 TLBasis TLCells TLRel PropsTL ModelMatrix ModelTLMor TLMorTheory TLGens TLFlip PropsTLMor.
From Coq Require Import Ring Setoid Morphisms.
Local Open Scope nat_scope.

(** ** C31: the relations of the generators e_i *)
Definition v_plus_vinv : lpoly := lpoly_make (-1) [1; 0; 1]%Z.
Theorem C31_e_defined i n : (i + 1 < n -> exists e, mor_e i n = Ok e /\ morphism e /\ motop e = n /\ mobot e = n) /\ (n <= i + 1 -> mor_e i n = Err AssertionError).
Proof.
  split; intros H.
  - destruct (mor_e_ok i n H) as [e [E [W [T [B _]]]]]. exists e. split; [exact E|]. split; [now apply morphism_wf|auto].
  - unfold mor_e. destruct (Nat.ltb_spec (S i) n); [lia|reflexivity].
Qed.
Theorem C31_e_squared i n e : mor_e i n = Ok e -> exists r, mor_mul e e = Ok r /\ mor_scale e (NL v_plus_vinv) = Ok r.
Proof.
  intros Ee. destruct (Nat.lt_ge_cases (i + 1) n) as [H|H]; [|rewrite (proj2 (C31_e_defined i n) H) in Ee; discriminate].
  destruct (mor_e_ok i n H) as [? [E [W [T [B S]]]]]. rewrite Ee in E. injection E as <-.
  destruct (mor_mul_ok e e W W ltac:(congruence)) as [r [E1 [W1 [T1 [B1 S1]]]]], (mor_scale_ok e (NL v_plus_vinv) W) as [s [E2 [W2 [T2 [B2 S2]]]]]. exists r. split; [exact E1|]. rewrite E2. f_equal.
  apply wf_eqF; auto; try congruence. intros F. rewrite S1, S2. unfold bil. rewrite !S, (dp_ee n i H). cbn [fst snd coerce]. rewrite q2_1. change v_plus_vinv with Q2. ring.
Qed.
Theorem C31_e_zigzag i n e f : i + 2 < n -> mor_e i n = Ok e -> mor_e (i + 1) n = Ok f ->
  exists ef fe, mor_mul e f = Ok ef /\ mor_mul f e = Ok fe /\ mor_mul ef e = Ok e /\ mor_mul fe f = Ok f /\ mor_mul e fe = Ok e /\ mor_mul f ef = Ok f.
Proof.
  intros H Ee Ef. destruct (mor_e_ok i n ltac:(lia)) as [? [E [We [Te [Be Se]]]]]. rewrite Ee in E. injection E as <-. destruct (mor_e_ok (i + 1) n ltac:(lia)) as [? [E [Wf [Tf [Bf Sf]]]]]. rewrite Ef in E. injection E as <-.
  destruct (dp_adj n i H) as [p [q [Tp [Tq [P1 [P2 [P3 P4]]]]]]].
  destruct (mor_mul_ok e f We Wf ltac:(congruence)) as [ef [E1 [W1 [T1 [B1 S1]]]]], (mor_mul_ok f e Wf We ltac:(congruence)) as [fe [E2 [W2 [T2 [B2 S2]]]]]. exists ef, fe. split; [exact E1|]. split; [exact E2|].
  assert (X : mor_mul ef e = Ok e).
  { destruct (mor_mul_ok ef e W1 We ltac:(congruence)) as [r [-> [W3 [T3 [B3 S3]]]]]. f_equal. apply wf_eqF; auto; try congruence. intros F. rewrite S3. unfold bil. rewrite S1. unfold bil. rewrite !Se, Sf, P1. cbn [fst snd]. rewrite Se, P2. cbn [fst snd]. rewrite q2_0. ring. }
  assert (Y : mor_mul fe f = Ok f).
  { destruct (mor_mul_ok fe f W2 Wf ltac:(congruence)) as [r [-> [W3 [T3 [B3 S3]]]]]. f_equal. apply wf_eqF; auto; try congruence. intros F. rewrite S3. unfold bil. rewrite S2. unfold bil. rewrite !Sf, Se, P3. cbn [fst snd]. rewrite Sf, P4. cbn [fst snd]. rewrite q2_0. ring. }
  split; [exact X|]. split; [exact Y|]. split.
  - destruct (mor_mul_assoc e f e ef fe We Wf We E1 E2) as [r [R1 R2]]. congruence.
  - destruct (mor_mul_assoc f e f fe ef Wf We Wf E2 E1) as [r [R1 R2]]. congruence.
Qed.
Theorem C31_e_far i j n e f : i + 1 < j \/ j + 1 < i -> mor_e i n = Ok e -> mor_e j n = Ok f -> exists r, mor_mul e f = Ok r /\ mor_mul f e = Ok r.
Proof.
  assert (G : forall i j e f, i + 1 < j -> mor_e i n = Ok e -> mor_e j n = Ok f -> exists r, mor_mul e f = Ok r /\ mor_mul f e = Ok r).
  { clear. intros i j e f H Ee Ef. destruct (Nat.lt_ge_cases (j + 1) n) as [Hj|Hj]; [|rewrite (proj2 (C31_e_defined j n) Hj) in Ef; discriminate].
    destruct (mor_e_ok i n ltac:(lia)) as [? [E [We [Te [Be Se]]]]]. rewrite Ee in E. injection E as <-. destruct (mor_e_ok j n Hj) as [? [E [Wf [Tf [Bf Sf]]]]]. rewrite Ef in E. injection E as <-.
    destruct (dp_far n i j H Hj) as [p [Tp [P1 P2]]].
    destruct (mor_mul_ok e f We Wf ltac:(congruence)) as [ef [E1 [W1 [T1 [B1 S1]]]]], (mor_mul_ok f e Wf We ltac:(congruence)) as [fe [E2 [W2 [T2 [B2 S2]]]]]. exists ef. split; [exact E1|]. rewrite E2. f_equal.
    apply wf_eqF; auto; try congruence. intros F. rewrite S1, S2. unfold bil. rewrite Se, !Sf, Se, P1, P2. reflexivity. }
  intros [H|H] Ee Ef; [eauto|]. destruct (G j i f e H Ef Ee) as [r [A B]]. eauto.
Qed.
(** ** C31: the images of the Artin generators *)
Lemma mapM_Forall2 {A B} (f : A -> res B) (P : A -> B -> Prop) l : (forall x, In x l -> exists y, f x = Ok y /\ P x y) -> exists l', mapM f l = Ok l' /\ Forall2 P l l'.
Proof.
  induction l as [|x l IH]; cbn [mapM]; intros H; [exists []; split; [reflexivity|constructor]|]. destruct (H x (or_introl eq_refl)) as [y [-> Py]]. destruct IH as [l' [-> Fl]]; [intros; apply H; now right|].
  cbn [bind]. exists (y :: l'). split; [reflexivity|now constructor].
Qed.
Lemma Forall2_nth_error {A B} (P : A -> B -> Prop) l l' : Forall2 P l l' -> forall i x, nth_error l i = Some x -> exists y, nth_error l' i = Some y /\ P x y.
Proof. induction 1; intros [|i] z E; cbn in *; try discriminate; [injection E as <-; eauto|eauto]. Qed.
Lemma Forall2_comp {A B C} (P : A -> B -> Prop) (Q : B -> C -> Prop) l l' l'' : Forall2 P l l' -> Forall2 Q l' l'' -> Forall2 (fun x z => exists y, P x y /\ Q y z) l l''.
Proof. intros H. revert l''. induction H; intros l'' K; inversion K; subst; constructor; eauto. Qed.
Lemma Forall2_imp {A B} (P Q : A -> B -> Prop) l l' : (forall x y, P x y -> Q x y) -> Forall2 P l l' -> Forall2 Q l l'.
Proof. intros H. induction 1; constructor; auto. Qed.
Lemma Forall2_len {A B} (P : A -> B -> Prop) l l' : Forall2 P l l' -> length l' = length l.
Proof. induction 1; cbn; auto. Qed.
Lemma gens_invs_ok n : exists gs hs, tl_gens_invs n = Ok (gs, hs) /\ Forall2 (fun i g => i + 1 < n /\ is_lin n (lneg vL) i g) (seq 0 (n - 1)) gs /\ Forall2 (fun i h => i + 1 < n /\ is_lin n (lneg vinv) i h) (seq 0 (n - 1)) hs.
Proof.
  unfold tl_gens_invs. destruct (mapM_Forall2 (fun i => mor_e i n) (fun i e => i + 1 < n /\ mor_e i n = Ok e) (seq 0 (n - 1))) as [es [-> Fe]].
  { intros i Hi. apply in_seq in Hi. destruct (mor_e_ok i n ltac:(lia)) as [e [E _]]. exists e. split; [exact E|]. split; [lia|exact E]. }
  cbn [bind]. rewrite vinv_ok. cbn [bind].
  assert (He : forall e, In e es -> exists i, i + 1 < n /\ mor_e i n = Ok e).
  { clear -Fe. induction Fe as [|i e l l' [H1 H2] _ IH]; intros x Hx; [destruct Hx|]. destruct Hx as [<-|Hx]; eauto. }
  destruct (mapM_Forall2 (tl_gen vinv) (fun e g => forall i, i + 1 < n -> mor_e i n = Ok e -> is_lin n (lneg vL) i g) es) as [gs [-> Fg]].
  { intros e Hx. destruct (He e Hx) as [i [Hi Ei]]. destruct (gen_lin n i e Hi Ei) as [g [Eg Lg]]. exists g. split; [exact Eg|]. intros j Hj Ej. destruct (gen_lin n j e Hj Ej) as [g' [Eg' Lg']]. congruence. }
  destruct (mapM_Forall2 (tl_inv vinv) (fun e g => forall i, i + 1 < n -> mor_e i n = Ok e -> is_lin n (lneg vinv) i g) es) as [hs [-> Fh]].
  { intros e Hx. destruct (He e Hx) as [i [Hi Ei]]. destruct (inv_lin n i e Hi Ei) as [g [Eg Lg]]. exists g. split; [exact Eg|]. intros j Hj Ej. destruct (inv_lin n j e Hj Ej) as [g' [Eg' Lg']]. congruence. }
  cbn [bind].
  assert (Fg' : Forall2 (fun i g => i + 1 < n /\ is_lin n (lneg vL) i g) (seq 0 (n - 1)) gs).
  { generalize (Forall2_comp _ _ _ _ _ Fe Fg). apply Forall2_imp. intros i g [e [[H1 H2] H3]]. split; auto. }
  assert (Fh' : Forall2 (fun i g => i + 1 < n /\ is_lin n (lneg vinv) i g) (seq 0 (n - 1)) hs).
  { generalize (Forall2_comp _ _ _ _ _ Fe Fh). apply Forall2_imp. intros i g [e [[H1 H2] H3]]. split; auto. }
  exists gs, hs. split; [|split; assumption].
  assert (A : foldM (fun (_ : unit) '(x, y) => p <- mor_mul x y ;; i <- mor_id n ;; assert_ (mor_eqb p i)) (combine gs hs) tt = Ok tt).
  { clear He Fe Fg Fh. revert hs Fh'. induction Fg' as [|i g l l' [Hi Hg] _ IH]; intros hs Fh'; inversion Fh' as [|? h ? hs' [_ Hh] Fh'']; subst; cbn [combine foldM]; [reflexivity|].
    destruct (sqm_mul n g h (proj1 Hg) (proj1 Hh)) as [r [Er [Sr _]]]. rewrite Er. cbn [bind]. pose proof (lin_inv n (lneg vL) (lneg vinv) i g h r Hi Hg Hh ltac:(reflexivity) Er) as K. rewrite K in IH |- *. cbn [bind] in IH |- *.
    rewrite (proj2 (C36_eqb r r ltac:(apply morphism_wf, Sr) ltac:(apply morphism_wf, Sr)) eq_refl). cbn [assert_ bind]. now apply IH. }
  rewrite A. reflexivity.
Qed.
(** tl_gens_invs(n) returns n-1 generators and n-1 inverses (its assertion never
    fires); generator i is 1 - v e_i and inverse i is 1 - v^-1 e_i *)
Theorem C31_gens_invs n : exists gs hs, tl_gens_invs n = Ok (gs, hs) /\ length gs = n - 1 /\ length hs = n - 1 /\
  forall i, i + 1 < n -> exists g h e one a b, nth_error gs i = Some g /\ nth_error hs i = Some h /\ mor_e i n = Ok e /\ mor_id n = Ok one /\
     mor_scale e (NL (lpoly_make 1 [-1]%Z)) = Ok a /\ mor_add one a = Ok g /\ mor_scale e (NL (lpoly_make (-1) [-1]%Z)) = Ok b /\ mor_add one b = Ok h.
Proof.
  destruct (gens_invs_ok n) as [gs [hs [E [Fg Fh]]]]. exists gs, hs. split; [exact E|]. split; [apply Forall2_len in Fg; now rewrite seq_length in Fg|]. split; [apply Forall2_len in Fh; now rewrite seq_length in Fh|].
  intros i Hi. assert (Si : nth_error (seq 0 (n - 1)) i = Some i) by (rewrite (nth_error_nth' _ 0) by (rewrite seq_length; lia); f_equal; rewrite seq_nth by lia; reflexivity).
  destruct (Forall2_nth_error _ _ _ Fg i i Si) as [g [Eg [_ Lg]]], (Forall2_nth_error _ _ _ Fh i i Si) as [h [Eh [_ Lh]]].
  destruct (mor_e_ok i n Hi) as [e [Ee [We [Te [Be Se]]]]], (mor_id_ok n) as [u [Eu [Wu [Tu [Bu Su]]]]].
  destruct (mor_scale_ok e (NL (lpoly_make 1 [-1]%Z)) We) as [a [Ea [Wa [Ta [Ba Sa]]]]], (mor_scale_ok e (NL (lpoly_make (-1) [-1]%Z)) We) as [b [Eb [Wb [Tb [Bb Sb]]]]].
  exists g, h, e, u, a, b. repeat (split; [assumption|]). split; [|split; [exact Eb|]].
  - destruct (mor_add_ok u a Wu Wa ltac:(congruence) ltac:(congruence)) as [r [-> [Wr [Tr [Br Sr]]]]]. f_equal. destruct Lg as [Sg Lg]. apply (sqm_eq n); auto; [split; [exact Wr|split; congruence]|]. intros F. rewrite Sr, Lg, Su, Sa, Se. reflexivity.
  - destruct (mor_add_ok u b Wu Wb ltac:(congruence) ltac:(congruence)) as [r [-> [Wr [Tr [Br Sr]]]]]. f_equal. destruct Lh as [Sg Lh]. apply (sqm_eq n); auto; [split; [exact Wr|split; congruence]|]. intros F. rewrite Sr, Lh, Su, Sb, Se. reflexivity.
Qed.
Lemma gens_lin n gs hs i g : tl_gens_invs n = Ok (gs, hs) -> nth_error gs i = Some g -> i + 1 < n /\ is_lin n (lneg vL) i g.
Proof.
  intros E Eg. destruct (gens_invs_ok n) as [gs' [hs' [E' [Fg Fh]]]]. rewrite E in E'. injection E' as <- <-.
  assert (Hi : i < n - 1). { apply Forall2_len in Fg. rewrite seq_length in Fg. rewrite <- Fg. apply nth_error_Some. congruence. }
  assert (Si : nth_error (seq 0 (n - 1)) i = Some i) by (rewrite (nth_error_nth' _ 0) by (rewrite seq_length; lia); f_equal; rewrite seq_nth by lia; reflexivity).
  destruct (Forall2_nth_error _ _ _ Fg i i Si) as [g' [Eg' K]]. rewrite Eg in Eg'. injection Eg' as <-. exact K.
Qed.
Lemma invs_lin n gs hs i g : tl_gens_invs n = Ok (gs, hs) -> nth_error hs i = Some g -> i + 1 < n /\ is_lin n (lneg vinv) i g.
Proof.
  intros E Eg. destruct (gens_invs_ok n) as [gs' [hs' [E' [Fg Fh]]]]. rewrite E in E'. injection E' as <- <-.
  assert (Hi : i < n - 1). { apply Forall2_len in Fh. rewrite seq_length in Fh. rewrite <- Fh. apply nth_error_Some. congruence. }
  assert (Si : nth_error (seq 0 (n - 1)) i = Some i) by (rewrite (nth_error_nth' _ 0) by (rewrite seq_length; lia); f_equal; rewrite seq_nth by lia; reflexivity).
  destruct (Forall2_nth_error _ _ _ Fh i i Si) as [g' [Eg' K]]. rewrite Eg in Eg'. injection Eg' as <-. exact K.
Qed.
Theorem C31_inverse n gs hs i g h : tl_gens_invs n = Ok (gs, hs) -> nth_error gs i = Some g -> nth_error hs i = Some h ->
  exists one, mor_id n = Ok one /\ mor_mul g h = Ok one /\ mor_mul h g = Ok one.
Proof.
  intros E Eg Eh. destruct (gens_lin _ _ _ _ _ E Eg) as [Hi Lg], (invs_lin _ _ _ _ _ E Eh) as [_ Lh].
  destruct (sqm_mul n g h (proj1 Lg) (proj1 Lh)) as [r [Er _]], (sqm_mul n h g (proj1 Lh) (proj1 Lg)) as [s [Es _]].
  pose proof (lin_inv n _ _ i g h r Hi Lg Lh ltac:(reflexivity) Er) as A. pose proof (lin_inv n _ _ i h g s Hi Lh Lg ltac:(reflexivity) Es) as B. exists r. repeat split; auto. congruence.
Qed.
Theorem C31_braid_relation n gs hs i g g' : tl_gens_invs n = Ok (gs, hs) -> nth_error gs i = Some g -> nth_error gs (i + 1) = Some g' ->
  exists gg' g'g r, mor_mul g g' = Ok gg' /\ mor_mul g' g = Ok g'g /\ mor_mul gg' g = Ok r /\ mor_mul g'g g' = Ok r.
Proof.
  intros E Eg Eh. destruct (gens_lin _ _ _ _ _ E Eg) as [Hi Lg], (gens_lin _ _ _ _ _ E Eh) as [Hj Lh].
  destruct (sqm_mul n g g' (proj1 Lg) (proj1 Lh)) as [x [Ex _]], (sqm_mul n g' g (proj1 Lh) (proj1 Lg)) as [y [Ey _]].
  destruct (lin_braid n (lneg vL) i g g' x y) as [r [R1 R2]]; auto; [lia|reflexivity|]. exists x, y, r. auto.
Qed.
Theorem C31_far_commutation n gs hs i j g g' : tl_gens_invs n = Ok (gs, hs) -> i + 1 < j \/ j + 1 < i -> nth_error gs i = Some g -> nth_error gs j = Some g' ->
  exists r, mor_mul g g' = Ok r /\ mor_mul g' g = Ok r.
Proof.
  intros E H Eg Eh. destruct (gens_lin _ _ _ _ _ E Eg) as [Hi Lg], (gens_lin _ _ _ _ _ E Eh) as [Hj Lh].
  destruct (sqm_mul n g g' (proj1 Lg) (proj1 Lh)) as [x [Ex _]], (sqm_mul n g' g (proj1 Lh) (proj1 Lg)) as [y [Ey _]]. destruct H as [H|H].
  - exists x. split; [exact Ex|]. now apply (lin_far n (lneg vL) i j g g').
  - exists y. split; [|exact Ey]. now apply (lin_far n (lneg vL) j i g' g).
Qed.
(** a concrete case: the three generators of B_4 *)
Example C31_nontrivial : exists gs hs, tl_gens_invs 4 = Ok (gs, hs) /\ map (fun g => length (moterms g)) gs = [2; 2; 2] /\ map (fun g => length (moterms g)) hs = [2; 2; 2].
Proof. do 2 eexists. split; [vm_compute; reflexivity|]. split; reflexivity. Qed.

(** ** C35: TLMor.flip *)
(** Whatever twist_v is, flip turns the diagrams upside down and replaces v by
    v^-1 in the coefficients; it is an involution and reverses products. *)
Theorem C35_mor_flip b x : morphism x -> exists r, mor_flip b x = Ok r /\ morphism r /\ motop r = mobot x /\ mobot r = motop x /\ mor_flip b r = Ok x /\
  forall d f c, of_type (motop x) (mobot x) d -> tld_flip d = Ok f -> has_coef x d c -> exists c', has_coef r f c' /\ forall k, coef c' k = coef c (- k).
Proof.
  intros Hx. apply morphism_wf in Hx. destruct (mor_flip_ok b x Hx) as [r [E [W [T [B S]]]]]. exists r. split; [exact E|]. split; [now apply morphism_wf|]. split; [exact T|]. split; [exact B|]. split; [now apply (mor_flip_flip b b x)|].
  intros d f c Td Ef Hc. pose proof Td as [Dd [T1 T2]]. destruct (dflip_ok d Dd) as [E' Df]. rewrite Ef in E'. injection E' as ->. exists (lbar c). split; [|apply coef_bar].
  apply has_coef_eq; [exact W|rewrite T, B; now apply dflip_type|apply canon_bar|]. rewrite S. apply lbar_proper. rewrite <- (has_coef_sum x d c Hx Td Hc). apply msum_ext. intros y Hy. unfold ddelta.
  pose proof (id_typed _ _ _ (wf_dict _ Hx) _ Hy) as [Dy _]. destruct (diag_eqb_spec (dflip d) (dflip (fst y))) as [K|K], (diag_eqb_spec d (fst y)) as [K'|K']; try (now rewrite lbar_int).
  - exfalso. apply K'. rewrite <- (dflip_dflip d Dd), K. now apply dflip_dflip.
  - exfalso. apply K. now rewrite K'.
Qed.
Theorem C35_mor_flip_product b x y xy : morphism x -> morphism y -> mor_mul x y = Ok xy ->
  exists fx fy r, mor_flip b x = Ok fx /\ mor_flip b y = Ok fy /\ mor_flip b xy = Ok r /\ mor_mul fy fx = Ok r.
Proof. intros Hx Hy. apply morphism_wf in Hx, Hy. now apply mor_flip_mul. Qed.
(** The documented behaviour of twist_v=False (coefficients unchanged) is false:
    flipping v * id gives v^-1 * id. *)
Theorem C35_twist_v_refuted : exists x r d f c, morphism x /\ mor_flip false x = Ok r /\ of_type (motop x) (mobot x) d /\ tld_flip d = Ok f /\ has_coef x d c /\ ~ has_coef r f c.
Proof.
  set (x := mkMor 1 1 [(mkD 1 1 [1; 0], lpoly_make 1 [1]%Z)]).
  assert (Dd : diagram (mkD 1 1 [1; 0])) by (exact (diagram_id 1)).
  exists x. do 2 eexists. exists (mkD 1 1 [1; 0]), (lpoly_make 1 [1]%Z). split.
  { exists 1, 1, [(mkD 1 1 [1; 0], lpoly_make 1 [1]%Z)]. split; [|reflexivity]. split; [repeat constructor; intros []|]. intros d c [[= <- <-]|[]]. split; [exact Dd|]. now exists 1%Z, [1%Z]. }
  split; [vm_compute; reflexivity|]. split; [split; [exact Dd|auto]|]. split; [vm_compute; reflexivity|]. split; [reflexivity|]. vm_compute. discriminate.
Qed.
