(** TLGens.v – products of the diagrams e_i and of the images of the Artin
    generators in the Temperley-Lieb algebra. *)
From Verif Require Import Base ModelPoly SpecPoly PolyTheory PolyDiv EvalTheory PropsPoly ModelTL SpecTL TLTheory TLAlg TLAlg2 TLBasis TLCells TLRel PropsTL ModelMatrix ModelTLMor TLMorTheory.
From Coq Require Import Ring Setoid Morphisms.
Local Open Scope nat_scope.

Lemma dprod_of u l s k n : diagram u -> diagram l -> dtop u = n -> dbot u = n -> dtop l = n -> dbot l = n -> compose (dseq u) (dseq l) n = Ok (s, k) -> dprod u l = (mkD n n s, k).
Proof.
  intros Du Dl A B C D E. pose proof (C29_mul u l Du Dl) as K. rewrite B, C, Nat.eqb_refl in K. destruct K as [z [m [K [Dz [Tz [Bz _]]]]]]. unfold dprod. rewrite K.
  unfold tld_mul in K. rewrite B, C, Nat.eqb_refl in K. cbn [negb] in K. rewrite E in K. cbn [bind] in K. rewrite A, D in K. unfold tld in K. destruct (assert_ (n + n =? length s)); cbn [bind] in K; [|discriminate]. destruct (is_cm s) as [[]|]; cbn [bind assert_] in K; [|discriminate..]. injection K as <- <-. reflexivity.
Qed.
Section N.
Variables (n : nat).
Let D i : diag := de i n.
Lemma de_type i : i + 1 < n -> typed n n (D i). Proof. intros H. split; [now apply diagram_e|auto]. Qed.
Lemma did_type : typed n n (did n). Proof. split; [apply diagram_id|auto]. Qed.
Lemma dp_ee i : i + 1 < n -> dprod (D i) (D i) = (D i, 1).
Proof. intros H. apply (dprod_of _ _ _ _ n); auto; try now apply diagram_e. now apply e_e. Qed.
Lemma dp_adj i : i + 2 < n -> exists p q, typed n n p /\ typed n n q /\ dprod (D i) (D (i + 1)) = (p, 0) /\ dprod p (D i) = (D i, 0) /\ dprod (D (i + 1)) (D i) = (q, 0) /\ dprod q (D (i + 1)) = (D (i + 1), 0).
Proof.
  intros H. destruct (e_e_e i n H) as [p [q [m1 [m2 [E1 [E2 [E3 [E4 [-> ->]]]]]]]]].
  assert (D1 : diagram (D i)) by (apply diagram_e; lia). assert (D2 : diagram (D (i + 1))) by (apply diagram_e; lia).
  pose proof (dprod_of (D i) (D (i + 1)) p 0 n D1 D2 eq_refl eq_refl eq_refl eq_refl E1) as P1. pose proof (dprod_of (D (i + 1)) (D i) q 0 n D2 D1 eq_refl eq_refl eq_refl eq_refl E3) as P2.
  assert (T1 : typed n n (mkD n n p)) by (pose proof (proj2 (dprod_ok (D i) (D (i + 1)) D1 D2 eq_refl)) as K; now rewrite P1 in K).
  assert (T2 : typed n n (mkD n n q)) by (pose proof (proj2 (dprod_ok (D (i + 1)) (D i) D2 D1 eq_refl)) as K; now rewrite P2 in K).
  exists (mkD n n p), (mkD n n q). split; [exact T1|]. split; [exact T2|]. split; [exact P1|]. split; [|split; [exact P2|]].
  - apply (dprod_of _ _ _ _ n); auto. apply T1.
  - apply (dprod_of _ _ _ _ n); auto. apply T2.
Qed.
Lemma dp_far i j : i + 1 < j -> j + 1 < n -> exists p, typed n n p /\ dprod (D i) (D j) = (p, 0) /\ dprod (D j) (D i) = (p, 0).
Proof.
  intros H1 H2. destruct (e_far i j n H1 H2) as [p [E1 E2]]. assert (D1 : diagram (D i)) by (apply diagram_e; lia). assert (D2 : diagram (D j)) by (apply diagram_e; lia).
  pose proof (dprod_of (D i) (D j) p 0 n D1 D2 eq_refl eq_refl eq_refl eq_refl E1) as P1. pose proof (dprod_of (D j) (D i) p 0 n D2 D1 eq_refl eq_refl eq_refl eq_refl E2) as P2.
  exists (mkD n n p). split; [|auto]. pose proof (proj2 (dprod_ok (D i) (D j) D1 D2 eq_refl)) as K. now rewrite P1 in K.
Qed.
Lemma dp_idl d : typed n n d -> dprod (did n) d = (d, 0). Proof. intros [A [B C]]. rewrite <- B. now apply dprod_id_l. Qed.
Lemma dp_idr d : typed n n d -> dprod d (did n) = (d, 0). Proof. intros [A [B C]]. rewrite <- C. now apply dprod_id_r. Qed.

(** elements 1 + a e_i *)
Definition sqm (m : mor) : Prop := wf m /\ motop m = n /\ mobot m = n.
Definition is_lin (a : lpoly) (i : nat) (g : mor) : Prop := sqm g /\ forall F, leq (msum (moterms g) F) (ladd (F (did n)) (lmul a (F (D i)))).
Lemma sqm_mul x y : sqm x -> sqm y -> exists r, mor_mul x y = Ok r /\ sqm r /\ forall F, leq (msum (moterms r) F) (bil (moterms x) (moterms y) F).
Proof. intros [Wx [Tx Bx]] [Wy [Ty By]]. destruct (mor_mul_ok x y Wx Wy ltac:(congruence)) as [r [E [W [T [B S]]]]]. exists r. split; [exact E|]. split; [|exact S]. split; [exact W|]. split; congruence. Qed.
Lemma sqm_id : exists r, mor_id n = Ok r /\ sqm r /\ forall F, leq (msum (moterms r) F) (F (did n)).
Proof. destruct (mor_id_ok n) as [i [E [W [T [B S]]]]]. exists i. split; [exact E|]. split; [|exact S]. split; [exact W|auto]. Qed.
Lemma sqm_eq x y : sqm x -> sqm y -> (forall F, leq (msum (moterms x) F) (msum (moterms y) F)) -> x = y.
Proof. intros [Wx [Tx Bx]] [Wy [Ty By]]. apply wf_eqF; auto; congruence. Qed.
Lemma q2_0 : leq (q2 0) (lint 1). Proof. reflexivity. Qed.
Lemma q2_1 : leq (q2 1) Q2. Proof. unfold q2. cbn [lpn]. ring. Qed.
Lemma bil_lin_l a i g y F : is_lin a i g -> leq (bil (moterms g) y F) (ladd (msum y (fun l => lmul (q2 (snd (dprod (did n) l))) (F (fst (dprod (did n) l))))) (lmul a (msum y (fun l => lmul (q2 (snd (dprod (D i) l))) (F (fst (dprod (D i) l))))))).
Proof. intros [_ S]. unfold bil. now rewrite S. Qed.
Lemma lin_lin a b i j g h : i + 1 < n -> j + 1 < n -> is_lin a i g -> is_lin b j h -> forall F, leq (bil (moterms g) (moterms h) F)
  (ladd (ladd (F (did n)) (lmul b (F (D j)))) (ladd (lmul a (F (D i))) (lmul (lmul a b) (lmul (q2 (snd (dprod (D i) (D j)))) (F (fst (dprod (D i) (D j)))))))).
Proof.
  intros Hi Hj G H F. rewrite (bil_lin_l a i g _ F G). destruct H as [_ S]. rewrite !S, (dp_idl (did n) did_type), (dp_idl (D j) (de_type j Hj)), (dp_idr (D i) (de_type i Hi)). cbn [fst snd]. rewrite q2_0. ring.
Qed.
(** inverse *)
Lemma lin_inv a b i g h r : i + 1 < n -> is_lin a i g -> is_lin b i h -> leq (ladd (ladd a b) (lmul (lmul a b) Q2)) (lint 0) -> mor_mul g h = Ok r -> mor_id n = Ok r.
Proof.
  intros Hi G H E M. destruct (sqm_mul g h (proj1 G) (proj1 H)) as [r' [Er [Sr S]]]. rewrite M in Er. injection Er as <-.
  destruct sqm_id as [u [Eu [Su Fu]]]. rewrite Eu. f_equal. apply sqm_eq; auto. intros F. rewrite Fu, S, (lin_lin a b i i g h Hi Hi G H F), (dp_ee i Hi). cbn [fst snd]. rewrite q2_1.
  transitivity (ladd (F (did n)) (lmul (ladd (ladd a b) (lmul (lmul a b) Q2)) (F (D i)))); [|ring]. rewrite E. ring.
Qed.
Lemma lin_far a i j g h r : i + 1 < j -> j + 1 < n -> is_lin a i g -> is_lin a j h -> mor_mul g h = Ok r -> mor_mul h g = Ok r.
Proof.
  intros Hi Hj G H M. destruct (sqm_mul g h (proj1 G) (proj1 H)) as [r' [Er [Sr S]]]. rewrite M in Er. injection Er as <-.
  destruct (sqm_mul h g (proj1 H) (proj1 G)) as [u [Eu [Su Fu]]]. rewrite Eu. f_equal. apply sqm_eq; auto. intros F.
  rewrite Fu, S, (lin_lin a a i j g h), (lin_lin a a j i h g) by (auto; lia). destruct (dp_far i j Hi Hj) as [p [_ [-> ->]]]. cbn [fst snd]. ring.
Qed.
(** braid relation: both triple products have the same value *)
Definition trip (a : lpoly) (i : nat) (p q : diag) (F : diag -> lpoly) : lpoly :=
  ladd (F (did n)) (ladd (lmul a (ladd (F (D i)) (F (D (i + 1))))) (lmul (lmul a a) (ladd (F p) (F q)))).
Lemma lin_braid a i g h gh hg : i + 2 < n -> is_lin a i g -> is_lin a (i + 1) h -> leq (ladd (ladd (lint 1) (lmul a Q2)) (lmul a a)) (lint 0) ->
  mor_mul g h = Ok gh -> mor_mul h g = Ok hg -> exists r, mor_mul gh g = Ok r /\ mor_mul hg h = Ok r.
Proof.
  intros Hi G H R E1 E2. destruct (dp_adj i Hi) as [p [q [Tp [Tq [P1 [P2 [P3 P4]]]]]]].
  destruct (sqm_mul g h (proj1 G) (proj1 H)) as [? [E [S1 F1]]]. rewrite E1 in E. injection E as <-. destruct (sqm_mul h g (proj1 H) (proj1 G)) as [? [E [S2 F2]]]. rewrite E2 in E. injection E as <-.
  destruct (sqm_mul gh g S1 (proj1 G)) as [r [E3 [S3 F3]]]. destruct (sqm_mul hg h S2 (proj1 H)) as [s [E4 [S4 F4]]]. exists r. split; [exact E3|]. rewrite E4. f_equal. symmetry. apply sqm_eq; auto.
  assert (Hi1 : i + 1 < n) by lia. assert (Hj1 : i + 1 + 1 < n) by lia. pose proof (de_type i Hi1) as Ti. pose proof (de_type _ Hj1) as Tj.
  assert (AF : forall X, leq (lmul a X) (ladd (ladd (lmul a (ladd X X)) (lmul (lmul (lmul a a) Q2) X)) (lmul (lmul (lmul a a) a) X))).
  { intros X. transitivity (ladd (lmul a X) (lmul (lmul (ladd (ladd (lint 1) (lmul a Q2)) (lmul a a)) a) X)); [rewrite R; ring|ring]. }
  intros F. rewrite F3, F4. unfold bil. rewrite F1, F2, (lin_lin a a i (i + 1) g h Hi1 Hj1 G H), (lin_lin a a (i + 1) i h g Hj1 Hi1 H G), P1, P3. cbn [fst snd].
  pose proof (proj2 G) as Fg. pose proof (proj2 H) as Fh. rewrite !Fg, !Fh.
  rewrite P2, P4, (dp_idl (did n) did_type), (dp_idl (D i) Ti), (dp_idl (D (i + 1)) Tj), !(dp_idr (D i) Ti), !(dp_idr (D (i + 1)) Tj), (dp_idr p Tp), (dp_idr q Tq), P1, P3, (dp_ee i Hi1), (dp_ee (i + 1) Hj1). cbn [fst snd]. rewrite !q2_0, !q2_1.
  transitivity (trip a i p q F).
  - unfold trip. transitivity (ladd (F (did n)) (ladd (ladd (ladd (ladd (lmul a (ladd (F (D i)) (F (D i)))) (lmul (lmul (lmul a a) Q2) (F (D i)))) (lmul (lmul (lmul a a) a) (F (D i)))) (lmul a (F (D (i + 1))))) (lmul (lmul a a) (ladd (F p) (F q))))); [ring|]. rewrite <- AF. ring.
  - unfold trip. symmetry. transitivity (ladd (F (did n)) (ladd (ladd (ladd (ladd (lmul a (ladd (F (D (i + 1))) (F (D (i + 1))))) (lmul (lmul (lmul a a) Q2) (F (D (i + 1))))) (lmul (lmul (lmul a a) a) (F (D (i + 1))))) (lmul a (F (D i)))) (lmul (lmul a a) (ladd (F p) (F q))))); [ring|]. rewrite <- AF. ring.
Qed.
(** the generators *)
Definition vinv : lpoly := lpoly_make (-1) [1]%Z.
Lemma vinv_ok : lpow vL (-1) = Ok vinv. Proof. reflexivity. Qed.
Lemma gen_lin i e : i + 1 < n -> mor_e i n = Ok e -> exists g, tl_gen vinv e = Ok g /\ is_lin (lneg vL) i g.
Proof.
  intros Hi Ee. destruct (mor_e_ok i n Hi) as [? [E [We [Te [Be Se]]]]]. rewrite Ee in E. injection E as <-. unfold tl_gen, mor_subn, mor_addn. cbn [nneg coerce]. rewrite Te, Be, Nat.eqb_refl.
  destruct (mor_id_ok n) as [u [Eu [Wu [Tu [Bu Su]]]]]. rewrite Eu. cbn [bind]. destruct (mor_scale_ok u (NL (lneg vinv)) Wu) as [s [Es [Ws [Ts [Bs Ss]]]]]. rewrite Es. cbn [bind].
  destruct (mor_add_ok e s We Ws ltac:(congruence) ltac:(congruence)) as [t [Et [Wt [Tt [Bt St]]]]]. rewrite Et. cbn [bind].
  destruct (mor_scale_ok t (NL (lneg vL)) Wt) as [g [Eg [Wg [Tg [Bg Sg]]]]]. exists g. split; [exact Eg|]. split; [split; [exact Wg|split; congruence]|]. intros F. rewrite Sg, St, Ss, Se, Su. cbn [coerce].
  assert (R : leq (lmul (lneg vL) (lneg vinv)) (lint 1)) by reflexivity.
  transitivity (ladd (lmul (lmul (lneg vL) (lneg vinv)) (F (did n))) (lmul (lneg vL) (F (D i)))); [unfold D; ring|]. rewrite R. ring.
Qed.
Lemma inv_lin i e : i + 1 < n -> mor_e i n = Ok e -> exists g, tl_inv vinv e = Ok g /\ is_lin (lneg vinv) i g.
Proof.
  intros Hi Ee. destruct (mor_e_ok i n Hi) as [? [E [We [Te [Be Se]]]]]. rewrite Ee in E. injection E as <-. unfold tl_inv, mor_subn, mor_addn. cbn [nneg coerce]. rewrite Te, Be, Nat.eqb_refl.
  destruct (mor_id_ok n) as [u [Eu [Wu [Tu [Bu Su]]]]]. rewrite Eu. cbn [bind]. destruct (mor_scale_ok u (NL (lneg vL)) Wu) as [s [Es [Ws [Ts [Bs Ss]]]]]. rewrite Es. cbn [bind].
  destruct (mor_add_ok e s We Ws ltac:(congruence) ltac:(congruence)) as [t [Et [Wt [Tt [Bt St]]]]]. rewrite Et. cbn [bind].
  destruct (mor_scale_ok t (NL (lneg vinv)) Wt) as [g [Eg [Wg [Tg [Bg Sg]]]]]. exists g. split; [exact Eg|]. split; [split; [exact Wg|split; congruence]|]. intros F. rewrite Sg, St, Ss, Se, Su. cbn [coerce].
  assert (R : leq (lmul (lneg vinv) (lneg vL)) (lint 1)) by reflexivity.
  transitivity (ladd (lmul (lmul (lneg vinv) (lneg vL)) (F (did n))) (lmul (lneg vinv) (F (D i)))); [unfold D; ring|]. rewrite R. ring.
Qed.
End N.
