(** Germ.v – abstract Garside germ theory.

    [T] is a type of "simple" elements with a partial product: [red x y] says
    that the product of x and y is again simple, [mul x y] is that product.
    Everything in this file is a consequence of the laws in [Germ]; the two
    instances are permutations (weak order) and noncrossing partitions. *)
From Verif Require Import Base.

Record Germ := {
  T : Type;
  one : T;
  D : T;
  red : T -> T -> Prop;
  mul : T -> T -> T;
  lc : T -> T;          (* left complement:  lc x . x = D *)
  rc : T -> T;          (* right complement: x . rc x = D *)
  red_1l : forall x, red one x;
  red_1r : forall x, red x one;
  mul_1l : forall x, mul one x = x;
  mul_1r : forall x, mul x one = x;
  assoc_r : forall x y z, red x y -> red (mul x y) z ->
      red y z /\ red x (mul y z) /\ mul (mul x y) z = mul x (mul y z);
  assoc_l : forall x y z, red y z -> red x (mul y z) ->
      red x y /\ red (mul x y) z /\ mul (mul x y) z = mul x (mul y z);
  cancel_l : forall x y z, red x y -> red x z -> mul x y = mul x z -> y = z;
  cancel_r : forall x y z, red x z -> red y z -> mul x z = mul y z -> x = y;
  no_unit : forall x y, red x y -> mul x y = one -> x = one;
  red_lc : forall x, red (lc x) x;
  mul_lc : forall x, mul (lc x) x = D;
  red_rc : forall x, red x (rc x);
  mul_rc : forall x, mul x (rc x) = D;
  head_ex : forall x y, exists c d, red c d /\ mul c d = y /\ red x c /\
      forall e f, red e f -> mul e f = y -> red x e -> exists g, red e g /\ mul e g = c
}.

Section GermTheory.
Variable G : Germ.
Notation T := (T G).
Notation one := (one G).
Notation D := (D G).
Notation red := (red G).
Notation "x * y" := (mul G x y).
Notation lc := (lc G).
Notation rc := (rc G).

Implicit Types a b c d e f g x y z w : T.

Definition le e y := exists f, red e f /\ e * f = y.
Definition nrm x y := forall e, le e y -> red x e -> e = one.
(** specification of renormalisation: (x,y) -> (w,z) *)
Definition rnspec x y w z := exists c, red x c /\ x * c = w /\ red c z /\ c * z = y /\ nrm w z.

Lemma le_refl x : le x x.
Proof. exists one. split; [apply red_1r|apply mul_1r]. Qed.

Lemma le_one x : le one x.
Proof. exists x. split; [apply red_1l|apply mul_1l]. Qed.

Lemma le_mul x y : red x y -> le x (x * y).
Proof. intros H. exists y. now split. Qed.

Lemma le_trans x y z : le x y -> le y z -> le x z.
Proof.
  intros [f [Hf <-]] [g [Hg <-]].
  destruct (assoc_r G x f g Hf Hg) as [H1 [H2 H3]]. exists (f * g). split; [exact H2|now symmetry].
Qed.

Lemma no_unit_r x y : red x y -> x * y = one -> y = one.
Proof.
  intros H E. pose proof (no_unit G _ _ H E) as ->. now rewrite (mul_1l G) in E.
Qed.

Lemma le_antisym x y : le x y -> le y x -> x = y.
Proof.
  intros [f [Hf <-]] [g [Hg E]].
  destruct (assoc_r G x f g Hf Hg) as [H1 [H2 H3]].
  assert (f * g = one).
  { apply (cancel_l G x); [exact H2|apply red_1r|]. now rewrite (mul_1r G), <- H3. }
  pose proof (no_unit G _ _ H1 H) as ->. now rewrite (mul_1r G).
Qed.

Lemma le_one_inv x : le x one -> x = one.
Proof. intros [f [Hf E]]. exact (no_unit G _ _ Hf E). Qed.

Lemma le_red_r x y z : red x z -> le y z -> red x y.
Proof.
  intros H [f [Hf <-]]. destruct (assoc_l G x y f Hf H) as [H1 _]. exact H1.
Qed.

Lemma le_mul_l x y z : red x y -> red x z -> le y z -> le (x * y) (x * z).
Proof.
  intros Hy Hz [f [Hf <-]]. destruct (assoc_l G x y f Hf Hz) as [H1 [H2 H3]].
  exists f. now split.
Qed.

Lemma le_mul_l_inv x y z : red x y -> red x z -> le (x * y) (x * z) -> le y z.
Proof.
  intros Hy Hz [f [Hf E]]. destruct (assoc_r G x y f Hy Hf) as [H1 [H2 H3]].
  exists f. split; [exact H1|]. apply (cancel_l G x); [exact H2|exact Hz|congruence].
Qed.

Lemma le_D x : le x D.
Proof. exists (rc x). split; [apply red_rc|apply mul_rc]. Qed.

(** red in the middle: red (xy) z gives red y z. *)
Lemma red_mul_l x y z : red x y -> red (x * y) z -> red y z.
Proof. intros H1 H2. now destruct (assoc_r G x y z H1 H2). Qed.
Lemma red_mul_l2 x y z : red x y -> red (x * y) z -> red x (y * z).
Proof. intros H1 H2. now destruct (assoc_r G x y z H1 H2) as [_ [H _]]. Qed.
Lemma red_mul_r x y z : red y z -> red x (y * z) -> red x y.
Proof. intros H1 H2. now destruct (assoc_l G x y z H1 H2). Qed.
Lemma red_mul_r2 x y z : red y z -> red x (y * z) -> red (x * y) z.
Proof. intros H1 H2. now destruct (assoc_l G x y z H1 H2) as [_ [H _]]. Qed.
Lemma assoc_r_eq x y z : red x y -> red (x * y) z -> (x * y) * z = x * (y * z).
Proof. intros H1 H2. now destruct (assoc_r G x y z H1 H2) as [_ [_ H]]. Qed.
Lemma assoc_l_eq x y z : red y z -> red x (y * z) -> (x * y) * z = x * (y * z).
Proof. intros H1 H2. now destruct (assoc_l G x y z H1 H2) as [_ [_ H]]. Qed.

(** The head c of y over x (max prefix of y with red x c) is characterised by
    normality of the remaining pair. *)
Lemma head_nrm x y c d :
  red c d -> c * d = y -> red x c ->
  (forall e, le e y -> red x e -> le e c) -> nrm (x * c) d.
Proof.
  intros Hcd <- Hxc Hmax e [f [Hef Hf]] He. subst d.
  pose proof (red_mul_l _ _ _ Hxc He) as Hce.
  pose proof (red_mul_l2 _ _ _ Hxc He) as Hxce.
  assert (L : le (c * e) c).
  { apply Hmax; [|exact Hxce].
    exists f. split; [now apply red_mul_r2|]. now apply assoc_l_eq. }
  destruct L as [g [Hg E]].
  assert (e * g = one).
  { apply (cancel_l G c); [now apply red_mul_l2|apply red_1r|].
    rewrite (mul_1r G), <- assoc_r_eq; assumption. }
  eapply no_unit; [|exact H]. now apply (red_mul_l c).
Qed.

Lemma nrm_head x y c d :
  red c d -> c * d = y -> red x c -> nrm (x * c) d ->
  forall e, le e y -> red x e -> le e c.
Proof.
  intros Hcd <- Hxc Hn e He Hxe.
  destruct (head_ex G x (c * d)) as [c' [d' [Hcd' [Ey [Hxc' Hmax]]]]].
  destruct (Hmax c d Hcd eq_refl Hxc) as [g [Hg Eg]]. subst c'.
  assert (g = one).
  { apply Hn.
    - exists d'. split; [now apply (red_mul_l c)|].
      apply (cancel_l G c); [now apply red_mul_l2|exact Hcd|].
      rewrite <- assoc_r_eq; assumption.
    - now apply red_mul_r2. }
  subst g. rewrite (mul_1r G) in *.
  destruct He as [f [Hf Ef]]. destruct (Hmax e f Hf Ef Hxe) as [g [Hg' E]]. exists g. now split.
Qed.

Lemma rn_ex x y : exists w z, rnspec x y w z.
Proof.
  destruct (head_ex G x y) as [c [d [Hcd [Ey [Hxc Hmax]]]]].
  exists (x * c), d, c. repeat split; try assumption.
  apply (head_nrm x y c d); try assumption.
  intros e [f [Hf Ef]] He. destruct (Hmax e f Hf Ef He) as [g [Hg E]]. exists g. now split.
Qed.

Lemma rn_unique x y w z w' z' : rnspec x y w z -> rnspec x y w' z' -> w = w' /\ z = z'.
Proof.
  intros [c [H1 [H2 [H3 [H4 H5]]]]] [c' [H1' [H2' [H3' [H4' H5']]]]]. subst w w'.
  assert (E : c = c').
  { apply le_antisym.
    - apply (nrm_head x y c' z'); try assumption. exists z. now split.
    - apply (nrm_head x y c z); try assumption. exists z'. now split. }
  subst c'. split; [reflexivity|]. apply (cancel_l G c); congruence.
Qed.

Lemma rn_nrm x y : nrm x y -> rnspec x y x y.
Proof.
  intros H. exists one. repeat split.
  - apply red_1r.
  - apply mul_1r.
  - apply red_1l.
  - apply mul_1l.
  - exact H.
Qed.

Lemma rn_red x y : red x y -> rnspec x y (x * y) one.
Proof.
  intros H. exists y. repeat split.
  - exact H.
  - apply red_1r.
  - apply mul_1r.
  - intros e He _. now apply le_one_inv.
Qed.

Lemma rnspec_nrm x y w z : rnspec x y w z -> nrm w z.
Proof. intros [c [_ [_ [_ [_ H]]]]]. exact H. Qed.

Lemma nrm_one x : nrm x one.
Proof. intros e He _. now apply le_one_inv. Qed.

Lemma red_D x : red D x -> x = one.
Proof.
  intros H. rewrite <- (mul_lc G x) in H.
  destruct (le_D (lc x * x * x)) as [f [Hf Ef]].
  (* (D x) f = D *)
  rewrite (mul_lc G) in *.
  pose proof (red_mul_l2 _ _ _ H Hf) as H1.
  pose proof (assoc_r_eq _ _ _ H Hf) as H2. rewrite H2 in Ef.
  assert (x * f = one).
  { apply (cancel_l G D); [exact H1|apply red_1r|]. now rewrite (mul_1r G). }
  eapply no_unit; [|exact H0]. now apply (red_mul_l D).
Qed.

Lemma nrm_D_l x : nrm D x.
Proof. intros e _ H. now apply red_D. Qed.

Lemma nrm_D_r x : nrm x D -> x = D.
Proof.
  intros H. assert (rc x = one).
  { apply H; [apply le_D|apply red_rc]. }
  rewrite <- (mul_rc G x), H0. now rewrite (mul_1r G).
Qed.

Lemma nrm_one_l x : nrm one x -> x = one.
Proof. intros H. apply H; [apply le_refl|apply red_1l]. Qed.

(** ** First domino, compose lemma. *)
Lemma rn_compose a b x y1 b1 z1 a1 :
  red a b -> rnspec b x y1 b1 -> rnspec a y1 z1 a1 ->
  red a1 b1 /\ rnspec (a * b) x z1 (a1 * b1).
Proof.
  intros Hab [c [Hbc [E1 [Hcb1 [E2 Hn1]]]]] [c' [Hac' [E3 [Hc'a1 [E4 Hn2]]]]]. subst y1.
  (* b <= c' *)
  assert (L : le b c').
  { apply (nrm_head a (b * c) c' a1); try assumption.
    - now subst z1.
    - now apply le_mul. }
  destruct L as [c'' [Hc'' E5]]. subst c'.
  pose proof (red_mul_l _ _ _ Hc'' Hc'a1) as Hc''a1.
  assert (E6 : c'' * a1 = c).
  { apply (cancel_l G b); [now apply red_mul_l2|exact Hbc|].
    rewrite <- assoc_r_eq; assumption. }
  subst c.
  pose proof (red_mul_l _ _ _ Hc''a1 Hcb1) as Ha1b1.
  split; [exact Ha1b1|].
  exists c''. subst z1 x.
  pose proof (red_mul_r2 _ _ _ Hc'' Hac') as Habc''.
  repeat split.
  - exact Habc''.
  - now apply assoc_l_eq.
  - now apply red_mul_l2.
  - symmetry. now apply assoc_r_eq.
  - intros e He Hze.
    apply Hn2; [|exact Hze].
    assert (Hz : a * (b * c'') = a * b * c'') by (symmetry; now apply assoc_l_eq).
    rewrite Hz in Hze.
    pose proof (red_mul_l _ _ _ Habc'' Hze) as Hc''e.
    pose proof (red_mul_l2 _ _ _ Habc'' Hze) as H7.
    pose proof (red_mul_l _ _ _ Hab H7) as H8.
    apply (le_mul_l_inv c''); try assumption.
    apply (nrm_head b (c'' * a1 * b1) (c'' * a1) b1); try assumption.
    + reflexivity.
    + rewrite assoc_r_eq by assumption.
      apply le_mul_l; [exact Hc''e|now apply red_mul_l2|exact He].
Qed.

(** First domino rule: normality of the new pair to the left. *)
Lemma domino1 a x x' y b y' b' :
  nrm x x' -> rnspec a x y b -> rnspec b x' y' b' -> nrm y y'.
Proof.
  intros Hn [c0 [H1 [E1 [H2 [E2 Hyb]]]]] [c [H3 [E3 [H4 [E4 _]]]]] e He Hye. subst y y' x.
  apply Hyb; [|exact Hye].
  pose proof (red_mul_l _ _ _ H1 Hye) as Hc0e.
  destruct (head_ex G c0 (b * c)) as [c1 [d1 [Hcd [Ed [Hc0c1 Hmax]]]]].
  assert (Hm : forall e, le e (b * c) -> red c0 e -> le e c1).
  { intros e' [f [Hf Ef]] Hr. destruct (Hmax e' f Hf Ef Hr) as [g [Hg E]]. exists g. now split. }
  assert (Lb : le b c1) by (apply Hm; [now apply le_mul|exact H2]).
  assert (Le : le e c1) by (apply Hm; assumption).
  destruct Lb as [g [Hg Eg]]. subst c1.
  assert (g = one).
  { apply Hn.
    - apply (le_trans _ c).
      + exists d1. pose proof (red_mul_l2 _ _ _ Hg Hcd) as K1.
        split; [now apply (red_mul_l b)|].
        apply (cancel_l G b); [exact K1|exact H3|]. rewrite <- assoc_r_eq; assumption.
      + rewrite <- E4. now apply le_mul.
    - now apply red_mul_r2. }
  subst g. now rewrite (mul_1r G) in Le.
Qed.

(** ** Suffix side and complements. *)
Lemma lc_unique x y : red y x -> y * x = D -> y = lc x.
Proof.
  intros H E. apply (cancel_r G _ _ x); [exact H|apply red_lc|]. now rewrite (mul_lc G).
Qed.
Lemma rc_unique x y : red x y -> x * y = D -> y = rc x.
Proof.
  intros H E. apply (cancel_l G x); [exact H|apply red_rc|]. now rewrite (mul_rc G).
Qed.
Lemma lc_rc x : lc (rc x) = x.
Proof. symmetry. apply lc_unique; [apply red_rc|apply mul_rc]. Qed.
Lemma rc_lc x : rc (lc x) = x.
Proof. symmetry. apply rc_unique; [apply red_lc|apply mul_lc]. Qed.
Lemma lc_inj x y : lc x = lc y -> x = y.
Proof. intros H. rewrite <- (rc_lc x), H. apply rc_lc. Qed.
Lemma lc_D : lc D = one.
Proof. symmetry. apply lc_unique; [apply red_1l|apply mul_1l]. Qed.
Lemma rc_D : rc D = one.
Proof. symmetry. apply rc_unique; [apply red_1r|apply mul_1r]. Qed.
Lemma lc_one : lc one = D.
Proof. rewrite <- rc_D. apply lc_rc. Qed.
Lemma rc_one : rc one = D.
Proof. rewrite <- lc_D. apply rc_lc. Qed.

(** red x y iff y is a prefix of rc x. *)
Lemma red_le_rc x y : red x y <-> le y (rc x).
Proof.
  split.
  - intros H. destruct (le_D (x * y)) as [f [Hf Ef]].
    exists f. split; [now apply (red_mul_l x)|].
    apply rc_unique; [now apply red_mul_l2|]. rewrite <- assoc_r_eq; assumption.
  - intros H. apply (le_red_r x _ (rc x)); [apply red_rc|exact H].
Qed.

(** suffix order *)
Definition sle e y := exists f, red f e /\ f * e = y.

Lemma red_sle_lc x y : red x y <-> sle x (lc y).
Proof.
  split.
  - intros H. pose proof (red_lc G (x * y)) as H1.
    exists (lc (x * y)). split; [now apply (red_mul_r _ _ y)|].
    apply lc_unique; [now apply red_mul_r2|]. rewrite assoc_l_eq by assumption. apply mul_lc.
  - intros [f [Hf E]]. pose proof (red_lc G y) as H. rewrite <- E in H. now apply (red_mul_l f).
Qed.

(** x is a suffix of y iff rc y is a prefix of rc x. *)
Lemma sle_rc x y : sle x y <-> le (rc y) (rc x).
Proof.
  rewrite <- red_le_rc, red_sle_lc. now rewrite lc_rc.
Qed.

(** Second domino rule.  s1|s2 normal, s2' = s2 r, t = r t', s2'|t' normal,
    (s1, s2') renormalises to (s1c, s2''): then s2''|t' is normal. *)
Lemma domino2 s1 s2 t s2' t' w z :
  nrm s1 s2 -> rnspec s2 t s2' t' -> rnspec s1 s2' w z -> nrm z t'.
Proof.
  intros Hn [r [H1 [E1 [H2 [E2 Hn']]]]] [c [H3 [E3 [H4 [E4 _]]]]] e He Hze. subst s2' w t.
  (* both r and z are suffixes of s2 r = c z; r e and z e are simple *)
  pose proof (le_red_r r e t' H2 He) as Hre.
  (* the smallest common left multiple j of z and r: rc j = head of rc z over lc (rc r) = r *)
  destruct (head_ex G r (rc z)) as [m [d [Hmd [Em [Hrm Hmax]]]]].
  assert (Hm : forall e, le e (rc z) -> red r e -> le e m).
  { intros e' [f [Hf Ef]] Hr. destruct (Hmax e' f Hf Ef Hr) as [g [Hg E]]. exists g. now split. }
  assert (Lm : le m (rc z)) by (exists d; now split).
  set (j := lc m).
  assert (Ej : rc j = m) by (unfold j; apply rc_lc).
  assert (Hzj : sle z j) by (apply sle_rc; now rewrite Ej).
  assert (Hrj : sle r j) by (apply sle_rc; rewrite Ej; now apply red_le_rc).
  (* j is a suffix of s2 r *)
  assert (Hj : sle j (s2 * r)).
  { apply sle_rc. rewrite Ej. apply Hm.
    - apply sle_rc. exists c. now split.
    - apply red_le_rc. apply sle_rc. exists s2. now split. }
  (* red j e *)
  assert (Hje : red j e).
  { apply red_le_rc. rewrite Ej. apply Hm; [now apply red_le_rc|exact Hre]. }
  destruct Hj as [q [Hq Eq]].
  destruct Hzj as [u [Hu Eu]]. destruct Hrj as [v [Hv Ev]].
  assert (q = one).
  { apply Hn.
    - (* q <= s2 : s2 r = q j = q (v r) *)
      exists v. pose proof Hq as Hq'. rewrite <- Ev in Hq'.
      split; [now apply (red_mul_r _ _ r)|].
      apply (cancel_r G _ _ r); [now apply red_mul_r2|exact H1|].
      rewrite assoc_l_eq by assumption. congruence.
    - (* q <= c : c z = q j = q (u z), so c = q u *)
      apply (le_red_r s1 q c H3). exists u.
      pose proof Hq as Hq'. rewrite <- Eu in Hq'.
      split; [now apply (red_mul_r _ _ z)|].
      apply (cancel_r G _ _ z); [now apply red_mul_r2|exact H4|].
      rewrite assoc_l_eq by assumption. congruence. }
  subst q. rewrite (mul_1l G) in Eq.
  apply Hn'; [exact He|]. now rewrite <- Eq.
Qed.
End GermTheory.
