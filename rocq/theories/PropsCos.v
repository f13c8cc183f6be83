(** PropsCos.v – property C92: Poly.minpolycos. *)
From Verif Require Import Base ModelPoly SpecPoly PolyTheory PolyDiv EvalTheory PropsPoly PropsCheb.
From Verif Require CycBridge CosTheory CosCode.
From Coq Require Import Ring Setoid Morphisms Reals Lra.
Local Open Scope Z_scope.

(** poly.py:190-211 for any int n: for n <= 0 the loop over range(1, n) is empty,
    [//] and [%] round down as in Python.  (Python's recursion limit is not
    modelled.) *)
Definition minpolycos_int (n : Z) : res (list Z) :=
  if 0 <? n then minpolycos (Z.to_nat n)
  else
    a <- chebyshevT (n / 2 + 1) ;;
    b <- chebyshevT (if n mod 2 =? 1 then n / 2 else n / 2 - 1) ;;
    Ok (poly_make (map (fun '(i, c) => c / 2 ^ i) (enumerate 0 (pmuli (psub a b) 2)))).

(** the value at a real number is a ring homomorphism *)
Lemma rvA a b : IZR (a + b) = (IZR a + IZR b)%R. Proof. apply plus_IZR. Qed.
Lemma rvM a b : IZR (a * b) = (IZR a * IZR b)%R. Proof. apply mult_IZR. Qed.
Lemma rv_mul p q x : real_value (pmul p q) x = (real_value p x * real_value q x)%R.
Proof. rewrite !real_value_ev. exact (evh_mul R 0%R 1%R Rplus Rmult Rminus Ropp eq _ rext RTheory IZR eq_refl rvA rvM x p q). Qed.
Lemma rv_add p q x : real_value (padd p q) x = (real_value p x + real_value q x)%R.
Proof. rewrite !real_value_ev. exact (evh_add R 0%R 1%R Rplus Rmult Rminus Ropp eq _ rext RTheory IZR eq_refl rvA x p q). Qed.
Lemma rv_sub p q x : real_value (psub p q) x = (real_value p x - real_value q x)%R.
Proof. rewrite !real_value_ev. exact (evh_sub R 0%R 1%R Rplus Rmult Rminus Ropp eq _ rext RTheory IZR eq_refl rvA x p q). Qed.
Lemma rv_peq p q x : peq p q -> real_value p x = real_value q x.
Proof. intros H. rewrite !real_value_ev. exact (evh_peq R 0%R 1%R Rplus Rmult Rminus Ropp eq _ rext RTheory IZR eq_refl x p q H). Qed.
Lemma rv_const c x : real_value (pconst c) x = IZR c.
Proof. rewrite (rv_peq _ [c] x (pconst_peq c)). cbn. ring. Qed.
Lemma rv_muli p c x : real_value (pmuli p c) x = (IZR c * real_value p x)%R.
Proof. rewrite (rv_peq _ _ x (pmuli_const p c)), rv_mul, rv_const. reflexivity. Qed.
Lemma rv_comp y p x : real_value (evP y p) x = real_value p (real_value y x).
Proof.
  induction p as [|c p IH]; [reflexivity|]. change (evP y (c :: p)) with (padd (pconst c) (pmul y (evP y p))).
  rewrite rv_add, rv_mul, rv_const, IH. reflexivity.
Qed.
Lemma rv_prod l x : real_value (fold_right pmul [1] l) x = fold_right Rmult 1%R (map (fun p => real_value p x) l).
Proof. induction l as [|p l IH]; cbn [fold_right map]; [cbn; ring|]. now rewrite rv_mul, IH. Qed.
Lemma cheb_cos k t : real_value (cheb k) (cos t) = cos (INR k * t).
Proof.
  destruct (C21_cosine (Z.of_nat k) t ltac:(lia)) as [p [E V]]. unfold chebyshevT in E.
  destruct (Z.ltb_spec (Z.of_nat k) 0); [lia|]. injection E as <-. rewrite Nat2Z.id in V. now rewrite V, <- INR_IZR_INZ.
Qed.
Definition low (n : nat) : nat := if (n mod 2 =? 1)%nat then (n / 2)%nat else (n / 2 - 1)%nat.
Lemma low_sum n : (1 <= n)%nat -> (n / 2 + 1 + low n = n)%nat.
Proof.
  intros H. unfold low. pose proof (Nat.div_mod n 2 ltac:(lia)). pose proof (Nat.mod_upper_bound n 2 ltac:(lia)).
  destruct (Nat.eqb_spec (n mod 2) 1); lia.
Qed.
Lemma diff_val n t : real_value (CosCode.cheb_diff n) (cos t) = (2 * (cos (INR (n / 2 + 1) * t) - cos (INR (low n) * t)))%R.
Proof. unfold CosCode.cheb_diff. rewrite rv_muli, rv_sub, !cheb_cos. reflexivity. Qed.
Lemma diff_prod n t : (1 <= n)%nat ->
  fold_right Rmult 1%R (map (fun d => real_value (CosCode.PsiZ d) (2 * cos t)) (CycBridge.divs n)) =
  (2 * (cos (INR (n / 2 + 1) * t) - cos (INR (low n) * t)))%R.
Proof.
  intros H. rewrite <- diff_val.
  rewrite (rv_peq _ _ (cos t) (CosCode.cheb_diff_prod (ssrbool.introT ssrnat.ltP H))), rv_prod, map_map. f_equal. apply map_ext.
  intros d. rewrite rv_comp. f_equal. cbn. ring.
Qed.
Lemma prod_zero l : fold_right Rmult 1%R l = 0%R <-> In 0%R l.
Proof.
  induction l as [|x l IH]; cbn; [split; [intros H; lra|tauto]|]. rewrite <- IH. split.
  - intros H. apply Rmult_integral in H. tauto.
  - intros [-> | ->]; ring.
Qed.
(** for a proper divisor d of n the factor does not vanish at 2 cos(2 pi / n) *)
Lemma proper_nz n d : (1 <= d < n)%nat -> (n mod d = 0)%nat -> real_value (CosCode.PsiZ d) (2 * cos (2 * PI / INR n)) <> 0%R.
Proof.
  intros Hd Hm Z. pose proof PI_RGT_0 as PI0. set (t := (2 * PI / INR n)%R) in *.
  assert (Hn : (0 < INR n)%R) by (apply lt_0_INR; lia).
  assert (Ht : (INR n * t = 2 * PI)%R) by (unfold t; field; lra).
  assert (H0 : fold_right Rmult 1%R (map (fun d => real_value (CosCode.PsiZ d) (2 * cos t)) (CycBridge.divs d)) = 0%R).
  { apply prod_zero. apply in_map_iff. exists d. split; [exact Z|]. unfold CycBridge.divs. apply filter_In. split; [apply in_seq; lia|].
    apply Nat.eqb_eq, Nat.mod_same. lia. }
  rewrite diff_prod in H0 by lia.
  assert (Hc : cos (INR (d / 2 + 1) * t) = cos (INR (low d) * t)) by lra. clear H0.
  pose proof (low_sum d ltac:(lia)) as HS.
  set (a := (INR (d / 2 + 1) * t)%R) in *. set (b := (INR (low d) * t)%R) in *.
  pose proof (form2 a b) as F2. rewrite Hc in F2.
  assert (Hab : (a + b = INR d * t)%R) by (unfold a, b; rewrite <- Rmult_plus_distr_r, <- plus_INR; now rewrite HS).
  assert (Hdn : (2 * d <= n)%nat).
  { pose proof (Nat.div_mod n d ltac:(lia)). assert (n / d <> 0 /\ n / d <> 1)%nat by (split; intros E; rewrite E in *; lia). nia. }
  assert (Hdn' : (2 * INR d <= INR n)%R) by (apply le_INR in Hdn; rewrite mult_INR in Hdn; cbn [INR] in Hdn; lra).
  assert (Hd0 : (1 <= INR d)%R) by (apply (le_INR 1); lia).
  assert (Ht0 : (0 < t)%R) by (unfold t; apply Rdiv_lt_0_compat; lra).
  assert (Hdt : (INR d * t <= PI)%R) by nra.
  assert (S1 : (0 < sin ((a + b) / 2))%R) by (rewrite Hab; apply sin_gt_0; nra).
  assert (S2 : (0 < sin ((a - b) / 2))%R).
  { assert (D : (a - b)%R = t \/ ((a - b)%R = (2 * t)%R /\ (2 <= d)%nat)).
    { unfold a, b, low in *. destruct (Nat.eqb_spec (d mod 2) 1) as [E|E].
      - left. rewrite plus_INR. cbn [INR]. ring.
      - right. pose proof (Nat.div_mod d 2 ltac:(lia)). pose proof (Nat.mod_upper_bound d 2 ltac:(lia)).
        assert (1 <= d / 2)%nat by lia. split; [|lia]. rewrite plus_INR, minus_INR by lia. cbn [INR]. ring. }
    destruct D as [-> |[-> D2]].
    - apply sin_gt_0; nra.
    - assert (2 <= INR d)%R by (apply (le_INR 2); lia). apply sin_gt_0; nra. }
  assert (0 < sin ((a - b) / 2) * sin ((a + b) / 2))%R by (now apply Rmult_lt_0_compat). nra.
Qed.
Lemma PsiZ_root n : (1 <= n)%nat -> real_value (CosCode.PsiZ n) (2 * cos (2 * PI / INR n)) = 0%R.
Proof.
  intros H. set (t := (2 * PI / INR n)%R). assert (Hn : (0 < INR n)%R) by (apply lt_0_INR; lia).
  assert (H0 : fold_right Rmult 1%R (map (fun d => real_value (CosCode.PsiZ d) (2 * cos t)) (CycBridge.divs n)) = 0%R).
  { rewrite diff_prod by exact H. pose proof (low_sum n H) as S.
    assert (E : (INR (n / 2 + 1) * t = - (INR (low n) * t) + 2 * PI)%R).
    { assert (INR n * t = 2 * PI)%R as <- by (unfold t; field; lra). assert (INR n = INR (n / 2 + 1) + INR (low n))%R as -> by (rewrite <- plus_INR; now rewrite S). ring. }
    rewrite E, cos_plus, cos_2PI, sin_2PI, cos_neg. ring. }
  apply prod_zero in H0. apply in_map_iff in H0. destruct H0 as [d [V D]].
  apply filter_In in D. destruct D as [D1 D2]. apply in_seq in D1. apply Nat.eqb_eq in D2.
  destruct (Nat.eq_dec d n) as [-> |N]; [exact V|]. exfalso. apply (proper_nz n d); auto. lia.
Qed.

(** For every n >= 1 the function returns, the result P is a polynomial with
    leading coefficient 1, 2 cos (2 pi / n) is a root of P, and every integer
    polynomial that vanishes there is P times an integer polynomial. *)
Theorem C92_minimal_polynomial (n : Z) : 1 <= n -> exists P,
  minpolycos_int n = Ok P /\ is_poly P /\ last P 0 = 1 /\
  real_value P (2 * cos (2 * PI / IZR n)) = 0%R /\
  forall q, real_value q (2 * cos (2 * PI / IZR n)) = 0%R ->
    exists u, forall i, nth i q 0 = nth i (pmul P u) 0.
Proof.
  intros H. exists (CosCode.PsiZ (Z.to_nat n)). set (k := Z.to_nat n). assert (Hk : (1 <= k)%nat) by lia.
  assert (K0 : is_true (ssrnat.leq 1 k)) by exact (ssrbool.introT ssrnat.ltP Hk).
  assert (En : IZR n = INR k) by (rewrite INR_IZR_INZ; f_equal; lia). rewrite En.
  pose proof (PsiZ_root k Hk) as R0.
  split; [|split; [|split; [|split; [exact R0|]]]].
  - unfold minpolycos_int. destruct (Z.ltb_spec 0 n); [|lia]. unfold minpolycos. apply CosCode.minpolycos_Psi; [exact K0|].
    fold k. apply (ssrbool.introT ssrnat.ltP). lia.
  - apply canon_is_poly, CosCode.PsiZ_canon.
  - apply CosCode.PsiZ_monic, K0.
  - intros q Hq. destruct (CosCode.PsiZ_alt q K0) as [[u Hu]|[u [v [c [Hc Hu]]]]].
    + exists u. exact Hu.
    + exfalso. pose proof (rv_peq _ _ (2 * cos (2 * PI / INR k)) Hu) as E. rewrite rv_add, !rv_mul, R0, Hq in E. cbn in E.
      assert (IZR c = 0%R) by lra. apply eq_IZR in H0. contradiction.
Qed.
(** P is the only such polynomial: any monic integer polynomial of which all
    integer polynomials vanishing there are multiples, and which vanishes there,
    is P. *)
Theorem C92_unique (n : Z) P Q : 1 <= n -> minpolycos_int n = Ok P ->
  is_poly Q -> last Q 0 = 1 -> real_value Q (2 * cos (2 * PI / IZR n)) = 0%R ->
  (forall q, real_value q (2 * cos (2 * PI / IZR n)) = 0%R -> exists u, forall i, nth i q 0 = nth i (pmul Q u) 0) ->
  Q = P.
Proof.
  intros H E CQ LQ RQ HQ. destruct (C92_minimal_polynomial n H) as [P' [E' [CP [LP [RP HP]]]]]. rewrite E in E'. injection E' as <-.
  destruct (HQ P RP) as [u Hu]. destruct (HP Q RQ) as [v Hv].
  assert (cp : pcanon P) by (now apply is_poly_canon). assert (cq : pcanon Q) by (now apply is_poly_canon).
  assert (NP : P <> []) by (intros ->; discriminate). assert (NQ : Q <> []) by (intros ->; discriminate).
  assert (Hu' : P = pmul Q (poly_make u)).
  { apply pcanon_eq; [exact cp|apply pcanon_mul|]. intros i. unfold pc. rewrite Hu. change (pc (pmul Q u) i = pc (pmul Q (poly_make u)) i).
    apply pring_ext; [reflexivity|]. symmetry. apply make_peq. }
  assert (Hv' : Q = pmul P (poly_make v)).
  { apply pcanon_eq; [exact cq|apply pcanon_mul|]. intros i. unfold pc. rewrite Hv. change (pc (pmul P v) i = pc (pmul P (poly_make v)) i).
    apply pring_ext; [reflexivity|]. symmetry. apply make_peq. }
  assert (Nu : poly_make u <> []).
  { intros Z. rewrite Z in Hu'. apply NP. rewrite Hu'. apply pcanon_eq; [apply pcanon_mul|apply pcanon_nil|]. 
    intros i. unfold pc at 2. rewrite pc_mul. unfold coeff_at. rewrite (lin_ext _ _ _ (fun _ => 0)); [rewrite lin_0g; now destruct i|].
    intros e. destruct (_ <? _); [reflexivity|]. now destruct (Z.to_nat _). }
  assert (Nv : poly_make v <> []).
  { intros Z. rewrite Z in Hv'. apply NQ. rewrite Hv'. apply pcanon_eq; [apply pcanon_mul|apply pcanon_nil|].
    intros i. unfold pc at 2. rewrite pc_mul. unfold coeff_at. rewrite (lin_ext _ _ _ (fun _ => 0)); [rewrite lin_0g; now destruct i|].
    intros e. destruct (_ <? _); [reflexivity|]. now destruct (Z.to_nat _). }
  pose proof (pmul_len Q (poly_make u) cq (pcanon_make _) NQ Nu) as L1. rewrite <- Hu' in L1.
  pose proof (pmul_len P (poly_make v) cp (pcanon_make _) NP Nv) as L2. rewrite <- Hv' in L2.
  pose proof (pmul_last Q (poly_make u) cq (pcanon_make _) NQ Nu) as T1. rewrite <- Hu', LP, LQ in T1.
  assert (length (poly_make u) = 1%nat).
  { destruct (poly_make u), (poly_make v), P, Q; cbn [length] in *; try congruence; lia. }
  destruct (poly_make u) as [|c [|? ?]] eqn:Eu; try (cbn in *; lia). cbn [last] in T1. assert (c = 1) by lia. subst c.
  rewrite Hu'. apply pcanon_eq; [exact cq|apply pcanon_mul|]. intros i. symmetry.
  transitivity (pc (pmul [1] Q) i); [apply (Rmul_comm pring)|apply (Rmul_1_l pring)].
Qed.
Theorem C92_refuses (n : Z) : n <= 0 -> minpolycos_int n = Err ValueError.
Proof.
  intros H. unfold minpolycos_int. destruct (Z.ltb_spec 0 n); [lia|]. unfold chebyshevT.
  assert (n / 2 <= 0) by (apply Z.div_le_upper_bound; lia).
  destruct (Z.ltb_spec (n / 2 + 1) 0); [reflexivity|]. cbn [bind].
  pose proof (Z.div_mod n 2 ltac:(lia)). pose proof (Z.mod_pos_bound n 2 ltac:(lia)).
  destruct (Z.eqb_spec (n mod 2) 1).
  - destruct (Z.ltb_spec (n / 2) 0); [reflexivity|lia].
  - destruct (Z.ltb_spec (n / 2 - 1) 0); [reflexivity|lia].
Qed.
(** the docstring *)
Example C92_example : minpolycos_int 9 = Ok [1; -3; 0; 1] /\ minpolycos_int 1 = Ok [-2; 1] /\ minpolycos_int 12 = Ok [-3; 0; 1].
Proof. repeat split; vm_compute; reflexivity. Qed.
