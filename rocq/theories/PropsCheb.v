(** PropsCheb.v – property C21: Chebyshev polynomials. *)
From Verif Require Import Base ModelPoly SpecPoly PolyTheory PolyDiv EvalTheory PropsPoly.
From Coq Require Import Ring Setoid Morphisms Reals Lra.
Local Open Scope Z_scope.

Lemma cheb_SS n : cheb (S (S n)) = psub (pmul (poly_make [0; 2]) (cheb (S n))) (cheb n).
Proof. reflexivity. Qed.
Lemma cheb_canon n : pcanon (cheb n).
Proof. destruct n as [|[|n]]; [apply pcanon_make|apply pcanon_make|]. rewrite cheb_SS. apply pcanon_sub. Qed.
Lemma two_x : peq (poly_make [0; 2]) (pmul (pconst 2) [0; 1]).
Proof. intros i. reflexivity. Qed.
(** 2 T_a T_b = T_(a+b) + T_(a-b) *)
Lemma cheb_prod b : forall a, (b <= a)%nat ->
  peq (pmul (pconst 2) (pmul (cheb a) (cheb b))) (padd (cheb (a + b)) (cheb (a - b))).
Proof.
  assert (K : (forall a, (b <= a)%nat -> peq (pmul (pconst 2) (pmul (cheb a) (cheb b))) (padd (cheb (a + b)) (cheb (a - b)))) /\
              (forall a, (S b <= a)%nat -> peq (pmul (pconst 2) (pmul (cheb a) (cheb (S b)))) (padd (cheb (a + S b)) (cheb (a - S b)))));
    [|apply K].
  assert (two : peq (pconst 2) (padd [1] [1])) by (intros i; reflexivity).
  induction b as [|b [IH1 IH2]].
  - split.
    + intros a _. rewrite Nat.add_0_r, Nat.sub_0_r. change (cheb 0) with [1]. rewrite two. ring.
    + intros a Ha. destruct a as [|a]; [lia|]. replace (S a + 1)%nat with (S (S a)) by lia. replace (S a - 1)%nat with a by lia.
      rewrite cheb_SS, two_x. change (cheb 1) with [0; 1]. ring.
  - split; [exact IH2|]. intros a Ha. rewrite (cheb_SS b).
    transitivity (psub (pmul (poly_make [0; 2]) (pmul (pconst 2) (pmul (cheb a) (cheb (S b))))) (pmul (pconst 2) (pmul (cheb a) (cheb b)))); [ring|].
    rewrite IH1, IH2 by lia. destruct a as [|[|a]]; try lia.
    replace (S (S a) + S (S b))%nat with (S (S (S (S a) + b))) by lia. replace (S (S a) + S b)%nat with (S (S (S a) + b)) by lia.
    rewrite (cheb_SS (S (S a) + b)).
    replace (S (S a) - S b)%nat with (S (a - b)) by lia. replace (S (S a) - S (S b))%nat with (a - b)%nat by lia.
    replace (S (S a) - b)%nat with (S (S (a - b))) by lia. rewrite (cheb_SS (a - b)). ring.
Qed.
Lemma cheb_comp n m : peq (evP (cheb n) (cheb m)) (cheb (m * n)).
Proof.
  assert (K : peq (evP (cheb n) (cheb m)) (cheb (m * n)) /\ peq (evP (cheb n) (cheb (S m))) (cheb (S m * n))); [|apply K].
  assert (E0 : peq (evP (cheb n) (cheb 0)) [1]) by (change (evP (cheb n) (cheb 0)) with (padd (pconst 1) (pmul (cheb n) [])); rewrite pconst1; ring).
  assert (E1 : peq (evP (cheb n) (poly_make [0; 1])) (cheb n)).
  { change (evP (cheb n) (poly_make [0; 1])) with (padd (pconst 0) (pmul (cheb n) (padd (pconst 1) (pmul (cheb n) [])))). rewrite pconst0, pconst1. ring. }
  assert (E2 : peq (evP (cheb n) (poly_make [0; 2])) (pmul (pconst 2) (cheb n))).
  { change (evP (cheb n) (poly_make [0; 2])) with (padd (pconst 0) (pmul (cheb n) (padd (pconst 2) (pmul (cheb n) [])))). rewrite pconst0. ring. }
  induction m as [|m [IH1 IH2]].
  - split; [exact E0|]. change (cheb 1) with (poly_make [0; 1]). rewrite E1, Nat.mul_1_l. reflexivity.
  - split; [exact IH2|]. rewrite cheb_SS. unfold evP in *.
    rewrite (evh_sub _ [] [1] padd pmul psub pneg peq _ pring_ext pring pconst pconst0 pconstA (cheb n)).
    rewrite (evh_mul _ [] [1] padd pmul psub pneg peq _ pring_ext pring pconst pconst0 pconstA pconstM (cheb n)).
    rewrite E2, IH1, IH2. pose proof (cheb_prod n (S m * n) ltac:(nia)) as P.
    replace (S m * n + n)%nat with (S (S m) * n)%nat in P by lia. replace (S m * n - n)%nat with (m * n)%nat in P by lia.
    transitivity (psub (pmul (pconst 2) (pmul (cheb (S m * n)) (cheb n))) (cheb (m * n))); [ring|]. rewrite P. ring.
Qed.

(** T_0 = 1, T_1 = x, T_(n+2) = 2x T_(n+1) - T_n; negative arguments refused. *)
Theorem C21_recurrence :
  (forall n, n < 0 -> chebyshevT n = Err ValueError) /\
  chebyshevT 0 = Ok (poly_make [1]) /\ chebyshevT 1 = Ok (poly_make [0; 1]) /\
  (forall n, 0 <= n -> exists a b c, chebyshevT n = Ok a /\ chebyshevT (n + 1) = Ok b /\ chebyshevT (n + 2) = Ok c /\
     is_poly a /\ c = psub (pmul (poly_make [0; 2]) b) a).
Proof.
  split; [|split; [reflexivity|split; [reflexivity|]]].
  - intros n H. unfold chebyshevT. destruct (Z.ltb_spec n 0); [reflexivity|lia].
  - intros n H. exists (cheb (Z.to_nat n)), (cheb (S (Z.to_nat n))), (cheb (S (S (Z.to_nat n)))). unfold chebyshevT.
    destruct (Z.ltb_spec n 0); [lia|]. destruct (Z.ltb_spec (n + 1) 0); [lia|]. destruct (Z.ltb_spec (n + 2) 0); [lia|].
    replace (Z.to_nat (n + 1)) with (S (Z.to_nat n)) by lia. replace (Z.to_nat (n + 2)) with (S (S (Z.to_nat n))) by lia.
    repeat split; auto. apply canon_is_poly, cheb_canon.
Qed.
(** T_m(T_n(x)) = T_(mn)(x), as computed by [evaluate] *)
Theorem C21_composition m n : 0 <= m -> 0 <= n -> exists tm tn tmn,
  chebyshevT m = Ok tm /\ chebyshevT n = Ok tn /\ chebyshevT (m * n) = Ok tmn /\ peval_poly tm tn = Ok tmn.
Proof.
  intros Hm Hn. exists (cheb (Z.to_nat m)), (cheb (Z.to_nat n)), (cheb (Z.to_nat m * Z.to_nat n)). unfold chebyshevT.
  destruct (Z.ltb_spec m 0); [lia|]. destruct (Z.ltb_spec n 0); [lia|]. destruct (Z.ltb_spec (m * n) 0); [nia|].
  rewrite Z2Nat.inj_mul by assumption. repeat split.
  destruct (peval_poly_ev (cheb (Z.to_nat m)) (cheb (Z.to_nat n)) (cheb_canon _)) as [r [-> [C E]]]. f_equal.
  apply pcanon_eq; auto using cheb_canon. rewrite E. apply cheb_comp.
Qed.
(** the value of a coefficient list at a real number *)
Fixpoint real_value (p : list Z) (x : R) : R :=
  match p with [] => 0%R | c :: p' => (IZR c + x * real_value p' x)%R end.
Lemma real_value_ev p x : real_value p x = evh R 0%R Rplus Rmult IZR x p.
Proof. induction p as [|c p IH]; cbn; [reflexivity|]. now rewrite IH. Qed.
Lemma rext : ring_eq_ext Rplus Rmult Ropp (@eq R).
Proof. split; [intros ? ? -> ? ? -> |intros ? ? -> ? ? -> |intros ? ? ->]; reflexivity. Qed.
Lemma cos_step a t : cos (a + t + t) = (2 * cos t * cos (a + t) - cos a)%R.
Proof.
  assert (E : cos a = cos (a + t - t)) by (f_equal; ring). rewrite E, (cos_plus (a + t) t), (cos_minus (a + t) t). ring.
Qed.
(** T_n(cos t) = cos (n t) *)
Theorem C21_cosine n (t : R) : 0 <= n -> exists p, chebyshevT n = Ok p /\ real_value p (cos t) = cos (IZR n * t).
Proof.
  intros Hn. exists (cheb (Z.to_nat n)). split; [unfold chebyshevT; destruct (Z.ltb_spec n 0); [lia|reflexivity]|].
  rewrite <- (Z2Nat.id n) at 2 by exact Hn. generalize (Z.to_nat n) as k. clear n Hn. intros k. rewrite <- INR_IZR_INZ.
  assert (K : real_value (cheb k) (cos t) = cos (INR k * t) /\ real_value (cheb (S k)) (cos t) = cos (INR (S k) * t)); [|apply K].
  induction k as [|k [IH1 IH2]].
  - split; [cbn; rewrite Rmult_0_l, cos_0; ring|]. cbn. rewrite Rmult_1_l. ring.
  - split; [exact IH2|]. rewrite cheb_SS.
    rewrite !real_value_ev in *.
    assert (A : forall a b, IZR (a + b) = (IZR a + IZR b)%R) by apply plus_IZR.
    assert (M : forall a b, IZR (a * b) = (IZR a * IZR b)%R) by apply mult_IZR.
    rewrite (evh_sub R 0%R 1%R Rplus Rmult Rminus Ropp eq _ rext RTheory IZR eq_refl A).
    rewrite (evh_mul R 0%R 1%R Rplus Rmult Rminus Ropp eq _ rext RTheory IZR eq_refl A M). rewrite IH1, IH2.
    change (evh R 0%R Rplus Rmult IZR (cos t) (poly_make [0; 2])) with (0 + cos t * (2 + cos t * 0))%R.
    rewrite !S_INR. replace ((INR k + 1 + 1) * t)%R with (INR k * t + t + t)%R by ring. rewrite cos_step.
    replace ((INR k + 1) * t)%R with (INR k * t + t)%R by ring. ring.
Qed.
Example C21_example : chebyshevT 5 = Ok [0; 5; 0; -20; 0; 16].
Proof. reflexivity. Qed.
