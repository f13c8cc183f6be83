(** PropsScalar.v – C123: the braids with a Burau image of projective length 1. *)
From Verif Require Import Base ModelPoly SpecPoly PolyTheory PropsPoly ModelMatrix SpecMatrix MatrixTheory NumTheory PropsPolymat3.
From Coq Require Import Ring Setoid Morphisms.
From Verif Require Import ModelPerm Germ GermNF GermAct GermBraid PermTheory WeakOrder PermWords SpecBraid BraidTheory ModelBraid ModelTL ModelTLMor ModelRep SpecRep RepTheory RepCanon PropsRep TableTheory NFApi SpecPerm SpecPermTheory PermGerm PermTable PropsGNF PropsGNF2 PolyRepTheory BurauThree PropsBurau BurauWords BurauKernel PropsBurau2 KernelData PropsKernel PropsSearch2 BurauStable EmbedTheory PropsStable FullTwistBraid BurauScalar BurauForm.
Local Open Scope nat_scope.
#[local] Existing Instance neqp_equiv.
#[local] Existing Instance pmeq_equiv.

Lemma numcoef_low x : exists B, forall e, (e < B)%Z -> numcoef x e = 0%Z.
Proof.
  destruct x as [c|[v l]].
  - exists 0%Z. intros e He. cbn. destruct (Z.eqb_spec e 0); [lia|reflexivity].
  - exists v. intros e He. cbn [numcoef lval lcoeffs]. unfold coeff_at. destruct (Z.ltb_spec e v); [reflexivity|lia].
Qed.
Lemma uniform (d : nat) (f : nat -> nat -> Z -> Z) : (forall i j, exists B, forall e, (B < e \/ e < - B)%Z -> f i j e = 0%Z) -> exists B, forall i j e, i < d -> j < d -> (B < e \/ e < - B)%Z -> f i j e = 0%Z.
Proof.
  intros H. assert (R : forall i m, exists B, forall j e, j < m -> (B < e \/ e < - B)%Z -> f i j e = 0%Z).
  { intros i. induction m as [|m [B IH]]; [exists 0%Z; intros; lia|]. destruct (H i m) as [C HC]. exists (Z.max B C). intros j e Hj He. destruct (Nat.eq_dec j m) as [->|N]; [apply HC; lia|apply IH; lia]. }
  assert (K : forall m, exists B, forall i j e, i < m -> j < d -> (B < e \/ e < - B)%Z -> f i j e = 0%Z).
  { induction m as [|m [B IH]]; [exists 0%Z; intros; lia|]. destruct (R m d) as [C HC]. exists (Z.max B C). intros i j e Hi Hj He. destruct (Nat.eq_dec i m) as [->|N]; [apply HC; [exact Hj|lia]|apply IH; [lia|exact Hj|lia]]. }
  apply K.
Qed.
(** multiplying an entry of a Burau matrix by a number, the other way round *)
Lemma entry_mul x sg s i j e : numcoef (nmul (NL (burau_entry sg s i j)) x) e =
  if i =? s then (if j =? s then (- numcoef x (e - 2 * sg))%Z else if (j =? s + 1) || (j + 1 =? s) then (- numcoef x (e - sg))%Z else 0%Z) else if i =? j then numcoef x e else 0%Z.
Proof. rewrite <- (mul_entry x sg s i j e). rewrite !numcoef_coerce, (coerce_mul x _ e), (coerce_mul _ x e). set (a := coerce x). set (b := coerce (NL (burau_entry sg s i j))). assert (Q : leq (lmul b a) (lmul a b)) by ring. exact (Q e). Qed.

Section Words.
Variables (n : nat) (p : Z) (R : rep) (gens invs : list (mat num)) (E : mat num).
Hypothesis (EJ : jones_rep n 1 p = Ok R) (EG : rep_artin_gens_invs R = Ok (gens, invs)) (EI : rep_id R = Ok E).
Notation c := (cw gens invs E).
Lemma cw_left w s b i j e : s + 1 < n -> i < n - 1 -> j < n - 1 -> cg p (c ((s, b) :: w) i j e) (c w i j e - (if (i =? s)%nat then grow (n - 1) (fun l => c w l j) s (e - g_of b) else 0))%Z.
Proof using EJ EG EI.
  intros Hs Hi Hj. destruct (Mfacts n 1 p R (n - 1) gens invs E EJ (burau_dim n p R EJ) EG EI) as (_ & _ & Hp & _ & HE & SM & BM & PM).
  set (B := mat_map NL (burau_matrix (sgn b) n s)). pose proof (burau_lsq (sgn b) n s) as LB. assert (SB : sq (n - 1) B) by now apply lsq_NL.
  assert (K : pmeq p (M gens invs E ([(s, b)] ++ w)) (prod (NI 0) nadd nmul B (M gens invs E w))). { etransitivity; [apply PM|]. apply (pr_meq p (n - 1)); auto; [now apply (letter_burau n p R)|reflexivity]. }
  apply (meq_ent (NI 0) (neqp p)) in K; [|apply SM|apply prod_wf]. destruct K as (_ & _ & K). destruct (SM w) as (_ & R1 & C1). destruct (SM ([(s, b)] ++ w)) as (_ & R2 & C2). destruct SB as (_ & R3 & C3). specialize (K i j ltac:(lia) ltac:(lia)). rewrite prod_e in K by lia. rewrite C3 in K.
  apply neqp_congr in K. specialize (K e). rewrite numcoef_rsum in K.
  assert (EN : forall k, k < n - 1 -> ent (NI 0) B i k = NL (burau_entry (sgn b) s i k)). { intros k Hk. unfold B. rewrite (ent_NL (n - 1)) by auto. now rewrite burau_ent by lia. }
  assert (Q : forall k, k < n - 1 -> numcoef (nmul (ent (NI 0) B i k) (ent (NI 0) (M gens invs E w) k j)) e = if i =? s then (if k =? s then (- c w k j (e - 2 * sgn b))%Z else if (k =? s + 1) || (k + 1 =? s) then (- c w k j (e - sgn b))%Z else 0%Z) else if i =? k then c w k j e else 0%Z).
  { intros k Hk. rewrite EN by exact Hk. rewrite entry_mul. reflexivity. }
  change (numcoef (ent (NI 0) (M gens invs E ([(s, b)] ++ w)) i j) e) with (c ((s, b) :: w) i j e) in K.
  refine (eq_ind _ (fun z => (p | z)%Z) K _ _). f_equal. change (g_of b) with (sgn b). destruct (Nat.eqb_spec i s) as [->|N].
  - unfold grow. destruct (Nat.eqb_spec s 0) as [S0|S0], (Nat.ltb_spec (s + 1) (n - 1)) as [L|L].
    + rewrite (zsum_two _ _ s (s + 1)); [|lia|lia|lia|].
      * rewrite !Q by lia. rewrite !Nat.eqb_refl. destruct (Nat.eqb_spec (s + 1) s); [lia|]. cbn [orb]. destruct b; cbn [sgn].
        -- replace (e - 1 - 1)%Z with (e - 2 * 1)%Z by lia. replace (e - 1 + 1)%Z with e by lia. lia.
        -- replace (e - -1 + 1)%Z with (e - 2 * -1)%Z by lia. replace (e - -1 - 1)%Z with e by lia. lia.
      * intros k Hk N1 N2. rewrite Q by lia. destruct (Nat.eqb_spec k s), (Nat.eqb_spec k (s + 1)), (Nat.eqb_spec (k + 1) s); try lia; reflexivity.
    + rewrite (zsum_one _ _ s); [|lia|].
      * rewrite !Q by lia. rewrite !Nat.eqb_refl. destruct b; cbn [sgn].
        -- replace (e - 1 - 1)%Z with (e - 2 * 1)%Z by lia. replace (e - 1 + 1)%Z with e by lia. lia.
        -- replace (e - -1 + 1)%Z with (e - 2 * -1)%Z by lia. replace (e - -1 - 1)%Z with e by lia. lia.
      * intros k Hk N1. rewrite Q by lia. destruct (Nat.eqb_spec k s), (Nat.eqb_spec k (s + 1)), (Nat.eqb_spec (k + 1) s); try lia; reflexivity.
    + rewrite (zsum_three _ _ (s - 1)); [|lia|].
      * replace (s - 1 + 1) with s by lia. replace (s - 1 + 2) with (s + 1) by lia. rewrite !Q by lia. rewrite !Nat.eqb_refl. destruct (Nat.eqb_spec (s + 1) s), (Nat.eqb_spec (s - 1) s), (Nat.eqb_spec (s - 1) (s + 1)), (Nat.eqb_spec (s - 1 + 1) s); try lia. cbn [orb]. destruct b; cbn [sgn].
        -- replace (e - 1 - 1)%Z with (e - 2 * 1)%Z by lia. replace (e - 1 + 1)%Z with e by lia. lia.
        -- replace (e - -1 + 1)%Z with (e - 2 * -1)%Z by lia. replace (e - -1 - 1)%Z with e by lia. lia.
      * intros k Hk N1 N2 N3. rewrite Q by lia. destruct (Nat.eqb_spec k s), (Nat.eqb_spec k (s + 1)), (Nat.eqb_spec (k + 1) s); try lia; reflexivity.
    + rewrite (zsum_two _ _ s (s - 1)); [|lia|lia|lia|].
      * rewrite !Q by lia. rewrite !Nat.eqb_refl. destruct (Nat.eqb_spec (s - 1) s), (Nat.eqb_spec (s - 1) (s + 1)), (Nat.eqb_spec (s - 1 + 1) s); try lia. cbn [orb]. destruct b; cbn [sgn].
        -- replace (e - 1 - 1)%Z with (e - 2 * 1)%Z by lia. replace (e - 1 + 1)%Z with e by lia. lia.
        -- replace (e - -1 + 1)%Z with (e - 2 * -1)%Z by lia. replace (e - -1 - 1)%Z with e by lia. lia.
      * intros k Hk N1 N2. rewrite Q by lia. destruct (Nat.eqb_spec k s), (Nat.eqb_spec k (s + 1)), (Nat.eqb_spec (k + 1) s); try lia; reflexivity.
  - rewrite (zsum_one _ _ i); [rewrite Q by lia; destruct (Nat.eqb_spec i s); [contradiction|]; rewrite Nat.eqb_refl; lia|lia|]. intros k Hk Nk. rewrite Q by lia. destruct (Nat.eqb_spec i s); [contradiction|]. destruct (Nat.eqb_spec i k); [lia|reflexivity].
Qed.
Lemma cw_fin w : exists B, forall i j e, i < n - 1 -> j < n - 1 -> (B < e \/ e < - B)%Z -> c w i j e = 0%Z.
Proof.
  apply uniform. intros i j. destruct (numcoef_bounded (mentry (M gens invs E w) i j)) as [B1 H1], (numcoef_low (mentry (M gens invs E w) i j)) as [B2 H2]. exists (Z.max B1 (- B2)). intros e [He|He]; [apply H1|apply H2]; lia.
Qed.
Lemma cw_be u w i j e : braid_eq n u w -> i < n - 1 -> j < n - 1 -> cg p (c u i j e) (c w i j e).
Proof using EJ EG EI.
  intros HB Hi Hj. destruct (Mfacts n 1 p R (n - 1) gens invs E EJ (burau_dim n p R EJ) EG EI) as (_ & _ & _ & _ & _ & SM & BM & _). apply (pmeq_coef p (n - 1)); auto.
Qed.
End Words.

(** the exponent of a scalar image: it is that of an even power of the Garside element *)
Section Exponent.
Variables (n : nat) (p : Z) (R : rep) (gens invs : list (mat num)) (E : mat num).
Hypothesis (EJ : jones_rep n 1 p = Ok R) (EG : rep_artin_gens_invs R = Ok (gens, invs)) (EI : rep_id R = Ok E) (p1 : p <> 1%Z).
Notation c := (cw gens invs E).
Lemma scalar_div w k : 3 <= n -> in_range n w -> scalar p n c w k -> (2 * Z.of_nat n | k)%Z.
Proof using All.
  intros n3 Hw HS. destruct (Mfacts n 1 p R (n - 1) gens invs E EJ (burau_dim n p R EJ) EG EI) as (_ & _ & Hp & _).
  assert (EN : exists R', jones_rep (S n) 1 p = Ok R') by (unfold jones_rep; destruct (Nat.leb_spec 1 (S n)); [|lia]; destruct (Nat.leb_spec (2 * 1) (S n)); [|lia]; destruct (Z.leb_spec 0 p); [|lia]; cbn [assert_ bind]; eauto).
  destruct EN as [R' EJ']. destruct (eval_M (S n) 1 p R' [] EJ' ltac:(constructor)) as (_ & gn & inn & En & _ & EGn & EIn & _).
  set (c' := cw gn inn En). pose proof (cw_nil (S n) p R' gn inn En EJ' EGn EIn) as N'. pose proof (cw_step (S n) p R' gn inn En EJ' EGn EIn) as S'. fold c' in N', S'.
  pose proof (cw_nil n p R gens invs E EJ EG EI) as N0. pose proof (cw_step n p R gens invs E EJ EG EI) as S0.
  pose proof (block_word p (S n) n c' c N' S' N0 S0 ltac:(lia) w Hw) as BL. pose proof (fixed_word p (S n) c' N' S' n ltac:(lia) w Hw 0) as FX.
  destruct (cw_fin (S n) gn inn En w) as [B HB]. fold c' in HB. assert (P : (par (n - 1) = 1 \/ par (n - 1) = -1)%Z) by (unfold par; destruct (Nat.even (n - 1)); auto).
  apply (scalar_exponent p n k (fun e => par (n - 1) * c' w 0%nat (n - 1)%nat e)%Z n3 Hp p1).
  - exists B. intros e He. rewrite HB by (auto; lia). lia.
  - intros e. specialize (FX e ltac:(lia)). change (cg p (fixed n (c' w) 0 e) (fixed n (c' []) 0 e)) in FX.
    assert (F0 : fixed n (c' []) 0 e = (pt 1 e - pt (-1) e)%Z).
    { unfold fixed. rewrite (zsum_one n _ 0); [|lia|].
      - rewrite !N' by lia. change (par 0) with 1%Z. cbn [Nat.eqb andb Z.of_nat]. unfold pt. destruct (Z.eqb_spec (e - 0 - 1) 0), (Z.eqb_spec (e + 0 + 1) 0), (Z.eqb_spec e 1), (Z.eqb_spec e (-1)); lia.
      - intros j Hj NJ. rewrite !N' by lia. destruct (Nat.eqb_spec 0 j); [lia|]. cbn [andb]. lia. }
    assert (F1 : cg p (fixed n (c' w) 0 e) (pt (k + 1) e - pt (k - 1) e + par (n - 1) * (c' w 0%nat (n - 1)%nat (e - Z.of_nat n) - c' w 0%nat (n - 1)%nat (e + Z.of_nat n)))%Z).
    { unfold fixed. destruct n as [|m] eqn:En'; [lia|]. cbn [zsum]. replace (S m - 1) with m by lia. apply cg_add; [|apply cg_eq; do 2 f_equal; [f_equal; lia|f_equal; lia]].
      rewrite (zsum_cg p m _ (fun j => if (j =? 0)%nat then pt (k + 1) e - pt (k - 1) e else 0)%Z).
      - apply cg_eq. rewrite (zsum_one m _ 0); [reflexivity|lia|]. intros j Hj NJ. destruct (Nat.eqb_spec j 0); [lia|reflexivity].
      - intros j Hj. assert (Q : forall x, cg p (c' w 0 j x) (if (j =? 0)%nat && (x =? k)%Z then 1%Z else 0%Z)) by (intros x; transitivity (c w 0 j x); [apply BL; lia|apply HS; lia]).
        rewrite (cg_mul p (par j) _ _ (cg_sub p _ _ (Q (e - Z.of_nat j - 1)%Z) _ _ (Q (e + Z.of_nat j + 1)%Z))). apply cg_eq. destruct (Nat.eqb_spec j 0) as [->|]; cbn [andb]; [|lia]. change (par 0) with 1%Z. unfold pt. destruct (Z.eqb_spec (e - Z.of_nat 0 - 1) k), (Z.eqb_spec (e + Z.of_nat 0 + 1) k), (Z.eqb_spec e (k + 1)), (Z.eqb_spec e (k - 1)); lia. }
    rewrite F0, F1 in FX. etransitivity; [|exact FX]. apply cg_eq. ring.
Qed.
(** ** words *)
Notation Dw := (pword (Dl 0 (n - 1))).
Lemma wpow_sq m : 2 <= n -> braid_eq n (wpow (Dw ++ Dw) m) (wpow Dw (2 * m)).
Proof using All. intros n2. rewrite <- (wpow_nest n Dw 2 m) by now apply Dw_range. apply wpow_mor. change (wpow Dw 2) with (Dw ++ Dw ++ []). rewrite app_nil_r. apply be_refl. Qed.
Lemma two_strands w : in_range 2 w -> exists m, braid_eq 2 w (wpow [(0, true)] m).
Proof.
  induction 1 as [|[s b] w Hs _ [m IH]]; [exists 0%Z; apply be_refl|]. cbn [fst] in Hs. assert (s = 0) by lia. subst s. assert (RG : in_range 2 [(0, true)]) by (constructor; [cbn; lia|constructor]). change ((0, b) :: w) with ([(0, b)] ++ w). destruct b.
  - exists (m + 1)%Z. rewrite (wpow_succ 2) by exact RG. now rewrite IH.
  - exists (m - 1)%Z. rewrite (wpow_pred 2) by exact RG. now rewrite IH.
Qed.
Theorem near_word w : in_range n w ->
  ((exists k A, hom p n c w k A /\ exists i j, i < n - 1 /\ j < n - 1 /\ ~ (p | A i j)%Z) <-> exists m, scalar p n c (wpow Dw (- m) ++ w) 0).
Proof using All.
  intros Hw. pose proof (strands2 n p R EJ) as n2. destruct (Mfacts n 1 p R (n - 1) gens invs E EJ (burau_dim n p R EJ) EG EI) as (_ & _ & Hp & _).
  pose proof (cw_nil n p R gens invs E EJ EG EI) as CN. pose proof (cw_step n p R gens invs E EJ EG EI) as CS. pose proof (cw_left n p R gens invs E EJ EG EI) as CL. pose proof (cw_fin n gens invs E) as CF. pose proof (cw_be n p R gens invs E EJ EG EI) as CB.
  pose proof (Dw_range n n2) as RD. assert (RDD : in_range n (Dw ++ Dw)) by (apply in_range_app; now split).
  assert (SP : forall m, scalar p n c (wpow (Dw ++ Dw) m) (m * (2 * Z.of_nat n))) by (intros m; apply (scalar_pow p n c n2 CN CS CL CF CB p1 Hp); [exact RDD|apply (delta_sq p n c n2 CN CS CL CF CB p1 Hp)]).
  assert (P1 : ~ (p | 1)%Z) by (intros Q; apply Z.divide_1_r in Q; lia).
  split.
  - intros (k & A & HH & _). destruct (Nat.eq_dec n 2) as [N2|N2].
    + assert (K : exists m, braid_eq n w (wpow Dw m)) by (rewrite N2 in *; exact (two_strands w Hw)). destruct K as [m K]. exists m. apply (scalar_be p n c CB []); [|apply (scalar_nil p n c n2 CN)]. rewrite K. apply be_sym. rewrite <- (wpow_add n) by exact RD. replace (- m + m)%Z with 0%Z by lia. rewrite wpow_0. apply be_refl.
    + destruct (hom_scalar p n c n2 CN CS CL CF CB p1 Hp w k A Hw HH) as [HS|HS].
      * destruct (scalar_div w k ltac:(lia) Hw HS) as [m K]. exists (2 * m)%Z. apply (scalar_be p n c CB (wpow (Dw ++ Dw) (- m) ++ w)); [rewrite wpow_sq by exact n2; replace (2 * - m)%Z with (- (2 * m))%Z by lia; apply be_refl|].
        replace 0%Z with (- m * (2 * Z.of_nat n) + k)%Z by lia. apply (scalar_app p n c n2 CN CS); auto.
      * assert (RW : in_range n (Dw ++ w)) by (apply in_range_app; now split). destruct (scalar_div (Dw ++ w) _ ltac:(lia) RW HS) as [m K]. exists (2 * m - 1)%Z. apply (scalar_be p n c CB (wpow (Dw ++ Dw) (- m) ++ (Dw ++ w))).
        -- rewrite wpow_sq by exact n2. rewrite app_assoc. apply be_app; [|apply be_refl]. replace (- (2 * m - 1))%Z with (2 * - m + 1)%Z by lia. rewrite (wpow_add n Dw (2 * - m) 1) by exact RD. rewrite wpow_1. apply be_refl.
        -- replace 0%Z with (- m * (2 * Z.of_nat n) + (Z.of_nat n + k))%Z by lia. apply (scalar_app p n c n2 CN CS); auto.
  - intros [m HS]. set (g := wpow Dw (- m) ++ w) in *. assert (RG : in_range n g) by (apply in_range_app; split; [now apply in_range_wpow|exact Hw]).
    assert (EW : braid_eq n (wpow Dw m ++ g) w). { unfold g. rewrite app_assoc, <- (wpow_add n) by exact RD. replace (m + - m)%Z with 0%Z by lia. rewrite wpow_0. apply be_refl. }
    destruct (Z.Even_or_Odd m) as [[q Q]|[q Q]].
    + assert (K : scalar p n c w (q * (2 * Z.of_nat n))). { apply (scalar_be p n c CB (wpow (Dw ++ Dw) q ++ g)); [rewrite <- EW, wpow_sq, Q by exact n2; apply be_refl|]. rewrite <- (Z.add_0_r (q * _)). apply (scalar_app p n c n2 CN CS); auto. }
      exists (q * (2 * Z.of_nat n))%Z, (fun i j => if (i =? j)%nat then 1 else 0)%Z. split; [now apply scalar_hom|]. exists 0, 0. split; [lia|]. split; [lia|exact P1].
    + set (x := wpow (Dw ++ Dw) q ++ g). assert (RX : in_range n x) by (apply in_range_app; split; [now apply in_range_wpow|exact RG]).
      assert (K : scalar p n c x (q * (2 * Z.of_nat n))) by (rewrite <- (Z.add_0_r (q * _)); apply (scalar_app p n c n2 CN CS); auto).
      assert (EX : braid_eq n (Dw ++ x) w). { unfold x. rewrite <- EW, wpow_sq, Q, app_assoc by exact n2. apply be_app; [|apply be_refl]. rewrite (Z.add_comm (2 * q)), (wpow_add n Dw 1 (2 * q)) by exact RD. rewrite wpow_1. apply be_refl. }
      exists (Z.of_nat n + q * (2 * Z.of_nat n))%Z, (fun i j => if (j =? n - 1 - 1 - i)%nat then par (n - 1) else 0)%Z. split.
      * intros i j e Hi Hj. rewrite <- (CB _ _ i j e EX Hi Hj). rewrite (mono_left p n c n2 CN CS Dw (Z.of_nat n) (fun i => n - 1 - 1 - i) (par (n - 1)) x); [|intros; lia|apply (delta_mono p n c n2 CN CS CL CF CB p1 Hp)|exact RX|exact Hi|exact Hj].
        rewrite (cg_mul p (par (n - 1)) _ _ (K (n - 1 - 1 - i) j (e - Z.of_nat n)%Z ltac:(lia) Hj)). apply cg_eq. destruct (j =? n - 1 - 1 - i); cbn [andb]; destruct (Z.eqb_spec (e - Z.of_nat n) (q * (2 * Z.of_nat n))), (Z.eqb_spec e (Z.of_nat n + q * (2 * Z.of_nat n))); lia.
      * exists 0, (n - 1 - 1). split; [lia|]. split; [lia|]. rewrite Nat.sub_0_r, Nat.eqb_refl. intros [y Y]. apply P1. pose proof (par_sq (n - 1)). exists (par (n - 1) * y)%Z. nia.
Qed.
End Exponent.

(** ** the normal forms *)
(** b is a power of the Garside element times a braid whose matrix is, modulo p, the unit matrix *)
Definition delta_times_kernel (tb : nat -> res (nftable (list nat))) (n : nat) (p : Z) (R : rep) (d : nat) (b : nfobj) : Prop :=
  exists k D g Y, from_gnf_pair tb n k [] = Ok D /\ nf_value tb n g /\ rep_evaluate_nf tb R g = Ok Y /\ is_unit_matrix p d Y /\ nf_mul tb D g = Ok b.

Lemma delta_lifts n : 1 <= n -> lifts n (rev (seq 0 n)) (pword (Dl 0 (n - 1))).
Proof. intros Hn. apply lifts_iff. exists (Dl 0 (n - 1)). split; [|reflexivity]. rewrite <- longest_rev. exact (Dl_redw n Hn). Qed.
Lemma near_kernel_hom n p gens invs E w X : sq (n - 1) X -> sq (n - 1) (M gens invs E w) -> pmeq p X (M gens invs E w) ->
  (near_kernel p (n - 1) X <-> exists k A, hom p n (cw gens invs E) w k A /\ exists i j, i < n - 1 /\ j < n - 1 /\ ~ (p | A i j)%Z).
Proof.
  intros SX SM PX. rewrite (pmeq_coef p (n - 1)) in PX by assumption.
  assert (Q : forall i j e, i < n - 1 -> j < n - 1 -> cg p (numcoef (mentry X i j) e) (cw gens invs E w i j e)) by (intros; now apply PX).
  assert (DV : forall x y, cg p x y -> (p | x)%Z <-> (p | y)%Z) by (intros x y [a Ha]; split; intros [b Hb]; [exists (b - a)%Z|exists (a + b)%Z]; lia).
  split.
  - intros (k & H & i & j & Hi & Hj & N). exists k, (fun i j => cw gens invs E w i j k). split.
    + intros i' j' e Hi' Hj'. destruct (Z.eqb_spec e k) as [->|Ne]; [reflexivity|]. apply cg_0. rewrite Z.sub_0_r. rewrite <- Q by assumption. destruct (H i' j' e Hi' Hj' Ne) as [x X']. exists x. lia.
    + exists i, j. split; [exact Hi|]. split; [exact Hj|]. now rewrite <- (DV _ _ (Q i j k Hi Hj)).
  - intros (k & A & H & i & j & Hi & Hj & N). exists k. split.
    + intros i' j' e Hi' Hj' Ne. apply (DV _ _ (Q i' j' e Hi' Hj')). specialize (H i' j' e Hi' Hj'). destruct (Z.eqb_spec e k); [contradiction|]. apply (DV _ _ H). exists 0%Z. lia.
    + exists i, j. split; [exact Hi|]. split; [exact Hj|]. rewrite (DV _ _ (Q i j k Hi Hj)). specialize (H i j k Hi Hj). rewrite Z.eqb_refl in H. now rewrite (DV _ _ H).
Qed.
Lemma unit_scalar n p gens invs E w Y : sq (n - 1) Y -> sq (n - 1) (M gens invs E w) -> pmeq p Y (M gens invs E w) -> (is_unit_matrix p (n - 1) Y <-> scalar p n (cw gens invs E) w 0).
Proof.
  intros SY SM PY. rewrite (pmeq_coef p (n - 1)) in PY by assumption.
  assert (Q : forall i j e, i < n - 1 -> j < n - 1 -> cg p (numcoef (mentry Y i j) e) (cw gens invs E w i j e)) by (intros; now apply PY).
  assert (EN : forall i j, mentry Y i j = nth ((n - 1) * i + j) (mdata Y) (NI 0)) by (intros i j; destruct SY as (_ & _ & CY); unfold mentry; rewrite CY; reflexivity).
  assert (V : forall (i j : nat) (e : Z), numcoef (if (i =? j)%nat then NI 1 else NI 0) e = if (j =? i)%nat && (e =? 0)%Z then 1%Z else 0%Z) by (intros i j e; rewrite (Nat.eqb_sym j i); destruct (i =? j); cbn; destruct (e =? 0)%Z; reflexivity).
  split.
  - intros [_ H] i j e Hi Hj. rewrite <- Q by assumption. specialize (H i j Hi Hj e). rewrite <- EN in H. rewrite <- V. exact H.
  - intros H. split; [now apply sq_square|]. intros i j Hi Hj e. rewrite <- EN. specialize (H i j e Hi Hj). rewrite <- Q in H by assumption. rewrite <- V in H. exact H.
Qed.
(** C123.  For the reduced Burau representation, on any number of strands and modulo any
    p <> 1, the matrix of a braid is, modulo p, v^e times a matrix of constants (it
    has projective length 1) if and only if the braid is a power of the Garside element
    times a braid in the kernel. *)
Theorem C123_burau n p tb R b X : 2 <= n -> gnf_table n tb -> jones_rep n 1 p = Ok R -> p <> 1%Z -> nf_value tb n b -> rep_evaluate_nf tb R b = Ok X ->
  (near_kernel p (n - 1) X <-> delta_times_kernel tb n p R (n - 1) b).
Proof.
  intros n2 Ht EJ P1 Vb EX. pose proof (gnf_table_ptab n tb Ht) as Etb. pose proof (ptab_ok n n2) as TK.
  destruct (api_word _ _ _ _ _ _ _ _ _ TK tb Etb b Vb) as (u & Eu & Hu & _ & Db). pose proof (word_ok_range n u Hu) as Ru.
  destruct (eval_denotes n tb p R b _ n2 Ht EJ Db) as (gens & invs & E & X' & EG & EI & EX' & SX & PX). rewrite EX in EX'. injection EX' as <-.
  destruct (Mfacts n 1 p R (n - 1) gens invs E EJ (burau_dim n p R EJ) EG EI) as (_ & _ & _ & _ & _ & SM & BM & _).
  rewrite (near_kernel_hom n p gens invs E (expand u) X SX (SM _) PX). rewrite (near_word n p R gens invs E EJ EG EI P1 (expand u) Ru).
  set (Dw := pword (Dl 0 (n - 1))). assert (LD : lifts n (rev (seq 0 n)) Dw) by (apply delta_lifts; lia). pose proof (Dw_range n n2) as RD. fold Dw in RD. unfold delta_times_kernel.
  assert (DK : forall k, exists D, from_gnf_pair tb n k [] = Ok D /\ denotes tb n D (wpow Dw k)). { intros k. destruct (C48_from_gnf_pair n tb k [] [] Dw n2 Ht ltac:(constructor) ltac:(constructor) LD) as (D & ED & DD). exists D. split; [exact ED|]. cbn [concat] in DD. now rewrite app_nil_r in DD. }
  split.
  - intros [m HS]. destruct (DK m) as (D & ED & DD). destruct (DK (- m)%Z) as (D' & _ & DD'). destruct (api_mul _ _ _ _ _ _ _ _ _ TK tb Etb D' b _ _ DD' Db) as (g & Eg & Dg).
    destruct (eval_denotes n tb p R g _ n2 Ht EJ Dg) as (gens' & invs' & E' & Y & EG' & EI' & EY & SY & PY). rewrite EG in EG'. injection EG' as <- <-. rewrite EI in EI'. injection EI' as <-.
    exists m, D, g, Y. split; [exact ED|]. split; [exact (proj1 Dg)|]. split; [exact EY|]. split; [apply (unit_scalar n p gens invs E (wpow Dw (- m) ++ expand u)); auto|].
    destruct (api_mul _ _ _ _ _ _ _ _ _ TK tb Etb D g _ _ DD Dg) as (b' & Eb' & Db'). rewrite Eb'. f_equal. apply (api_eq _ _ _ _ _ _ _ _ _ TK tb Etb b' b _ _ Db' Db). rewrite app_assoc, <- (wpow_add n) by exact RD. replace (m + - m)%Z with 0%Z by lia. rewrite wpow_0. apply be_refl.
  - intros (k & D & g & Y & ED & Vg & EY & UY & EB). exists k. destruct (DK k) as (D' & ED' & DD). rewrite ED in ED'. injection ED' as <-.
    destruct (api_word _ _ _ _ _ _ _ _ _ TK tb Etb g Vg) as (x & Ex & Hx & _ & Dg). destruct (eval_denotes n tb p R g _ n2 Ht EJ Dg) as (gens' & invs' & E' & Y' & EG' & EI' & EY' & SY & PY). rewrite EG in EG'. injection EG' as <- <-. rewrite EI in EI'. injection EI' as <-. rewrite EY in EY'. injection EY' as <-.
    apply (unit_scalar n p gens invs E (expand x)) in UY; auto. destruct (api_mul _ _ _ _ _ _ _ _ _ TK tb Etb D g _ _ DD Dg) as (b' & Eb' & Db'). rewrite EB in Eb'. injection Eb' as <-.
    apply (scalar_be p n (cw gens invs E) (cw_be n p R gens invs E EJ EG EI) (expand x)); [|exact UY].
    pose proof (proj1 (api_eq _ _ _ _ _ _ _ _ _ TK tb Etb b b _ _ Db Db') eq_refl) as Q. apply be_sym. fold Dw. rewrite Q, app_assoc, <- (wpow_add n) by exact RD. replace (- k + k)%Z with 0%Z by lia. rewrite wpow_0. apply be_refl.
Qed.
