(** BurauStable.v – the Burau images of a word of B_m in the matrices of B_m and of B_n,
    n > m, at the level of coefficients. *)
From Verif Require Import Base SpecBraid BurauWords.
From Coq Require Import Ring.
Local Open Scope nat_scope.

Lemma zsum_three d f a : a + 2 < d -> (forall k, k < d -> k <> a -> k <> a + 1 -> k <> a + 2 -> f k = 0%Z) -> zsum d f = (f a + f (a + 1)%nat + f (a + 2)%nat)%Z.
Proof.
  induction d as [|d IH]; intros Ha H; [lia|]. cbn [zsum]. destruct (Nat.eq_dec (a + 2) d) as [Q|Q].
  - rewrite (zsum_two d f a (a + 1)); [now rewrite Q|lia|lia|lia|]. intros k Hk N1 N2. apply H; lia.
  - rewrite IH, (H d) by (intros; try apply H; lia). lia.
Qed.
Lemma zsum_diff d f g : (zsum d f - zsum d g = zsum d (fun k => f k - g k))%Z.
Proof. induction d as [|d IH]; [reflexivity|]. cbn [zsum]. lia. Qed.
Lemma zsum_cong p d f g : (forall k, k < d -> (p | f k - g k)%Z) -> (p | zsum d f - zsum d g)%Z.
Proof.
  induction d as [|d IH]; intros H; [exists 0%Z; reflexivity|]. cbn [zsum]. destruct (IH ltac:(intros; apply H; lia)) as [x X]. destruct (H d ltac:(lia)) as [y Y]. exists (x + y)%Z. lia.
Qed.
Definition par (j : nat) : Z := if Nat.even j then 1%Z else (-1)%Z.
Lemma par_S j : par (S j) = (- par j)%Z.
Proof. unfold par. rewrite Nat.even_succ, <- Nat.negb_even. destruct (Nat.even j); reflexivity. Qed.

(** what cw_step says of the new coefficients *)
Definition stepped (c : nat -> nat -> Z -> Z) (s : nat) (g : Z) (i j : nat) (e : Z) : Z :=
  (if (j =? s)%nat then - c i s (e - 2 * g) else c i j e - (if ((j =? s + 1) || (j + 1 =? s))%nat then c i s (e - g) else 0))%Z.
Definition unit_coeff (i j : nat) (e : Z) : Z := if (i =? j)%nat && (e =? 0)%Z then 1%Z else 0%Z.
(** the fixed vector: (-1)^j (v^(j+1) - v^-(j+1)) *)
Definition fixed (m : nat) (c : nat -> nat -> Z -> Z) (i : nat) (e : Z) : Z := zsum m (fun j => par j * (c i j (e - Z.of_nat j - 1) - c i j (e + Z.of_nat j + 1)))%Z.
Lemma fixed_cong p m c c' i : (forall j e, j < m -> (p | c i j e - c' i j e)%Z) -> forall e, (p | fixed m c i e - fixed m c' i e)%Z.
Proof.
  intros H e. apply zsum_cong. intros j Hj. destruct (H j (e - Z.of_nat j - 1)%Z Hj) as [x X]. destruct (H j (e + Z.of_nat j + 1)%Z Hj) as [y Y]. exists (par j * (x - y))%Z. nia.
Qed.
Ltac norm_h h := repeat match goal with |- context [h ?x] => match goal with |- context [h ?y] => lazymatch x with y => fail | _ => replace (h x) with (h y) by (f_equal; lia) end end end.
Lemma fixed_step m c s g i e : s + 1 < m -> g = 1%Z \/ g = (-1)%Z -> fixed m (stepped c s g) i e = fixed m c i e.
Proof.
  intros Hs Hg. enough (Q : (fixed m (stepped c s g) i e - fixed m c i e = 0)%Z) by lia. unfold fixed. rewrite zsum_diff. destruct s as [|s].
  - rewrite (zsum_two m _ 0 1); [|lia|lia|lia|].
    + unfold stepped. cbn [Nat.eqb Nat.add orb]. change (par 0) with 1%Z. change (par 1) with (-1)%Z. change (Z.of_nat 0) with 0%Z. change (Z.of_nat 1) with 1%Z.
      set (h := c i 0). destruct Hg as [-> | ->]; norm_h h; ring.
    + intros k Hk N0 N1. unfold stepped. destruct (Nat.eqb_spec k 0); [lia|]. destruct (Nat.eqb_spec k (0 + 1)); [lia|]. destruct (Nat.eqb_spec (k + 1) 0); [lia|]. cbn [orb]. ring.
  - rewrite (zsum_three m _ s); [|lia|].
    + unfold stepped. replace (s + 1) with (S s) by lia. replace (s + 2) with (S (S s)) by lia. replace (S s + 1) with (S (S s)) by lia. replace (S (S s) + 1) with (S (S (S s))) by lia.
      rewrite !Nat.eqb_refl. destruct (Nat.eqb_spec s (S s)); [lia|]. destruct (Nat.eqb_spec (S (S s)) (S s)); [lia|]. destruct (Nat.eqb_spec s (S (S s))); [lia|]. cbn [orb]. rewrite !par_S.
      set (t := par s). rewrite !Nat2Z.inj_succ. unfold Z.succ.
      assert (EQ : forall x y, x = y -> c i (S s) x = c i (S s) y) by (intros; subst; reflexivity).
      set (h := c i (S s)) in *. set (z := Z.of_nat s) in *.
      destruct Hg as [-> | ->].
      * norm_h h. ring.
      * norm_h h. ring.
    + intros k Hk N0 N1 N2. unfold stepped. destruct (Nat.eqb_spec k (S s)); [lia|]. destruct (Nat.eqb_spec k (S s + 1)); [lia|]. destruct (Nat.eqb_spec (k + 1) (S s)); [lia|]. cbn [orb]. ring.
Qed.

(** ** families of coefficients that obey the rule *)
Section Family.
Variables (p : Z) (n : nat) (c : bword -> nat -> nat -> Z -> Z).
Definition g_of (b : bool) : Z := if b then 1%Z else (-1)%Z.
Hypothesis c_nil : forall i j e, i < n - 1 -> j < n - 1 -> c [] i j e = unit_coeff i j e.
Hypothesis c_step : forall w s b i j e, s + 1 < n -> i < n - 1 -> j < n - 1 -> (p | c (w ++ [(s, b)]) i j e - stepped (c w) s (g_of b) i j e)%Z.
Variable m : nat.
Hypothesis Hm : m < n.
(** rows m - 1 and below are those of the unit matrix, and so are the columns from m on *)
Lemma low_rows w : in_range m w -> forall i j e, m - 1 <= i -> i < n - 1 -> j < n - 1 -> (p | c w i j e - unit_coeff i j e)%Z.
Proof using All.
  induction w as [|[s b] w IH] using rev_ind; intros Hw i j e Hi1 Hi2 Hj; [rewrite c_nil by assumption; exists 0%Z; lia|].
  apply Forall_app in Hw. destruct Hw as [Hw Hs]. apply Forall_inv in Hs. cbn [fst] in Hs. destruct (c_step w s b i j e ltac:(lia) Hi2 Hj) as [x X].
  assert (K : forall e, (p | c w i s e)%Z). { intros e'. destruct (IH Hw i s e' Hi1 Hi2 ltac:(lia)) as [y Y]. unfold unit_coeff in Y. destruct (Nat.eqb_spec i s); [lia|]. cbn [andb] in Y. exists y. lia. }
  destruct (IH Hw i j e Hi1 Hi2 Hj) as [y Y]. unfold stepped in X. destruct (Nat.eqb_spec j s) as [->|N].
  - destruct (K (e - 2 * g_of b)%Z) as [z1 Z1]. unfold unit_coeff in *. destruct (Nat.eqb_spec i s); [lia|]. cbn [andb] in *. exists (x - z1)%Z. lia.
  - destruct ((j =? s + 1) || (j + 1 =? s)); [|exists (x + y)%Z; lia]. destruct (K (e - g_of b)%Z) as [z1 Z1]. exists (x + y - z1)%Z. lia.
Qed.
Lemma right_columns w : in_range m w -> forall i j e, i < n - 1 -> m <= j -> j < n - 1 -> (p | c w i j e - unit_coeff i j e)%Z.
Proof using All.
  induction w as [|[s b] w IH] using rev_ind; intros Hw i j e Hi Hj1 Hj2; [rewrite c_nil by assumption; exists 0%Z; lia|].
  apply Forall_app in Hw. destruct Hw as [Hw Hs]. apply Forall_inv in Hs. cbn [fst] in Hs. destruct (c_step w s b i j e ltac:(lia) Hi Hj2) as [x X]. destruct (IH Hw i j e Hi Hj1 Hj2) as [y Y].
  unfold stepped in X. destruct (Nat.eqb_spec j s); [lia|]. destruct (Nat.eqb_spec j (s + 1)); [lia|]. destruct (Nat.eqb_spec (j + 1) s); [lia|]. cbn [orb] in X. exists (x + y)%Z. lia.
Qed.
(** the vector is fixed *)
Lemma fixed_word w : in_range m w -> forall i e, i < n - 1 -> (p | fixed m (c w) i e - fixed m (c []) i e)%Z.
Proof using All.
  induction w as [|[s b] w IH] using rev_ind; intros Hw i e Hi; [exists 0%Z; lia|].
  apply Forall_app in Hw. destruct Hw as [Hw Hs]. apply Forall_inv in Hs. cbn [fst] in Hs.
  destruct (IH Hw i e Hi) as [x X]. destruct (fixed_cong p m (c (w ++ [(s, b)])) (stepped (c w) s (g_of b)) i ltac:(intros j e' Hj; apply c_step; lia) e) as [y Y].
  rewrite fixed_step in Y; [exists (x + y)%Z; lia|lia|destruct b; auto].
Qed.
(** so the last column of the block follows from the others *)
Lemma last_column u w i : 0 < m -> in_range m u -> in_range m w -> i < n - 1 -> (forall j e, j < m - 1 -> (p | c u i j e - c w i j e)%Z) ->
  (exists B, forall e, (B < e)%Z -> c u i (m - 1) e = 0%Z /\ c w i (m - 1) e = 0%Z) -> forall e, (p | c u i (m - 1) e - c w i (m - 1) e)%Z.
Proof using All.
  intros M0 Hu Hw Hi H [B HB]. assert (S : forall e, (p | (c u i (m - 1) e - c w i (m - 1) e) - (c u i (m - 1) (e + 2 * Z.of_nat m) - c w i (m - 1) (e + 2 * Z.of_nat m)))%Z).
  { intros e. set (x := (e + Z.of_nat m)%Z). destruct (fixed_word u Hu i x Hi) as [a A]. destruct (fixed_word w Hw i x Hi) as [b Bb].
    assert (F : forall v, fixed m (c v) i x = (zsum (m - 1) (fun j => par j * (c v i j (x - Z.of_nat j - 1) - c v i j (x + Z.of_nat j + 1)))%Z + par (m - 1) * (c v i (m - 1) e - c v i (m - 1) (e + 2 * Z.of_nat m)))%Z).
    { intros v. unfold fixed. destruct m as [|m']; [lia|]. cbn [zsum]. replace (S m' - 1) with m' by lia. do 2 f_equal. unfold x. f_equal; [f_equal; lia|f_equal; lia]. }
    rewrite !F in A. rewrite !F in Bb.
    destruct (zsum_cong p (m - 1) (fun j => par j * (c u i j (x - Z.of_nat j - 1) - c u i j (x + Z.of_nat j + 1)))%Z (fun j => par j * (c w i j (x - Z.of_nat j - 1) - c w i j (x + Z.of_nat j + 1)))%Z) as [z Zz].
    { intros j Hj. destruct (H j (x - Z.of_nat j - 1)%Z Hj) as [x1 X1]. destruct (H j (x + Z.of_nat j + 1)%Z Hj) as [y1 Y1]. exists (par j * (x1 - y1))%Z. nia. }
    assert (P : par (m - 1) = 1%Z \/ par (m - 1) = (-1)%Z) by (unfold par; destruct (Nat.even (m - 1)); auto).
    destruct P as [P|P]; rewrite P in *; [exists (a - b - z)%Z; lia|exists (- (a - b - z))%Z; lia]. }
  assert (T : forall k e, (p | (c u i (m - 1) e - c w i (m - 1) e) - (c u i (m - 1) (e + 2 * Z.of_nat m * Z.of_nat k) - c w i (m - 1) (e + 2 * Z.of_nat m * Z.of_nat k)))%Z).
  { induction k as [|k IH]; intros e; [replace (e + 2 * Z.of_nat m * Z.of_nat 0)%Z with e by lia; exists 0%Z; lia|]. destruct (S e) as [a A]. destruct (IH (e + 2 * Z.of_nat m)%Z) as [b Bb]. replace (e + 2 * Z.of_nat m + 2 * Z.of_nat m * Z.of_nat k)%Z with (e + 2 * Z.of_nat m * Z.of_nat (Datatypes.S k))%Z in Bb by lia. exists (a + b)%Z. lia. }
  intros e. set (k := Z.to_nat (Z.max 0 (B - e + 1))). specialize (T k e). destruct (HB (e + 2 * Z.of_nat m * Z.of_nat k)%Z) as [H1 H2].
  - assert (Z.of_nat k >= B - e + 1)%Z by lia. assert (0 <= Z.of_nat k)%Z by lia. assert (1 <= Z.of_nat m)%Z by lia. clearbody k. nia.
  - rewrite H1, H2 in T. destruct T as [t T]. exists t. lia.
Qed.
End Family.
(** the block is the image in the smaller group *)
Lemma block_word p n m (c c' : bword -> nat -> nat -> Z -> Z) :
  (forall i j e, i < n - 1 -> j < n - 1 -> c [] i j e = unit_coeff i j e) -> (forall w s b i j e, s + 1 < n -> i < n - 1 -> j < n - 1 -> (p | c (w ++ [(s, b)]) i j e - stepped (c w) s (g_of b) i j e)%Z) ->
  (forall i j e, i < m - 1 -> j < m - 1 -> c' [] i j e = unit_coeff i j e) -> (forall w s b i j e, s + 1 < m -> i < m - 1 -> j < m - 1 -> (p | c' (w ++ [(s, b)]) i j e - stepped (c' w) s (g_of b) i j e)%Z) ->
  m <= n -> forall w, in_range m w -> forall i j e, i < m - 1 -> j < m - 1 -> (p | c w i j e - c' w i j e)%Z.
Proof.
  intros N1 S1 N2 S2 L w. induction w as [|[s b] w IH] using rev_ind; intros Hw i j e Hi Hj; [rewrite N1, N2 by lia; exists 0%Z; lia|].
  apply Forall_app in Hw. destruct Hw as [Hw Hs]. apply Forall_inv in Hs. cbn [fst] in Hs. destruct (S1 w s b i j e ltac:(lia) ltac:(lia) ltac:(lia)) as [x X]. destruct (S2 w s b i j e ltac:(lia) Hi Hj) as [y Y].
  unfold stepped in X, Y. destruct (Nat.eqb_spec j s) as [->|N].
  - destruct (IH Hw i s (e - 2 * g_of b)%Z Hi Hj) as [z Z1]. exists (x - y - z)%Z. lia.
  - destruct (IH Hw i j e Hi Hj) as [z Z1]. destruct (IH Hw i s (e - g_of b)%Z Hi ltac:(lia)) as [t T]. destruct ((j =? s + 1) || (j + 1 =? s)); [exists (x - y + z - t)%Z|exists (x - y + z)%Z]; lia.
Qed.
