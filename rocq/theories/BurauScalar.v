(** BurauScalar.v – Burau images that are a power of v times a matrix of constants:
    at the level of the coefficients of the entries. *)
From Verif Require Import Base SpecBraid BraidTheory BurauWords BurauStable.
From Coq Require Import Ring Setoid Morphisms.
Local Open Scope nat_scope.

(** ** congruence modulo p *)
Definition cg (p a b : Z) : Prop := (p | a - b)%Z.
#[global] Instance cg_equiv p : Equivalence (cg p).
Proof.
  split; red; unfold cg.
  - intros x. exists 0%Z. lia.
  - intros x y [k K]. exists (- k)%Z. lia.
  - intros x y z [k K] [l L]. exists (k + l)%Z. lia.
Qed.
#[global] Instance cg_add p : Proper (cg p ==> cg p ==> cg p) Z.add.
Proof. intros a a' [k K] b b' [l L]. exists (k + l)%Z. lia. Qed.
#[global] Instance cg_sub p : Proper (cg p ==> cg p ==> cg p) Z.sub.
Proof. intros a a' [k K] b b' [l L]. exists (k - l)%Z. lia. Qed.
#[global] Instance cg_opp p : Proper (cg p ==> cg p) Z.opp.
Proof. intros a a' [k K]. exists (- k)%Z. lia. Qed.
Lemma cg_eq p a b : a = b -> cg p a b. Proof. intros ->. reflexivity. Qed.
Lemma cg_0 p a b : cg p (a - b) 0 <-> cg p a b.
Proof. unfold cg. now rewrite Z.sub_0_r. Qed.
Lemma cg_mul p s a b : cg p a b -> cg p (s * a) (s * b).
Proof. intros [k K]. exists (s * k)%Z. nia. Qed.

(** ** the form (v + 1/v) + (neighbours), applied to a column *)
Definition grow (d : nat) (f : nat -> Z -> Z) (s : nat) (e : Z) : Z :=
  (f s (e - 1) + f s (e + 1) + (if (s =? 0)%nat then 0 else f (s - 1)%nat e) + (if (s + 1 <? d)%nat then f (s + 1)%nat e else 0))%Z.
Lemma grow_cong p d f g : (forall l e, l < d -> cg p (f l e) (g l e)) -> forall s e, s < d -> cg p (grow d f s e) (grow d g s e).
Proof.
  intros H s e Hs. unfold grow. rewrite !H by exact Hs. destruct (Nat.eqb_spec s 0); [|rewrite (H (s - 1)) by lia]; (destruct (Nat.ltb_spec (s + 1) d); [rewrite (H (s + 1)) by lia|]); reflexivity.
Qed.
Lemma grow_sub d f g s e : grow d (fun l e => f l e - g l e)%Z s e = (grow d f s e - grow d g s e)%Z.
Proof. unfold grow. destruct (s =? 0), (s + 1 <? d); lia. Qed.
(** is j next to s *)
Definition adj (j s : nat) : bool := (j =? s + 1) || (j + 1 =? s).
Lemma grow_one d (h : Z -> Z) s i e : s < d -> i < d -> grow d (fun l e => if l =? s then h e else 0%Z) i e = if i =? s then (h (e - 1) + h (e + 1))%Z else if adj i s then h e else 0%Z.
Proof.
  intros Hs Hi. unfold grow, adj. destruct (Nat.eqb_spec i s) as [->|N].
  - destruct (Nat.eqb_spec (s - 1) s), (Nat.eqb_spec (s + 1) s), (Nat.eqb_spec s 0), (Nat.ltb_spec (s + 1) d); lia.
  - destruct (Nat.eqb_spec i 0), (Nat.ltb_spec (i + 1) d), (Nat.eqb_spec (i - 1) s), (Nat.eqb_spec (i + 1) s), (Nat.eqb_spec i (s + 1)); cbn [orb]; try lia.
Qed.

(** ** totals of finitely supported coefficients: the value at v = 1 *)
Definition tot (p : Z) (f : Z -> Z) (t : Z) : Prop :=
  exists lo len, (forall e, (e < lo \/ lo + Z.of_nat len <= e)%Z -> cg p (f e) 0) /\ cg p (zsum len (fun k => f (lo + Z.of_nat k)%Z)) t.
Lemma zsum_ext d f g : (forall k, k < d -> f k = g k) -> zsum d f = zsum d g.
Proof. induction d as [|d IH]; intros H; [reflexivity|]. cbn [zsum]. rewrite IH, H by (intros; try apply H; lia). reflexivity. Qed.
Lemma zsum_cg p d f g : (forall k, k < d -> cg p (f k) (g k)) -> cg p (zsum d f) (zsum d g).
Proof. apply zsum_cong. Qed.
Lemma zsum_app a b f : zsum (a + b) f = (zsum a f + zsum b (fun k => f (a + k)%nat))%Z.
Proof. induction b as [|b IH]; [rewrite Nat.add_0_r; cbn; lia|]. rewrite Nat.add_succ_r. cbn [zsum]. rewrite IH. lia. Qed.
Lemma zsum_add d f g : zsum d (fun k => f k + g k)%Z = (zsum d f + zsum d g)%Z.
Proof. induction d as [|d IH]; [reflexivity|]. cbn [zsum]. lia. Qed.
Lemma zsum_opp d f : zsum d (fun k => - f k)%Z = (- zsum d f)%Z.
Proof. induction d as [|d IH]; [reflexivity|]. cbn [zsum]. lia. Qed.
Lemma zsum_cg0 p d f : (forall k, k < d -> cg p (f k) 0) -> cg p (zsum d f) 0.
Proof. intros H. rewrite (zsum_cg p d f (fun _ => 0%Z)) by exact H. apply cg_eq. now apply zsum_zero. Qed.
(** a larger window has the same total *)
Lemma tot_window p f t : tot p f t -> exists B, (0 <= B)%Z /\ forall lo len, (lo <= - B)%Z -> (B <= lo + Z.of_nat len)%Z -> (forall e, (e < lo \/ lo + Z.of_nat len <= e)%Z -> cg p (f e) 0) /\ cg p (zsum len (fun k => f (lo + Z.of_nat k)%Z)) t.
Proof.
  intros (lo & len & H1 & H2). exists (Z.max (Z.abs lo) (Z.abs (lo + Z.of_nat len))). split; [lia|]. intros l2 n2 HL HN. split; [intros e He; apply H1; lia|].
  set (a := Z.to_nat (lo - l2)). set (b := n2 - a - len). assert (E : n2 = a + (len + b)) by lia. rewrite E, zsum_app, zsum_app. 
  rewrite (zsum_cg0 p a), (zsum_cg0 p b); [|intros k Hk; apply H1; lia|intros k Hk; apply H1; lia]. rewrite <- H2. apply cg_eq. rewrite Z.add_0_l, Z.add_0_r. apply zsum_ext. intros k Hk. f_equal. lia.
Qed.
Lemma tot_unique p f t u : tot p f t -> tot p f u -> cg p t u.
Proof.
  intros H1 H2. destruct (tot_window p f t H1) as (B1 & P1 & K1), (tot_window p f u H2) as (B2 & P2 & K2). set (B := Z.max B1 B2).
  destruct (K1 (- B)%Z (Z.to_nat (2 * B)) ltac:(lia) ltac:(lia)) as [_ E1], (K2 (- B)%Z (Z.to_nat (2 * B)) ltac:(lia) ltac:(lia)) as [_ E2]. now rewrite <- E1, <- E2.
Qed.
Lemma tot_cong p f g t u : (forall e, cg p (f e) (g e)) -> cg p t u -> tot p f t -> tot p g u.
Proof. intros H HT (lo & len & H1 & H2). exists lo, len. split; [intros e He; rewrite <- H; now apply H1|]. rewrite <- HT, <- H2. apply zsum_cg. intros k _. symmetry. apply H. Qed.
Lemma tot_add p f g t u : tot p f t -> tot p g u -> tot p (fun e => f e + g e)%Z (t + u).
Proof.
  intros H1 H2. destruct (tot_window p f t H1) as (B1 & P1 & K1), (tot_window p g u H2) as (B2 & P2 & K2). set (B := Z.max B1 B2).
  destruct (K1 (- B)%Z (Z.to_nat (2 * B)) ltac:(lia) ltac:(lia)) as [F1 E1], (K2 (- B)%Z (Z.to_nat (2 * B)) ltac:(lia) ltac:(lia)) as [F2 E2].
  exists (- B)%Z, (Z.to_nat (2 * B)). split; [intros e He; rewrite F1, F2 by exact He; reflexivity|]. rewrite <- E1, <- E2. apply cg_eq. apply zsum_add.
Qed.
Lemma tot_opp p f t : tot p f t -> tot p (fun e => - f e)%Z (- t).
Proof. intros (lo & len & H1 & H2). exists lo, len. split; [intros e He; rewrite H1 by exact He; reflexivity|]. rewrite <- H2. apply cg_eq. apply zsum_opp. Qed.
Lemma tot_shift p f t s : tot p f t -> tot p (fun e => f (e - s)%Z) t.
Proof. intros (lo & len & H1 & H2). exists (lo + s)%Z, len. split; [intros e He; apply H1; lia|]. rewrite <- H2. apply cg_eq. apply zsum_ext. intros k _. f_equal. lia. Qed.
Lemma tot_point p k a : tot p (fun e => if (e =? k)%Z then a else 0%Z) a.
Proof. exists k, 1. split; [intros e He; destruct (Z.eqb_spec e k); [lia|reflexivity]|]. cbn [zsum]. rewrite Z.add_0_r, Z.eqb_refl. reflexivity. Qed.

(** ** the permutation of a word *)
Definition sw (s x : nat) : nat := if x =? s then s + 1 else if x =? s + 1 then s else x.
Definition pos (w : bword) (x : nat) : nat := fold_right (fun l y => sw (fst l) y) x w.
Lemma sw_sw s x : sw s (sw s x) = x.
Proof. unfold sw. destruct (Nat.eqb_spec x s); [destruct (Nat.eqb_spec (s + 1) s), (Nat.eqb_spec (s + 1) (s + 1)); lia|]. destruct (Nat.eqb_spec x (s + 1)); [destruct (Nat.eqb_spec s s); lia|]. destruct (Nat.eqb_spec x s), (Nat.eqb_spec x (s + 1)); lia. Qed.
Lemma sw_lt n s x : s + 1 < n -> x < n -> sw s x < n.
Proof. unfold sw. destruct (x =? s), (Nat.eqb_spec x (s + 1)); lia. Qed.
Lemma pos_app u w x : pos (u ++ w) x = pos u (pos w x). Proof. apply fold_right_app. Qed.
Lemma pos_lt n w x : in_range n w -> x < n -> pos w x < n.
Proof. induction 1 as [|l w Hl _ IH]; intros Hx; [exact Hx|]. cbn [pos fold_right]. apply sw_lt; [exact Hl|]. now apply IH. Qed.
Lemma winv_cons l w : winv (l :: w) = winv w ++ [(fst l, negb (snd l))].
Proof. reflexivity. Qed.
Lemma pos_winv w x : pos (winv w) (pos w x) = x.
Proof. induction w as [|l w IH]; [reflexivity|]. rewrite winv_cons, pos_app. cbn [pos fold_right fst]. fold (pos w x). rewrite sw_sw. exact IH. Qed.
Lemma winv_snoc w l : winv (w ++ [l]) = (fst l, negb (snd l)) :: winv w.
Proof. unfold winv. rewrite map_app, rev_app_distr. reflexivity. Qed.
Lemma pos_winv_r w x : pos w (pos (winv w) x) = x.
Proof. revert x. induction w as [|l w IH] using rev_ind; intros x; [reflexivity|]. rewrite winv_snoc, pos_app. cbn [pos fold_right fst]. fold (pos (winv w) x). rewrite sw_sw. exact (IH x). Qed.

(** a permutation T of 0..n-1 with inverse T' for which the intervals between T' j, T' (j+1)
    and those between T i, T (i+1) are the transposes of each other *)
Definition le1 (a b : nat) : bool := a <=? b.
Definition split_at (T : nat -> nat) (j i : nat) : bool := xorb (T j <=? i) (T (j + 1) <=? i).
Lemma rigid_id n (T T' : nat -> nat) : (forall x, x < n -> T x < n /\ T' x < n /\ T' (T x) = x /\ T (T' x) = x) ->
  (forall i j, i + 1 < n -> j + 1 < n -> split_at T' j i = split_at T i j) -> T' 0 = 0 -> forall k, k < n -> forall x, x <= k -> T' x = x.
Proof.
  intros HT H T0. induction k as [|k IH]; intros Hk x Hx; [now replace x with 0 by lia|]. destruct (Nat.eq_dec x (S k)) as [->|N]; [|apply IH; lia].
  assert (TI : forall y, y <= k -> T y = y) by (intros y Hy; rewrite <- (IH ltac:(lia) y Hy) at 1; apply HT; lia).
  assert (TK : forall y, y < n -> (T y <= k <-> y <= k)). { intros y Hy. split; intros Q; [|rewrite TI by exact Q; exact Q]. destruct (HT y Hy) as (_ & _ & A & _). rewrite <- A. rewrite IH by lia. exact Q. }
  destruct (HT (S k) Hk) as (_ & B1 & _ & B2). set (c := T' (S k)) in *. assert (Hc : k < c) by (destruct (Nat.le_gt_cases c k) as [Q|Q]; [rewrite TI in B2 by exact Q; lia|exact Q]).
  destruct (Nat.eq_dec c (S k)) as [Q|Q]; [exact Q|exfalso]. specialize (H (k + 1) k ltac:(lia) ltac:(lia)). unfold split_at in H. rewrite (IH ltac:(lia) k (le_n k)) in H. replace (k + 1) with (S k) in H at 2 by lia. fold c in H.
  pose proof (TK (k + 1) ltac:(lia)) as K1. pose proof (TK (k + 1 + 1) ltac:(lia)) as K2.
  destruct (Nat.leb_spec k (k + 1)), (Nat.leb_spec c (k + 1)), (Nat.leb_spec (T (k + 1)) k), (Nat.leb_spec (T (k + 1 + 1)) k); cbn [xorb] in H; try discriminate; lia.
Qed.
Lemma rigid n (T T' : nat -> nat) : 2 <= n -> (forall x, x < n -> T x < n /\ T' x < n /\ T' (T x) = x /\ T (T' x) = x) ->
  (forall i j, i + 1 < n -> j + 1 < n -> split_at T' j i = split_at T i j) -> (forall x, x < n -> T x = x) \/ (forall x, x < n -> T x = n - 1 - x).
Proof.
  intros n2 HT H. destruct (HT 0 ltac:(lia)) as (_ & B1 & _ & B2). destruct (HT 1 ltac:(lia)) as (_ & C1 & _ & C2). assert (N01 : T' 0 <> T' 1) by congruence.
  assert (E0 : forall y, y < n -> (T y <= 0 <-> y = T' 0)). { intros y Hy. destruct (HT y Hy) as (_ & _ & A & _). split; intros Q; [rewrite <- A; f_equal; lia|subst y; lia]. }
  assert (A : T' 0 = 0 \/ T' 0 = n - 1).
  { destruct (Nat.eq_dec (T' 0) 0) as [Q|Q]; [now left|]. destruct (Nat.eq_dec (T' 0) (n - 1)) as [Q2|Q2]; [now right|]. exfalso. set (a := T' 0) in *.
    pose proof (H a 0 ltac:(lia) ltac:(lia)) as H1. pose proof (H (a - 1) 0 ltac:(lia) ltac:(lia)) as H2. unfold split_at in H1, H2. cbn [Nat.add] in H1, H2. fold a in H1, H2. replace (a - 1 + 1) with a in H2 by lia.
    pose proof (E0 a B1) as K1. pose proof (E0 (a + 1) ltac:(lia)) as K2. pose proof (E0 (a - 1) ltac:(lia)) as K3.
    destruct (Nat.leb_spec a a), (Nat.leb_spec (T' 1) a), (Nat.leb_spec (T a) 0), (Nat.leb_spec (T (a + 1)) 0); cbn [xorb] in H1; try discriminate; try lia;
    destruct (Nat.leb_spec a (a - 1)), (Nat.leb_spec (T' 1) (a - 1)), (Nat.leb_spec (T (a - 1)) 0); cbn [xorb] in H2; try discriminate; lia. }
  destruct A as [A|A].
  - left. intros x Hx. pose proof (rigid_id n T T' HT H A x Hx x (le_n x)) as K. destruct (HT x Hx) as (_ & _ & _ & Q). congruence.
  - right. set (U := fun x => T (n - 1 - x)). set (U' := fun x => n - 1 - T' x).
    assert (HU : forall x, x < n -> U x < n /\ U' x < n /\ U' (U x) = x /\ U (U' x) = x).
    { intros x Hx. unfold U, U'. destruct (HT (n - 1 - x) ltac:(lia)) as (Q1 & _ & Q2 & _). destruct (HT x Hx) as (_ & Q3 & _ & Q4). rewrite Q2. replace (n - 1 - (n - 1 - T' x)) with (T' x) by lia. rewrite Q4. lia. }
    assert (K : forall i j, i + 1 < n -> j + 1 < n -> split_at U' j i = split_at U i j).
    { intros i j Hi Hj. specialize (H (n - 2 - i) j ltac:(lia) ltac:(lia)). unfold split_at, U, U' in *. replace (n - 2 - i + 1) with (n - 1 - i) in H by lia. replace (n - 1 - (i + 1)) with (n - 2 - i) by lia.
      destruct (HT j ltac:(lia)) as (_ & Q1 & _). destruct (HT (j + 1) Hj) as (_ & Q2 & _). rewrite (xorb_comm (T (n - 1 - i) <=? j)). rewrite <- H.
      destruct (Nat.leb_spec (n - 1 - T' j) i), (Nat.leb_spec (n - 1 - T' (j + 1)) i), (Nat.leb_spec (T' j) (n - 2 - i)), (Nat.leb_spec (T' (j + 1)) (n - 2 - i)); cbn [xorb]; lia. }
    assert (U0 : U' 0 = 0) by (unfold U'; lia). intros x Hx. pose proof (rigid_id n U U' HU K U0 (n - 1 - x) ltac:(lia) (n - 1 - x) (le_n _)) as Q. destruct (HU (n - 1 - x) ltac:(lia)) as (_ & _ & _ & Q2). rewrite Q in Q2. unfold U in Q2. replace (n - 1 - (n - 1 - x)) with x in Q2 by lia. exact Q2.
Qed.

(** ** the exponent of a scalar image *)
Lemma zsum_class T q a x : (0 < q)%Z -> (a <= x < a + q * Z.of_nat T)%Z -> zsum T (fun t => if (x =? a + q * Z.of_nat t)%Z then 1 else 0)%Z = if ((x - a) mod q =? 0)%Z then 1%Z else 0%Z.
Proof.
  intros Hq Hx. destruct (Z.eqb_spec ((x - a) mod q) 0) as [E|E].
  - assert (K : x = (a + q * ((x - a) / q))%Z) by (pose proof (Z_div_mod_eq_full (x - a) q); lia). set (t := ((x - a) / q)%Z) in *. assert (0 <= t < Z.of_nat T)%Z by nia.
    rewrite (zsum_one T _ (Z.to_nat t)); [|lia|]; [rewrite Z2Nat.id by lia; destruct (Z.eqb_spec x (a + q * t)); lia|]. intros k Hk N. destruct (Z.eqb_spec x (a + q * Z.of_nat k)); [|reflexivity]. exfalso. apply N. apply Nat2Z.inj. rewrite Z2Nat.id by lia. nia.
  - apply zsum_zero. intros k _. destruct (Z.eqb_spec x (a + q * Z.of_nat k)) as [Q|]; [|reflexivity]. exfalso. apply E. replace (x - a)%Z with (Z.of_nat k * q)%Z by lia. apply Z_mod_mult.
Qed.
Lemma zsum_tele p T (f z : Z -> Z) a m : (0 < m)%Z -> (forall e, cg p (f e) (z (e - m) - z (e + m)))%Z -> cg p (zsum T (fun t => f (a + 2 * m * Z.of_nat t)%Z)) (z (a - m) - z (a - m + 2 * m * Z.of_nat T))%Z.
Proof.
  intros Hm H. induction T as [|T IH]; [cbn [zsum]; apply cg_eq; replace (a - m + 2 * m * Z.of_nat 0)%Z with (a - m)%Z by lia; lia|]. cbn [zsum]. rewrite IH, H. apply cg_eq.
  replace (a + 2 * m * Z.of_nat T - m)%Z with (a - m + 2 * m * Z.of_nat T)%Z by lia. replace (a + 2 * m * Z.of_nat T + m)%Z with (a - m + 2 * m * Z.of_nat (S T))%Z by lia. lia.
Qed.
Definition pt (x e : Z) : Z := if (e =? x)%Z then 1%Z else 0%Z.
Lemma scalar_exponent p n k (z : Z -> Z) : 3 <= n -> (0 <= p)%Z -> p <> 1%Z -> (exists B, forall e, (B < e \/ e < - B)%Z -> z e = 0%Z) ->
  (forall e, cg p (pt (k + 1) e - pt (k - 1) e + (z (e - Z.of_nat n) - z (e + Z.of_nat n))) (pt 1 e - pt (-1) e))%Z -> (2 * Z.of_nat n | k)%Z.
Proof.
  intros n3 Hp Hp1 [B HB] H. set (m := Z.of_nat n) in *. set (q := (2 * m)%Z). assert (m3 : (3 <= m)%Z) by lia. assert (q6 : (6 <= q)%Z) by (unfold q; lia). clearbody m.
  assert (CL : forall c, (cg p ((if ((1 - c) mod q =? 0)%Z then 1 else 0) - (if ((-1 - c) mod q =? 0)%Z then 1 else 0) - (if ((k + 1 - c) mod q =? 0)%Z then 1 else 0) + (if ((k - 1 - c) mod q =? 0)%Z then 1 else 0)) 0)%Z).
  { intros c. set (W := (Z.abs B + Z.abs k + Z.abs c + m + 2)%Z). set (a := (c - q * W)%Z). set (T := Z.to_nat (2 * W)).
    pose proof (zsum_tele p T (fun e => pt 1 e - pt (-1) e - pt (k + 1) e + pt (k - 1) e)%Z z a m ltac:(lia)) as K. cbv beta in K. fold q in K.
    assert (ET : Z.of_nat T = (2 * W)%Z) by lia. assert (QW : (6 * W <= q * W)%Z) by (apply Z.mul_le_mono_nonneg_r; unfold q; lia). assert (Q2 : (q * (2 * W) = 2 * (q * W))%Z) by ring.
    rewrite !HB in K; [|left; rewrite ET, Q2; unfold a; lia|right; unfold a; lia].
    replace (zsum T (fun t => pt 1 (a + q * Z.of_nat t) - pt (-1) (a + q * Z.of_nat t) - pt (k + 1) (a + q * Z.of_nat t) + pt (k - 1) (a + q * Z.of_nat t))%Z)
      with (zsum T (fun t => if (1 =? a + q * Z.of_nat t)%Z then 1 else 0) - zsum T (fun t => if (-1 =? a + q * Z.of_nat t)%Z then 1 else 0) - zsum T (fun t => if (k + 1 =? a + q * Z.of_nat t)%Z then 1 else 0) + zsum T (fun t => if (k - 1 =? a + q * Z.of_nat t)%Z then 1 else 0))%Z in K.
    2:{ rewrite !zsum_diff, <- zsum_add. apply zsum_ext. intros t _. unfold pt. rewrite !(Z.eqb_sym (a + q * Z.of_nat t)). reflexivity. }
    assert (MA : forall x, ((x - a) mod q = (x - c) mod q)%Z) by (intros x; unfold a; replace (x - (c - q * W))%Z with (x - c + W * q)%Z by lia; apply Z_mod_plus_full).
    rewrite !zsum_class in K; try (unfold q; lia); try (rewrite ET, Q2; unfold a; lia). rewrite !MA in K. apply K. intros e. destruct (H e) as [x X]. exists (- x)%Z. lia. }
  assert (HQ : (q <> 0)%Z) by (clear - q6; intros ->; apply q6; reflexivity). destruct (Z.eq_dec (k mod q) 0) as [Q|Q]; [apply Z.mod_divide in Q; [exact Q|exact HQ]|exfalso]. clearbody q.
  pose proof (CL 1%Z) as K1. pose proof (CL (-1)%Z) as K2. replace (1 - 1)%Z with 0%Z in K1 by lia. replace (-1 - 1)%Z with (-2)%Z in K1 by lia. replace (k + 1 - 1)%Z with k in K1 by lia. replace (k - 1 - 1)%Z with (k - 2)%Z in K1 by lia.
  replace (1 - -1)%Z with 2%Z in K2 by lia. replace (-1 - -1)%Z with 0%Z in K2 by lia. replace (k + 1 - -1)%Z with (k + 2)%Z in K2 by lia. replace (k - 1 - -1)%Z with k in K2 by lia.
  rewrite Zmod_0_l in K1, K2. assert (M2 : (2 mod q = 2)%Z). { apply Z.mod_small; split; [discriminate|apply (Z.lt_le_trans _ 6); [reflexivity|exact q6]]. } assert (M2' : (-2 mod q <> 0)%Z) by (intros E; apply Z.mod_divide in E; [apply Z.divide_opp_r in E; cbn in E; apply Z.divide_pos_le in E; [|reflexivity]; apply (Z.le_trans _ _ _ q6) in E; apply E; reflexivity|exact HQ]).
  rewrite M2 in K2. destruct (Z.eqb_spec 0 0) as [_|]; [|lia]. destruct (Z.eqb_spec (k mod q) 0) as [|_]; [contradiction|]. destruct (Z.eqb_spec (-2 mod q) 0) as [|_]; [contradiction|]. destruct (Z.eqb_spec 2 0) as [|_]; [lia|].
  assert (P1 : ~ (p | 1)%Z) by (intros E; apply Z.divide_1_r in E; lia). destruct K1 as [x1 K1], K2 as [x2 K2].
  destruct (Z.eqb_spec ((k - 2) mod q) 0) as [E1|E1]; [|apply P1; exists x1; lia]. destruct (Z.eqb_spec ((k + 2) mod q) 0) as [E2|E2]; [|apply P1; exists (- x2)%Z; lia].
  apply Z.mod_divide in E1; [|exact HQ]. apply Z.mod_divide in E2; [|exact HQ]. destruct E1 as [y1 E1], E2 as [y2 E2]. assert (Y : (q | 4)%Z) by (exists (y2 - y1)%Z; clear - E1 E2; lia). apply Z.divide_pos_le in Y; [|reflexivity]. apply (Z.le_trans _ _ _ q6) in Y. apply Y. reflexivity.
Qed.
