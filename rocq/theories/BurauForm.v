(** BurauForm.v – families of coefficients that obey the Burau rules on both sides: the
    invariant form, the value at v = 1, and the images that are v^k times constants. *)
From Verif Require Import Base SpecBraid BraidTheory BurauWords BurauStable BurauScalar PermWords FullTwistBraid EmbedTheory.
From Coq Require Import Ring Setoid Morphisms.
Local Open Scope nat_scope.

Lemma grow_shift d f a s e : grow d (fun l x => f l (x - a)%Z) s e = grow d f s (e - a).
Proof. unfold grow. replace (e - 1 - a)%Z with (e - a - 1)%Z by lia. replace (e + 1 - a)%Z with (e - a + 1)%Z by lia. reflexivity. Qed.
Lemma grow_opp d f s e : grow d (fun l x => - f l x)%Z s e = (- grow d f s e)%Z.
Proof. unfold grow. destruct (s =? 0), (s + 1 <? d); lia. Qed.
(** finite support *)
Lemma cg_if p (b : bool) x y z t : cg p x y -> cg p z t -> cg p (if b then x else z) (if b then y else t).
Proof. now destruct b. Qed.

(** conjugation by the Garside element *)
Lemma Dl_conj n k : forall a i, a + k < n -> a <= i -> i < a + k -> braid_eq n ([(i, true)] ++ pword (Dl a k)) (pword (Dl a k) ++ [(2 * a + k - 1 - i, true)]).
Proof.
  induction k as [|k IH]; intros a i Hn H1 H2; [lia|].
  assert (UP : forall i, a < i -> i < a + S k -> braid_eq n ([(i, true)] ++ pword (Dl a (S k))) (pword (Dl a (S k)) ++ [(2 * a + S k - 1 - i, true)])).
  { intros j Hj1 Hj2. cbn [Dl]. rewrite pword_app, app_assoc. rewrite (IH (S a) j) by lia. rewrite <- !app_assoc. apply be_app; [apply be_refl|].
    pose proof (up_comm n (S k) a (2 * S a + k - 1 - j - 1) Hn ltac:(lia) ltac:(lia)) as U. replace (2 * S a + k - 1 - j - 1 + 1) with (2 * S a + k - 1 - j) in U by lia. replace (2 * a + S k - 1 - j) with (2 * S a + k - 1 - j - 1) by lia. exact U. }
  destruct (Nat.eq_dec i a) as [->|N]; [|apply UP; lia]. destruct k as [|k]; [cbn; replace (a + (a + 0) + 1 - 1 - a) with a by lia; apply be_refl|].
  pose proof (be_rev _ _ _ (UP (a + S k) ltac:(lia) ltac:(lia))) as R. rewrite !rev_app_distr, <- pword_rev in R. cbn [rev List.app] in R. match type of R with braid_eq _ _ (?x :: ?l) => change (x :: l) with ([x] ++ l) in R end. pose proof (be_more (a + (S (S k) + 1)) n _ _ ltac:(lia) (Dl_rev_at a (S (S k)))) as DR. rewrite pword_rev, DR in R.
  replace (2 * a + S (S k) - 1 - (a + S k)) with a in R by lia. replace (2 * a + S (S k) - 1 - a) with (a + S k) by lia. apply be_sym. exact R.
Qed.
Lemma pos_seq k : forall a, pos (pword (seq a k)) (a + k) = a.
Proof. induction k as [|k IH]; intros a; [cbn; lia|]. cbn [seq pword map pos fold_right fst]. fold (pword (seq (S a) k)) (pos (pword (seq (S a) k)) (a + S k)). replace (a + S k) with (S a + k) by lia. rewrite IH. unfold sw. destruct (Nat.eqb_spec (S a) a); [lia|]. destruct (Nat.eqb_spec (S a) (a + 1)); lia. Qed.
Lemma pos_high u : Forall (fun i => 1 <= i) u -> pos (pword u) 0 = 0.
Proof. induction 1 as [|i u Hi _ IH]; [reflexivity|]. cbn [pword map pos fold_right fst]. fold (pword u) (pos (pword u) 0). rewrite IH. unfold sw. destruct (Nat.eqb_spec 0 i), (Nat.eqb_spec 0 (i + 1)); lia. Qed.
Lemma pos_delta k : 0 < k -> pos (pword (Dl 0 k)) k = 0.
Proof. intros H. destruct k as [|k]; [lia|]. cbn [Dl]. rewrite pword_app, pos_app. pose proof (pos_seq (S k) 0) as E. cbn [Nat.add] in E. rewrite E. apply pos_high. eapply Forall_impl; [|apply Dl_range]. cbn. lia. Qed.

Section Form.
Variables (p : Z) (n : nat) (c : bword -> nat -> nat -> Z -> Z).
Notation d := (n - 1).
Hypothesis n2 : 2 <= n.
Hypothesis c_nil : forall i j e, i < n - 1 -> j < n - 1 -> c [] i j e = unit_coeff i j e.
Hypothesis c_step : forall w s b i j e, s + 1 < n -> i < n - 1 -> j < n - 1 -> cg p (c (w ++ [(s, b)]) i j e) (stepped (c w) s (g_of b) i j e).
Hypothesis c_left : forall w s b i j e, s + 1 < n -> i < n - 1 -> j < n - 1 -> cg p (c ((s, b) :: w) i j e) (c w i j e - (if (i =? s)%nat then grow d (fun l => c w l j) s (e - g_of b) else 0))%Z.
Hypothesis c_fin : forall w, exists B, forall i j e, i < d -> j < d -> (B < e \/ e < - B)%Z -> c w i j e = 0%Z.
Hypothesis c_be : forall u w i j e, braid_eq n u w -> i < d -> j < d -> cg p (c u i j e) (c w i j e).

(** ** the invariant form *)
Lemma unitary w : in_range n w -> forall i j e, i < d -> j < d -> cg p (grow d (fun l => c (winv w) l j) i e) (grow d (fun l => c w l i) j (- e)).
Proof using n2 c_nil c_step c_left.
  induction w as [|[s b] w IH] using rev_ind; intros Hw i j e Hi Hj.
  - cbn [winv map rev]. rewrite (grow_cong p d (fun l => c [] l j) (fun l x => if (l =? j)%nat then (if (x =? 0)%Z then 1 else 0)%Z else 0%Z)) by (auto; intros l x Hl; apply cg_eq; rewrite c_nil by assumption; unfold unit_coeff; destruct (l =? j); reflexivity).
    rewrite (grow_cong p d (fun l => c [] l i) (fun l x => if (l =? i)%nat then (if (x =? 0)%Z then 1 else 0)%Z else 0%Z)) by (auto; intros l x Hl; apply cg_eq; rewrite c_nil by assumption; unfold unit_coeff; destruct (l =? i); reflexivity).
    rewrite !grow_one by assumption. apply cg_eq. rewrite (Nat.eqb_sym j i). replace (adj j i) with (adj i j) by (unfold adj; destruct (Nat.eqb_spec i (j + 1)), (Nat.eqb_spec (i + 1) j), (Nat.eqb_spec j (i + 1)), (Nat.eqb_spec (j + 1) i); cbn; lia).
    destruct (i =? j); [|destruct (adj i j); [|reflexivity]]; repeat match goal with |- context [(?x =? 0)%Z] => destruct (Z.eqb_spec x 0) end; lia.
  - apply Forall_app in Hw. destruct Hw as [Hw Hs]. apply Forall_inv in Hs. cbn [fst] in Hs. rewrite winv_snoc. cbn [fst snd].
    set (G := fun i x => grow d (fun l => c w l i) j x). assert (IH' : forall i x, i < d -> cg p (grow d (fun l => c (winv w) l j) i x) (G i (- x)%Z)) by (intros; now apply IH).
    rewrite (grow_cong p d (fun l => c ((s, negb b) :: winv w) l j) (fun l x => c (winv w) l j x - (if (l =? s)%nat then (fun x => G s (- x - g_of b)%Z) x else 0))%Z); [|intros l x Hl; rewrite c_left by assumption; apply cg_sub; [reflexivity|]; destruct (l =? s); [|reflexivity]; rewrite IH' by lia; apply cg_eq; f_equal; destruct b; cbn [g_of negb]; lia|exact Hi].
    rewrite grow_sub, grow_one by (try assumption; lia). rewrite IH' by exact Hi.
    rewrite (grow_cong p d (fun l => c (w ++ [(s, b)]) l i) (fun l x => stepped (c w) s (g_of b) l i x)); [|intros l x Hl; now apply c_step|exact Hj].
    unfold stepped. fold (adj i s). destruct (Nat.eqb_spec i s) as [->|N].
    + rewrite grow_opp, (grow_shift d (fun l => c w l s)). fold (G s (- e - 2 * g_of b)%Z). apply cg_eq. destruct b; cbn [g_of].
      * replace (- (e - 1) - 1)%Z with (- e)%Z by lia. replace (- (e + 1) - 1)%Z with (- e - 2 * 1)%Z by lia. lia.
      * replace (- (e - 1) - -1)%Z with (- e - 2 * -1)%Z by lia. replace (- (e + 1) - -1)%Z with (- e)%Z by lia. lia.
    + rewrite (grow_sub d (fun l x => c w l i x) (fun l x => if adj i s then c w l s (x - g_of b) else 0)%Z). destruct (adj i s).
      * rewrite (grow_shift d (fun l => c w l s)). reflexivity.
      * apply cg_eq. change (grow d (fun (l : nat) (x : Z) => c w l i x) j (- e)) with (G i (- e)%Z). unfold grow. clearbody G. destruct (j =? 0), (j + 1 <? d); lia.
Qed.

(** ** images that are v^k times a matrix of constants *)
Definition hom (w : bword) (k : Z) (A : nat -> nat -> Z) : Prop := forall i j e, i < d -> j < d -> cg p (c w i j e) (if (e =? k)%Z then A i j else 0%Z).
Lemma down_zero (D : nat -> Z -> Z) k B : (forall i e, i < d -> (B < e)%Z -> cg p (D i e) 0) -> (forall i e, i < d -> (k < e)%Z -> cg p (grow d D i e) 0) -> forall i e, i < d -> (k <= e)%Z -> cg p (D i e) 0.
Proof using All.
  intros H1 H2. assert (K : forall m i e, i < d -> (k <= e)%Z -> (B - e < Z.of_nat m)%Z -> cg p (D i e) 0).
  { induction m as [|m IH]; intros i e Hi He Hm; [apply H1; [exact Hi|lia]|]. pose proof (H2 i (e + 1)%Z Hi ltac:(lia)) as Q. unfold grow in Q. replace (e + 1 - 1)%Z with e in Q by lia.
    rewrite (IH i (e + 1 + 1)%Z) in Q by lia. destruct (Nat.eqb_spec i 0); [|rewrite (IH (i - 1) (e + 1)%Z) in Q by lia]; (destruct (Nat.ltb_spec (i + 1) d); [rewrite (IH (i + 1) (e + 1)%Z) in Q by lia|]); now rewrite !Z.add_0_r in Q. }
  intros i e Hi He. apply (K (Z.to_nat (Z.max 0 (B - e + 1)))); [exact Hi|exact He|lia].
Qed.
Lemma up_zero (D : nat -> Z -> Z) k B : (forall i e, i < d -> (e < B)%Z -> cg p (D i e) 0) -> (forall i e, i < d -> (e < k)%Z -> cg p (grow d D i e) 0) -> forall i e, i < d -> (e <= k)%Z -> cg p (D i e) 0.
Proof using All.
  intros H1 H2 i e Hi He. replace e with (- - e)%Z by lia. apply (down_zero (fun i x => D i (- x)%Z) (- k) (- B)); [intros i' x Hi' Hx; apply H1; [exact Hi'|lia]| |exact Hi|lia].
  intros i' x Hi' Hx. rewrite <- (H2 i' (- x)%Z Hi' ltac:(lia)). apply cg_eq. unfold grow. replace (- (x - 1))%Z with (- x + 1)%Z by lia. replace (- (x + 1))%Z with (- x - 1)%Z by lia. lia.
Qed.
Lemma hom_inv w k A : in_range n w -> hom w k A -> hom (winv w) (- k) (fun i j => A j i).
Proof using All.
  intros Hw H i j e Hi Hj. apply cg_0. set (D := fun l e => (c (winv w) l j e - (if (e =? - k)%Z then A j l else 0))%Z). change (cg p (D i e) 0).
  assert (HD : forall i e, i < d -> e <> (- k)%Z -> cg p (grow d D i e) 0).
  { intros l x Hl Hx. unfold D. rewrite grow_sub. rewrite unitary by assumption. rewrite (grow_cong p d (fun l' => c w l' l) (fun l' y => if (y =? k)%Z then A l' l else 0%Z)) by (auto; intros; apply H; assumption).
    apply cg_eq. unfold grow. destruct (Z.eqb_spec x (- k)); [contradiction|]. destruct (Z.eqb_spec (- x) k); [lia|]. destruct (Z.eqb_spec (- x - 1) k), (Z.eqb_spec (- x + 1) k), (Z.eqb_spec (x - 1) (- k)), (Z.eqb_spec (x + 1) (- k)); try lia;
    destruct (j =? 0), (j + 1 <? d), (l =? 0), (l + 1 <? d); lia. }
  destruct (c_fin (winv w)) as [B HB].
  destruct (Z.le_gt_cases (- k) e) as [L|L].
  - apply (down_zero D (- k) (Z.max B (- k))); auto; [|intros; apply HD; [assumption|lia]]. intros i' e' Hi' He'. unfold D. destruct (Z.eqb_spec e' (- k)); [lia|]. rewrite HB by (auto; left; lia). reflexivity.
  - apply (up_zero D (- k) (Z.min (- B) (- k))); auto; [|intros; apply HD; [assumption|lia]|lia]. intros i' e' Hi' He'. unfold D. destruct (Z.eqb_spec e' (- k)); [lia|]. rewrite HB by (auto; right; lia). reflexivity.
Qed.

(** ** the value at v = 1 *)
Definition ind (y i : nat) : Z := if y <=? i then 1%Z else 0%Z.
Definition val1 (w : bword) (i j : nat) : Z := (par i * par j * (ind (pos w j) i - ind (pos w (j + 1)) i))%Z.
Lemma ind_other s y i : i <> s -> ind (sw s y) i = ind y i.
Proof. intros N. unfold ind, sw. destruct (Nat.eqb_spec y s) as [->|]; [|destruct (Nat.eqb_spec y (s + 1)) as [->|]; [|reflexivity]]; destruct (Nat.leb_spec (s + 1) i), (Nat.leb_spec s i); lia. Qed.
Lemma ind_sw s y : ind (sw s y) s = ((if (s =? 0)%nat then 0 else ind y (s - 1)) + ind y (s + 1) - ind y s)%Z.
Proof. unfold ind, sw. destruct (Nat.eqb_spec s 0), (Nat.eqb_spec y s) as [->|]; try (destruct (Nat.eqb_spec y (s + 1)) as [->|]); repeat match goal with |- context [?a <=? ?b] => destruct (Nat.leb_spec a b) end; lia. Qed.
Lemma tot_grow (f : nat -> Z -> Z) (t : nat -> Z) s g : s < d -> (forall l, l < d -> tot p (f l) (t l)) -> tot p (fun e => grow d f s (e - g)) (2 * t s + (if (s =? 0)%nat then 0 else t (s - 1)%nat) + (if (s + 1 <? d)%nat then t (s + 1)%nat else 0))%Z.
Proof using All.
  intros Hs H. assert (Z0 : tot p (fun _ => 0%Z) 0) by (exists 0%Z, 0; split; [reflexivity|reflexivity]).
  assert (K : tot p (fun e => f s (e - g - 1) + f s (e - g + 1) + (if (s =? 0)%nat then 0 else f (s - 1)%nat (e - g)) + (if (s + 1 <? d)%nat then f (s + 1)%nat (e - g) else 0))%Z (t s + t s + (if (s =? 0)%nat then 0 else t (s - 1)%nat) + (if (s + 1 <? d)%nat then t (s + 1)%nat else 0))%Z).
  { apply (tot_add p (fun e => f s (e - g - 1) + f s (e - g + 1) + (if (s =? 0)%nat then 0 else f (s - 1)%nat (e - g)))%Z (fun e => if (s + 1 <? d)%nat then f (s + 1)%nat (e - g)%Z else 0%Z)).
    - apply (tot_add p (fun e => f s (e - g - 1) + f s (e - g + 1))%Z (fun e => if (s =? 0)%nat then 0%Z else f (s - 1)%nat (e - g)%Z)).
      + apply (tot_add p (fun e => f s (e - g - 1)%Z) (fun e => f s (e - g + 1)%Z)).
        * eapply tot_cong; [|reflexivity|apply (tot_shift p (f s) (t s) (g + 1)); now apply H]. intros e. apply cg_eq. f_equal. lia.
        * eapply tot_cong; [|reflexivity|apply (tot_shift p (f s) (t s) (g - 1)); now apply H]. intros e. apply cg_eq. f_equal. lia.
      + destruct (s =? 0); [exact Z0|]. apply tot_shift. apply H. lia.
    - destruct (Nat.ltb_spec (s + 1) d); [|exact Z0]. apply tot_shift. apply H. lia. }
  eapply tot_cong; [|apply cg_eq|exact K]; [intros e; reflexivity|lia].
Qed.
Lemma par_sq i : (par i * par i = 1)%Z. Proof. unfold par. destruct (Nat.even i); reflexivity. Qed.
Lemma at_one w : in_range n w -> forall i j, i < d -> j < d -> tot p (c w i j) (val1 w i j).
Proof using All.
  induction 1 as [|[s b] w Hs Hw IH]; intros i j Hi Hj.
  - eapply tot_cong; [|apply cg_eq|apply (tot_point p 0 (if (i =? j)%nat then 1 else 0)%Z)].
    + intros e. apply cg_eq. rewrite c_nil by assumption. unfold unit_coeff. destruct (i =? j), (e =? 0)%Z; reflexivity.
    + unfold val1, ind. cbn [pos fold_right]. destruct (Nat.eqb_spec i j) as [->|N]; [rewrite par_sq|]; repeat match goal with |- context [?a <=? ?b] => destruct (Nat.leb_spec a b) end; lia.
  - cbn [fst] in Hs. set (t := if (i =? s)%nat then (2 * val1 w s j + (if (s =? 0)%nat then 0 else val1 w (s - 1) j) + (if (s + 1 <? d)%nat then val1 w (s + 1) j else 0))%Z else 0%Z).
    assert (K : tot p (fun e => c w i j e + - (if (i =? s)%nat then grow d (fun l => c w l j) s (e - g_of b) else 0))%Z (val1 w i j + - t)%Z).
    { apply (tot_add p (c w i j) (fun e => - (if (i =? s)%nat then grow d (fun l => c w l j) s (e - g_of b) else 0))%Z); [now apply IH|]. apply tot_opp. unfold t. destruct (i =? s); [apply (tot_grow (fun l => c w l j) (fun l => val1 w l j)); [lia|intros; now apply IH]|]. exists 0%Z, 0. split; reflexivity. }
    eapply tot_cong; [|apply cg_eq|exact K]; [intros e; rewrite c_left by assumption; apply cg_eq; lia|].
    unfold t. unfold val1. cbn [pos fold_right fst]. fold (pos w j) (pos w (j + 1)). destruct (Nat.eqb_spec i s) as [->|N]; [|rewrite !ind_other by exact N; lia]. rewrite !ind_sw.
    assert (P1 : par (s + 1) = (- par s)%Z) by (rewrite Nat.add_1_r; apply par_S). assert (P0 : s <> 0 -> par (s - 1) = (- par s)%Z) by (intros Q; destruct s as [|s']; [lia|]; replace (S s' - 1) with s' by lia; rewrite par_S; lia).
    assert (LD : (if (s + 1 <? d)%nat then val1 w (s + 1) j else 0)%Z = (- par s * par j * (ind (pos w j) (s + 1) - ind (pos w (j + 1)) (s + 1)))%Z).
    { destruct (Nat.ltb_spec (s + 1) d); [unfold val1; rewrite P1; ring|]. assert (B : forall x, x < n -> ind (pos w x) (s + 1) = 1%Z) by (intros x Hx; unfold ind; pose proof (pos_lt n w x Hw Hx); destruct (Nat.leb_spec (pos w x) (s + 1)); lia). rewrite !B by lia. ring. }
    unfold val1 in LD. rewrite LD. destruct (Nat.eqb_spec s 0) as [S0|S0]; [ring|rewrite (P0 S0); ring].
Qed.
Hypothesis p1 : p <> 1%Z.
Hypothesis p0 : (0 <= p)%Z.
Lemma small_cg a b : (-1 <= a <= 1)%Z -> (-1 <= b <= 1)%Z -> cg p a b -> (a = 0 <-> b = 0)%Z.
Proof using p1 p0 n2. intros Ha Hb [k K]. split; intros ->; [enough (~ (b = 1 \/ b = -1)%Z) by lia|enough (~ (a = 1 \/ a = -1)%Z) by lia]; intros [->| ->]; assert (E : (p | 1)%Z) by (first [exists k; lia|exists (- k)%Z; lia]); apply Z.divide_1_r in E; lia. Qed.
Lemma hom_val w k A : in_range n w -> hom w k A -> hom w k (val1 w).
Proof using All.
  intros Hw H i j e Hi Hj. rewrite (H i j e Hi Hj). apply cg_if; [|reflexivity]. apply (tot_unique p (c w i j)); [|now apply at_one].
  eapply tot_cong; [|reflexivity|apply (tot_point p k (A i j))]. intros x. symmetry. now apply H.
Qed.
Lemma val1_small w i j : (-1 <= val1 w i j <= 1)%Z.
Proof. unfold val1, ind, par. destruct (Nat.even i), (Nat.even j), (pos w j <=? i), (pos w (j + 1) <=? i); lia. Qed.
Lemma val1_split w i j : (val1 w i j = 0)%Z <-> split_at (pos w) j i = false.
Proof. unfold val1, ind, par, split_at. destruct (Nat.even i), (Nat.even j), (pos w j <=? i), (pos w (j + 1) <=? i); cbn; split; intros; try reflexivity; try discriminate; lia. Qed.
Lemma hom_pos w k A : in_range n w -> hom w k A -> (forall x, x < n -> pos w x = x) \/ (forall x, x < n -> pos w x = n - 1 - x).
Proof using All.
  intros Hw H0. pose proof (hom_val w k A Hw H0) as H. pose proof (hom_inv w k _ Hw H) as H'. pose proof (in_range_winv n w Hw) as Hw'. pose proof (hom_val _ _ _ Hw' H') as H2.
  apply (rigid n (pos w) (pos (winv w))); [exact n2|intros x Hx; split; [now apply pos_lt|split; [now apply pos_lt|split; [apply pos_winv|apply pos_winv_r]]]|].
  intros i j Hi Hj. assert (E : (val1 (winv w) i j = 0 <-> val1 w j i = 0)%Z).
  { apply small_cg; [apply val1_small|apply val1_small|]. specialize (H' i j (- k)%Z ltac:(lia) ltac:(lia)). specialize (H2 i j (- k)%Z ltac:(lia) ltac:(lia)). rewrite Z.eqb_refl in H', H2. now rewrite <- H2, <- H'. }
  rewrite !val1_split in E. destruct (split_at (pos (winv w)) j i), (split_at (pos w) i j); try reflexivity; [destruct (proj2 E eq_refl)|destruct (proj1 E eq_refl)]; reflexivity.
Qed.

(** ** a monomial factor on the left *)
Definition mono (u : bword) (k : Z) (phi : nat -> nat) (sg : Z) : Prop := forall i l e, i < d -> l < d -> cg p (c u i l e) (if (l =? phi i) && (e =? k)%Z then sg else 0%Z).
Lemma mono_left u k phi sg w : (forall i, i < d -> phi i < d) -> mono u k phi sg -> in_range n w -> forall i j e, i < d -> j < d -> cg p (c (u ++ w) i j e) (sg * c w (phi i) j (e - k)).
Proof using n2 c_nil c_step.
  intros HP HM. induction w as [|[s b] w IH] using rev_ind; intros Hw i j e Hi Hj.
  - rewrite app_nil_r, (HM i j e Hi Hj), c_nil by auto. apply cg_eq. unfold unit_coeff. rewrite (Nat.eqb_sym (phi i) j). replace (e - k =? 0)%Z with (e =? k)%Z by (destruct (Z.eqb_spec e k), (Z.eqb_spec (e - k) 0); lia). destruct ((j =? phi i) && (e =? k)%Z); lia.
  - apply Forall_app in Hw. destruct Hw as [Hw Hs]. apply Forall_inv in Hs. cbn [fst] in Hs. rewrite app_assoc, c_step by auto. rewrite (cg_mul p sg (c (w ++ [(s, b)]) (phi i) j (e - k)%Z) (stepped (c w) s (g_of b) (phi i) j (e - k))) by (apply c_step; auto).
    unfold stepped. destruct (j =? s).
    + rewrite IH by (auto; lia). apply cg_eq. replace (e - 2 * g_of b - k)%Z with (e - k - 2 * g_of b)%Z by lia. lia.
    + rewrite IH by auto. destruct ((j =? s + 1) || (j + 1 =? s)); [rewrite (IH Hw i s) by (auto; lia); replace (e - g_of b - k)%Z with (e - k - g_of b)%Z by lia|]; apply cg_eq; lia.
Qed.
Definition scalar (w : bword) (k : Z) : Prop := mono w k (fun i => i) 1.
Lemma scalar_unit w k : scalar w k <-> forall i j e, i < d -> j < d -> cg p (c w i j e) (unit_coeff i j (e - k)).
Proof.
  assert (E : forall i j e, unit_coeff i j (e - k) = if (j =? i) && (e =? k)%Z then 1%Z else 0%Z) by (intros; unfold unit_coeff; rewrite Nat.eqb_sym; replace (e - k =? 0)%Z with (e =? k)%Z by (destruct (Z.eqb_spec e k), (Z.eqb_spec (e - k) 0); lia); reflexivity).
  split; intros H i j e Hi Hj; [rewrite E|rewrite <- E]; now apply H.
Qed.
Lemma scalar_nil : scalar [] 0. Proof using n2 c_nil. apply scalar_unit. intros. rewrite c_nil by assumption. now rewrite Z.sub_0_r. Qed.
Lemma scalar_app u k w l : in_range n w -> scalar u k -> scalar w l -> scalar (u ++ w) (k + l).
Proof using n2 c_nil c_step.
  intros Hw H1 H2. apply scalar_unit. intros i j e Hi Hj. rewrite (mono_left u k (fun i => i) 1 w) by auto. rewrite Z.mul_1_l. rewrite (proj1 (scalar_unit w l) H2) by assumption. apply cg_eq. f_equal. lia.
Qed.
Lemma scalar_hom w k : scalar w k <-> hom w k (fun i j => if (i =? j)%nat then 1 else 0)%Z.
Proof. split; intros H i j e Hi Hj; (etransitivity; [apply H; assumption|]); apply cg_eq; rewrite (Nat.eqb_sym i j); destruct (j =? i), (e =? k)%Z; reflexivity. Qed.
Lemma scalar_inv w k : in_range n w -> scalar w k -> scalar (winv w) (- k).
Proof using All. intros Hw H. apply scalar_hom. apply scalar_hom in H. intros i j e Hi Hj. rewrite (hom_inv w k _ Hw H i j e Hi Hj). apply cg_eq. now rewrite Nat.eqb_sym. Qed.
Lemma scalar_pow w k m : in_range n w -> scalar w k -> scalar (wpow w m) (m * k).
Proof using All.
  intros Hw H. assert (K : forall u l q, in_range n u -> scalar u l -> scalar (concat (repeat u q)) (Z.of_nat q * l)).
  { intros u l q Hu HS. induction q as [|q IH]; [exact scalar_nil|]. cbn [repeat concat]. replace (Z.of_nat (S q) * l)%Z with (l + Z.of_nat q * l)%Z by lia. apply scalar_app; auto. now apply in_range_concat_repeat. }
  unfold wpow. destruct (Z.leb_spec 0 m).
  - replace (m * k)%Z with (Z.of_nat (Z.to_nat m) * k)%Z by (rewrite Z2Nat.id by lia; reflexivity). now apply K.
  - replace (m * k)%Z with (Z.of_nat (Z.to_nat (- m)) * (- k))%Z by (rewrite Z2Nat.id by lia; ring). apply K; [now apply in_range_winv|now apply scalar_inv].
Qed.
Lemma scalar_be u w k : braid_eq n u w -> scalar u k -> scalar w k.
Proof using c_be. intros E H i j e Hi Hj. rewrite <- (c_be u w i j e E Hi Hj). now apply H. Qed.
Lemma pos_scalar w k A : in_range n w -> hom w k A -> (forall x, x < n -> pos w x = x) -> scalar w k.
Proof using All.
  intros Hw H0 HP. pose proof (hom_val w k A Hw H0) as H. apply scalar_hom. intros i j e Hi Hj. rewrite (H i j e Hi Hj). apply cg_if; [|reflexivity]. apply cg_eq. unfold val1. rewrite !HP by lia.
  unfold ind. destruct (Nat.eqb_spec i j) as [->|N]; [rewrite par_sq|]; repeat match goal with |- context [?a <=? ?b] => destruct (Nat.leb_spec a b) end; lia.
Qed.
(** ** the Garside element *)
Lemma c_zero_tail w i j : i < d -> j < d -> (forall e, cg p (c w i j e) (- c w i j (e - 2)))%Z -> forall e, cg p (c w i j e) 0.
Proof using All.
  intros Hi Hj H. destruct (c_fin w) as [B HB]. assert (K : forall m e, (e + B < Z.of_nat m)%Z -> cg p (c w i j e) 0).
  { induction m as [|m IH]; intros e He; [rewrite HB by (auto; right; lia); reflexivity|]. rewrite H, IH by lia. reflexivity. }
  intros e. apply (K (Z.to_nat (Z.max 0 (e + B + 1)))). lia.
Qed.
Notation Dw := (pword (Dl 0 d)).
Lemma Dw_range : in_range n Dw.
Proof using n2. apply Forall_forall. intros x Hx. apply in_map_iff in Hx. destruct Hx as (i & <- & Hi). pose proof (proj1 (Forall_forall _ _) (Dl_range 0 d) i Hi). cbn in *. lia. Qed.
(** row 0 *)
Lemma row0_seq m : m < d -> forall j e, j < d -> cg p (c (pword (seq 0 (S m))) 0 j e) ((if (j =? m)%nat && (e =? Z.of_nat m + 2)%Z then par (S m) else 0) + (if (j =? S m)%nat && (e =? Z.of_nat m + 1)%Z then par (S m) else 0))%Z.
Proof using n2 c_nil c_step.
  induction m as [|m IH]; intros Hm j e Hj.
  - change (pword (seq 0 1)) with ([] ++ [(0, true)]). rewrite c_step by lia. unfold stepped. rewrite !c_nil by lia. unfold unit_coeff. cbn [g_of]. apply cg_eq. change (par 1) with (-1)%Z.
    destruct (Nat.eqb_spec 0 0); [|lia]. destruct (Nat.eqb_spec j 0) as [->|]; [destruct (Nat.eqb_spec 0 1); [lia|]|destruct (Nat.eqb_spec 0 j); [lia|]; destruct (Nat.eqb_spec j (0 + 1)), (Nat.eqb_spec j 1), (Nat.eqb_spec (j + 1) 0); try lia]; cbn [andb orb]; repeat match goal with |- context [(?x =? ?y)%Z] => destruct (Z.eqb_spec x y) end; lia.
  - rewrite seq_S, pword_app. cbn [pword map Nat.add]. fold (pword (seq 0 (S m))). rewrite c_step by lia. unfold stepped. specialize (IH ltac:(lia)). cbn [g_of].
    assert (P : par (S (S m)) = (- par (S m))%Z) by apply par_S. rewrite P.
    destruct (Nat.eqb_spec j (S m)) as [->|N1].
    + rewrite IH by lia. apply cg_eq. destruct (Nat.eqb_spec (S m) m); [lia|]. rewrite Nat.eqb_refl. destruct (Nat.eqb_spec (S m) (S (S m))); [lia|]. cbn [andb]. destruct (Z.eqb_spec (e - 2 * 1) (Z.of_nat m + 1)), (Z.eqb_spec e (Z.of_nat (S m) + 2)); lia.
    + rewrite (IH j) by lia. destruct (Nat.eqb_spec j (S m)); [lia|]. destruct (Nat.eqb_spec j (S m + 1)) as [->|N2]; [|destruct (Nat.eqb_spec (j + 1) (S m)) as [Q|N3]]; cbn [orb].
      * rewrite (IH (S m)) by lia. apply cg_eq. rewrite Nat.eqb_refl. destruct (Nat.eqb_spec (S m + 1) m), (Nat.eqb_spec (S m) m), (Nat.eqb_spec (S m + 1) (S (S m))); try lia. cbn [andb]. destruct (Z.eqb_spec (e - 1) (Z.of_nat m + 1)), (Z.eqb_spec e (Z.of_nat (S m) + 1)); lia.
      * rewrite (IH (S m)) by lia. apply cg_eq. rewrite Nat.eqb_refl. destruct (Nat.eqb_spec j m), (Nat.eqb_spec (S m) m), (Nat.eqb_spec j (S (S m))); try lia. cbn [andb]. destruct (Z.eqb_spec (e - 1) (Z.of_nat m + 1)), (Z.eqb_spec e (Z.of_nat m + 2)); lia.
      * apply cg_eq. destruct (Nat.eqb_spec j m), (Nat.eqb_spec j (S (S m))); try lia. cbn [andb]. lia.
Qed.
Lemma row0_skip u w : Forall (fun i => 1 <= i /\ i + 1 < n) u -> forall j e, j < d -> cg p (c (pword u ++ w) 0 j e) (c w 0 j e).
Proof using n2 c_left. induction 1 as [|i u Hi _ IH]; intros j e Hj; [reflexivity|]. cbn [pword map List.app]. fold (pword u). rewrite c_left by lia. destruct (Nat.eqb_spec 0 i); [lia|]. rewrite IH by exact Hj. apply cg_eq. lia. Qed.
Lemma delta_row0 e : cg p (c Dw 0 (d - 1) e) (if (e =? Z.of_nat n)%Z then par d else 0%Z).
Proof using All.
  set (m := d - 1). replace (Dl 0 d) with (Dl 0 (S m)) by (f_equal; lia). replace (par d) with (par (S m)) by (f_equal; lia). cbn [Dl]. rewrite pword_app. rewrite row0_skip; [|eapply Forall_impl; [|apply Dl_range]; cbn; lia|lia]. rewrite row0_seq by lia. apply cg_eq. rewrite Nat.eqb_refl. destruct (Nat.eqb_spec m (S m)); [lia|]. cbn [andb]. destruct (Z.eqb_spec e (Z.of_nat m + 2)), (Z.eqb_spec e (Z.of_nat n)); lia.
Qed.
Lemma delta_conj i : i < d -> forall a j e, a < d -> j < d -> cg p (c Dw a j e - (if (a =? i)%nat then grow d (fun l => c Dw l j) i (e - 1) else 0))%Z (stepped (c Dw) (d - 1 - i) 1 a j e).
Proof using All.
  intros Hi a j e Ha Hj. change 1%Z with (g_of true). rewrite <- c_left by lia. rewrite <- c_step by lia. apply c_be; auto. pose proof (Dl_conj n d 0 i ltac:(lia) ltac:(lia) ltac:(lia)) as K. replace (2 * 0 + d - 1 - i) with (d - 1 - i) in K by lia. exact K.
Qed.
Lemma delta_off a j e : a < d -> j < d -> a + j <> d - 1 -> cg p (c Dw a j e) 0.
Proof using All.
  intros Ha Hj N. apply c_zero_tail; auto. intros x. pose proof (delta_conj (d - 1 - j) ltac:(lia) a j x Ha Hj) as K. destruct (Nat.eqb_spec a (d - 1 - j)); [lia|]. replace (d - 1 - (d - 1 - j)) with j in K by lia. unfold stepped in K. rewrite Nat.eqb_refl in K. rewrite Z.sub_0_r in K. exact K.
Qed.
Lemma delta_next i e : i + 1 < d -> cg p (c Dw (i + 1) (d - 1 - (i + 1)) e) (c Dw i (d - 1 - i) e).
Proof using All.
  intros Hi. pose proof (delta_conj (i + 1) ltac:(lia) (i + 1) (d - 1 - i) (e + 1)%Z ltac:(lia) ltac:(lia)) as K. rewrite Nat.eqb_refl in K. unfold stepped, grow in K.
  replace (i + 1 - 1) with i in K by lia. destruct (Nat.eqb_spec (d - 1 - i) (d - 1 - (i + 1))); [lia|]. destruct (Nat.eqb_spec (d - 1 - i) (d - 1 - (i + 1) + 1)); [|lia]. cbn [orb] in K. destruct (Nat.eqb_spec (i + 1) 0); [lia|].
  rewrite !(delta_off (i + 1) (d - 1 - i)) in K by lia. replace (e + 1 - 1)%Z with e in K by lia.
  assert (Q : cg p (if (i + 1 + 1 <? d)%nat then c Dw (i + 1 + 1) (d - 1 - i) e else 0%Z) 0) by (destruct (Nat.ltb_spec (i + 1 + 1) d); [apply delta_off; lia|reflexivity]). rewrite Q in K. destruct K as [x X]. exists x. lia.
Qed.
Lemma delta_mono : mono Dw (Z.of_nat n) (fun i => d - 1 - i) (par d).
Proof using All.
  assert (E : forall i, i < d -> forall e, cg p (c Dw i (d - 1 - i) e) (c Dw 0 (d - 1) e)). { induction i as [|i IH]; intros Hi e; [rewrite Nat.sub_0_r; reflexivity|]. rewrite <- IH by lia. pose proof (delta_next i e ltac:(lia)) as K. replace (i + 1) with (S i) in K by lia. exact K. }
  intros i l e Hi Hl. destruct (Nat.eqb_spec l (d - 1 - i)) as [->|N]; cbn [andb]; [rewrite E by exact Hi; apply delta_row0|]. apply delta_off; lia.
Qed.
Lemma delta_sq : scalar (Dw ++ Dw) (2 * Z.of_nat n).
Proof using All.
  apply scalar_unit. intros i j e Hi Hj. rewrite (mono_left Dw (Z.of_nat n) (fun i => d - 1 - i) (par d) Dw); [|intros; lia|exact delta_mono|exact Dw_range|exact Hi|exact Hj].
  rewrite (cg_mul p (par d) _ _ (delta_mono (d - 1 - i) j (e - Z.of_nat n)%Z ltac:(lia) Hj)). apply cg_eq. replace (d - 1 - (d - 1 - i)) with i by lia. unfold unit_coeff. rewrite (Nat.eqb_sym i j). destruct (j =? i); cbn [andb]; [|lia]. pose proof (par_sq d). destruct (Z.eqb_spec (e - Z.of_nat n) (Z.of_nat n)), (Z.eqb_spec (e - 2 * Z.of_nat n) 0); lia.
Qed.
(** so near-kernel images: w or Delta w has scalar image *)
Theorem hom_scalar w k A : in_range n w -> hom w k A -> scalar w k \/ scalar (Dw ++ w) (Z.of_nat n + k).
Proof using All.
  intros Hw H. destruct (hom_pos w k A Hw H) as [Q|Q]; [left; exact (pos_scalar w k A Hw H Q)|right].
  assert (HM : hom (Dw ++ w) (Z.of_nat n + k) (fun i j => par d * A (d - 1 - i)%nat j)%Z).
  { intros i j e Hi Hj. rewrite (mono_left Dw (Z.of_nat n) (fun i => d - 1 - i) (par d) w); [|intros; lia|exact delta_mono|exact Hw|exact Hi|exact Hj]. rewrite (cg_mul p (par d) _ _ (H (d - 1 - i) j (e - Z.of_nat n)%Z ltac:(lia) Hj)). apply cg_eq. destruct (Z.eqb_spec (e - Z.of_nat n) k), (Z.eqb_spec e (Z.of_nat n + k)); lia. }
  assert (HR : in_range n (Dw ++ w)) by (apply in_range_app; split; [exact Dw_range|exact Hw]).
  destruct (hom_pos _ _ _ HR HM) as [P|P]; [exact (pos_scalar _ _ _ HR HM P)|exfalso].
  pose proof (P 0 ltac:(lia)) as P0. rewrite pos_app, (Q 0 ltac:(lia)), Nat.sub_0_r, (pos_delta d) in P0 by lia. lia.
Qed.
End Form.
