(** PolyTheory.v – Laurent polynomials as linear functionals on exponents. *)
From Verif Require Import Base ModelPoly SpecPoly.
From Coq Require Import Ring Setoid Morphisms.
Local Open Scope Z_scope.

(** [lin v cs g] = sum_i cs[i] * g(v+i) *)
Fixpoint lin (v : Z) (cs : list Z) (g : Z -> Z) : Z :=
  match cs with [] => 0 | c :: cs' => c * g v + lin (v + 1) cs' g end.
Definition L (p : lpoly) (g : Z -> Z) : Z := lin (lval p) (lcoeffs p) g.
Definition delta (k e : Z) : Z := if e =? k then 1 else 0.
Definition coef (p : lpoly) (k : Z) : Z := coeff_at (lval p) (lcoeffs p) k.

Lemma lin_ext v cs g h : (forall e, g e = h e) -> lin v cs g = lin v cs h.
Proof. intros H. revert v. induction cs as [|c cs IH]; intros v; cbn; [reflexivity|]. now rewrite H, IH. Qed.
Lemma lin_shift v d cs g : lin (v + d) cs g = lin v cs (fun e => g (e + d)).
Proof.
  revert v. induction cs as [|c cs IH]; intros v; cbn; [reflexivity|].
  replace (v + d + 1) with (v + 1 + d) by lia. now rewrite IH.
Qed.
Lemma lin_app v a b g : lin v (a ++ b) g = lin v a g + lin (v + Z.of_nat (length a)) b g.
Proof.
  revert v. induction a as [|c a IH]; intros v; cbn [lin app length].
  - replace (v + Z.of_nat 0) with v by lia. lia.
  - rewrite IH. replace (v + 1 + Z.of_nat (length a)) with (v + Z.of_nat (S (length a))) by lia. lia.
Qed.
Lemma lin_zeros v k g : lin v (repeat 0 k) g = 0.
Proof. revert v. induction k as [|k IH]; intros v; cbn; [reflexivity|]. rewrite IH. lia. Qed.
Lemma lin_addg v cs g h : lin v cs (fun e => g e + h e) = lin v cs g + lin v cs h.
Proof. revert v. induction cs as [|c cs IH]; intros v; cbn; [reflexivity|]. rewrite IH. lia. Qed.
Lemma lin_scaleg v cs g a : lin v cs (fun e => a * g e) = a * lin v cs g.
Proof. revert v. induction cs as [|c cs IH]; intros v; cbn; [lia|]. rewrite IH. lia. Qed.
Lemma lin_0g v cs : lin v cs (fun _ => 0) = 0.
Proof. revert v. induction cs as [|c cs IH]; intros v; cbn; [lia|]. rewrite IH. lia. Qed.
Lemma lin_swap v cs w ds (g : Z -> Z -> Z) :
  lin v cs (fun e => lin w ds (fun f => g e f)) = lin w ds (fun f => lin v cs (fun e => g e f)).
Proof.
  revert v. induction cs as [|c cs IH]; intros v; cbn.
  - now rewrite lin_0g.
  - rewrite IH. rewrite lin_addg, lin_scaleg. reflexivity.
Qed.
Lemma lin_map_scale v cs a g : lin v (map (fun d => d * a) cs) g = lin v cs g * a.
Proof. revert v. induction cs as [|c cs IH]; intros v; cbn; [lia|]. rewrite IH. lia. Qed.
Lemma lin_map_opp v cs g : lin v (map (fun d => - d) cs) g = - lin v cs g.
Proof. revert v. induction cs as [|c cs IH]; intros v; cbn; [lia|]. rewrite IH. lia. Qed.

Lemma delta_lin v cs k : lin v cs (delta k) = coeff_at v cs k.
Proof.
  revert v. induction cs as [|c cs IH]; intros v; cbn [lin].
  - unfold coeff_at. destruct (k <? v); [reflexivity|]. now destruct (Z.to_nat (k - v)).
  - rewrite IH. unfold coeff_at, delta. destruct (Z.eqb_spec v k) as [->|N].
    + destruct (Z.ltb_spec k k); [lia|]. destruct (Z.ltb_spec k (k + 1)); [|lia]. rewrite Z.sub_diag. cbn. lia.
    + destruct (Z.ltb_spec k v), (Z.ltb_spec k (v + 1)); try lia.
      replace (Z.to_nat (k - v)) with (S (Z.to_nat (k - (v + 1)))) by lia. cbn [nth]. lia.
Qed.
Lemma coef_L p k : coef p k = L p (delta k). Proof. symmetry. apply delta_lin. Qed.

(** any functional is determined by the coefficients *)
Lemma lin_of_coeff v cs g : forall w n, w <= v -> v + Z.of_nat (length cs) <= w + Z.of_nat n ->
  lin v cs g = zsum n (fun i => coeff_at v cs (w + Z.of_nat i) * g (w + Z.of_nat i)).
Proof.
  assert (Z0 : forall n f, (forall i, (i < n)%nat -> f i = 0) -> zsum n f = 0).
  { induction n as [|n IH]; intros f H; [reflexivity|]. cbn. rewrite IH, H by (auto; lia). reflexivity. }
  assert (ZA : forall n f h, zsum n (fun i => f i + h i) = zsum n f + zsum n h).
  { induction n as [|n IH]; intros f h; [reflexivity|]. cbn. rewrite IH. lia. }
  assert (ZE : forall n f h, (forall i, (i < n)%nat -> f i = h i) -> zsum n f = zsum n h).
  { induction n as [|n IH]; intros f h H; [reflexivity|]. cbn. rewrite (IH f h), H by (auto; lia). reflexivity. }
  assert (Z1 : forall n j f, (j < n)%nat -> (forall i, (i < n)%nat -> i <> j -> f i = 0) -> zsum n f = f j).
  { induction n as [|n IH]; intros j f Hj H; [lia|]. cbn. destruct (Nat.eq_dec j n) as [->|N].
    - rewrite Z0; [lia|]. intros i Hi. apply H; lia.
    - rewrite (IH j), (H n) by (try lia; intros; apply H; lia). lia. }
  revert v. induction cs as [|c cs IH]; intros v w n H1 H2; cbn [lin].
  - symmetry. apply Z0. intros i _. unfold coeff_at. destruct (_ <? _); [lia|]. destruct (Z.to_nat _); cbn; lia.
  - cbn [length] in H2. rewrite (IH (v + 1) w n) by lia.
    rewrite (ZE n (fun i => coeff_at v (c :: cs) (w + Z.of_nat i) * g (w + Z.of_nat i))
      (fun i => (c * delta v (w + Z.of_nat i)) * g (w + Z.of_nat i) + coeff_at (v + 1) cs (w + Z.of_nat i) * g (w + Z.of_nat i))).
    2:{ intros i _. rewrite <- !delta_lin. cbn [lin]. unfold delta. rewrite (Z.eqb_sym (w + Z.of_nat i)). lia. }
    rewrite ZA. f_equal. rewrite (Z1 n (Z.to_nat (v - w))); [|lia|].
    + rewrite Z2Nat.id by lia. replace (w + (v - w)) with v by lia. unfold delta. rewrite Z.eqb_refl. lia.
    + intros i Hi N. unfold delta. destruct (Z.eqb_spec (w + Z.of_nat i) v); lia.
Qed.

(** coefficientwise equality *)
Definition leq (p q : lpoly) : Prop := forall k, coef p k = coef q k.
Lemma leq_L p q : leq p q <-> forall g, L p g = L q g.
Proof.
  split.
  - intros H g. unfold L.
    set (w := Z.min (lval p) (lval q)).
    set (n := Z.to_nat (Z.max (lval p + Z.of_nat (length (lcoeffs p))) (lval q + Z.of_nat (length (lcoeffs q))) - w)).
    rewrite (lin_of_coeff _ _ g w n), (lin_of_coeff (lval q) _ g w n) by lia.
    assert (ZE : forall n f h, (forall i, (i < n)%nat -> f i = h i) -> zsum n f = zsum n h).
    { clear. induction n as [|n IH]; intros f h H; [reflexivity|]. cbn. rewrite (IH f h), H by (auto; lia). reflexivity. }
    apply ZE. intros i _. f_equal. apply H.
  - intros H k. rewrite !coef_L. apply H.
Qed.
#[global] Instance leq_equiv : Equivalence leq.
Proof.
  split; [intros p k; reflexivity|intros p q H k; symmetry; apply H|intros p q r H K k; now rewrite (H k)].
Qed.

(** trimming *)
Lemma lin_drop l : forall v g, exists k, (length (drop_zeros l) + k = length l)%nat /\ l = repeat 0 k ++ drop_zeros l /\
   lin v l g = lin (v + Z.of_nat k) (drop_zeros l) g.
Proof.
  induction l as [|c l IH]; intros v g; cbn [drop_zeros].
  - exists 0%nat. repeat split.
  - destruct (Z.eqb_spec c 0) as [->|N].
    + destruct (IH (v + 1) g) as [k [E1 [E2 E3]]]. exists (S k). cbn [length]. split; [lia|]. split; [cbn; f_equal; exact E2|].
      cbn [lin]. rewrite E3. replace (v + 1 + Z.of_nat k) with (v + Z.of_nat (S k)) by lia. lia.
    + exists 0%nat. cbn [length]. split; [lia|]. split; [reflexivity|]. now rewrite Z.add_0_r.
Qed.
Lemma trim_right_spec l : exists k, l = trim_right l ++ repeat 0 k.
Proof.
  unfold trim_right. destruct (lin_drop (rev l) 0 (fun _ => 0)) as [k [_ [E _]]]. exists k.
  apply (f_equal (@rev Z)) in E. rewrite rev_involutive, rev_app_distr in E. rewrite E at 1. f_equal. apply rev_repeat.
Qed.
Lemma lin_trim_right v l g : lin v (trim_right l) g = lin v l g.
Proof. destruct (trim_right_spec l) as [k E]. rewrite E at 2. rewrite lin_app, lin_zeros. lia. Qed.
Lemma lin_trim_left v l g : lin (fst (trim_left v l)) (snd (trim_left v l)) g = lin v l g.
Proof.
  revert v. induction l as [|c l IH]; intros v; cbn; [reflexivity|].
  destruct (Z.eqb_spec c 0) as [->|N]; [|reflexivity]. rewrite IH. lia.
Qed.
Lemma L_make v cs g : L (lpoly_make v cs) g = lin v cs g.
Proof.
  unfold lpoly_make. rewrite <- (lin_trim_left v cs g). destruct (trim_left v cs) as [v' l]. cbn [fst snd].
  rewrite <- (lin_trim_right v' l g). destruct (trim_right l); reflexivity.
Qed.

(** canonical form *)
Definition lcanon (p : lpoly) : Prop :=
  (lcoeffs p = [] -> lval p = 0) /\ (lcoeffs p <> [] -> hd 0 (lcoeffs p) <> 0 /\ last (lcoeffs p) 0 <> 0).
Lemma drop_zeros_hd l : drop_zeros l = [] \/ hd 0 (drop_zeros l) <> 0.
Proof. induction l as [|c l IH]; [now left|]. cbn. destruct (Z.eqb_spec c 0); [exact IH|]. right. exact n. Qed.
Lemma trim_right_last l : trim_right l = [] \/ last (trim_right l) 0 <> 0.
Proof.
  unfold trim_right. destruct (drop_zeros_hd (rev l)) as [E|E]; [left; now rewrite E|right].
  destruct (drop_zeros (rev l)) as [|c r]; [now cbn in E|]. cbn [rev hd] in *. rewrite last_last. exact E.
Qed.
Lemma trim_right_hd l : hd 0 l <> 0 -> hd 0 (trim_right l) = hd 0 l /\ trim_right l <> [].
Proof.
  intros H. destruct (trim_right_spec l) as [k E]. destruct (trim_right l) as [|c r].
  - exfalso. rewrite E in H. destruct k; cbn in H; congruence.
  - split; [|discriminate]. rewrite E. reflexivity.
Qed.
Lemma trim_left_hd v l : snd (trim_left v l) = [] \/ hd 0 (snd (trim_left v l)) <> 0.
Proof.
  revert v. induction l as [|c l IH]; intros v; cbn; [now left|]. destruct (Z.eqb_spec c 0); [apply IH|]. right. exact n.
Qed.
Lemma canon_make v cs : lcanon (lpoly_make v cs).
Proof.
  unfold lpoly_make. pose proof (trim_left_hd v cs) as H. destruct (trim_left v cs) as [v' l]. cbn [snd] in H.
  destruct (trim_right l) as [|c r] eqn:E.
  - split; cbn; [reflexivity|congruence].
  - split; cbn [lcoeffs lval]; [discriminate|]. intros _. destruct H as [->|H]; [discriminate|].
    split.
    + rewrite <- E. destruct (trim_right_hd l H) as [-> _]. exact H.
    + rewrite <- E. destruct (trim_right_last l) as [K|K]; [congruence|exact K].
Qed.
Lemma coeff_at_hd v cs : cs <> [] -> coeff_at v cs v = hd 0 cs.
Proof. intros H. unfold coeff_at. destruct (Z.ltb_spec v v); [lia|]. rewrite Z.sub_diag. now destruct cs. Qed.
Lemma coeff_at_last v cs : cs <> [] -> coeff_at v cs (v + Z.of_nat (length cs) - 1) = last cs 0.
Proof.
  intros H. unfold coeff_at. assert (0 < length cs)%nat by (destruct cs; [contradiction|cbn; lia]).
  destruct (Z.ltb_spec (v + Z.of_nat (length cs) - 1) v); [lia|].
  replace (Z.to_nat (v + Z.of_nat (length cs) - 1 - v)) with (length cs - 1)%nat by lia.
  destruct (exists_last H) as [l [x ->]]. rewrite last_last, app_length. cbn [length].
  replace (length l + 1 - 1)%nat with (length l) by lia. apply nth_middle.
Qed.
Lemma coeff_at_below v cs k : k < v -> coeff_at v cs k = 0.
Proof. intros H. unfold coeff_at. destruct (Z.ltb_spec k v); [reflexivity|lia]. Qed.
Lemma coeff_at_above v cs k : v + Z.of_nat (length cs) <= k -> coeff_at v cs k = 0.
Proof. intros H. unfold coeff_at. destruct (Z.ltb_spec k v); [reflexivity|]. apply nth_overflow. lia. Qed.
Lemma canon_eq p q : lcanon p -> lcanon q -> leq p q -> p = q.
Proof.
  destruct p as [v cs], q as [w ds]. intros [P1 P2] [Q1 Q2] H. unfold leq, coef in H. cbn [lval lcoeffs] in *.
  destruct cs as [|c cs], ds as [|d ds].
  - rewrite P1, Q1 by reflexivity. reflexivity.
  - exfalso. destruct (Q2 ltac:(discriminate)) as [K _]. apply K. rewrite <- (coeff_at_hd w), <- H by discriminate.
    unfold coeff_at. destruct (_ <? _); [reflexivity|]. now destruct (Z.to_nat _).
  - exfalso. destruct (P2 ltac:(discriminate)) as [K _]. apply K. rewrite <- (coeff_at_hd v), H by discriminate.
    unfold coeff_at. destruct (_ <? _); [reflexivity|]. now destruct (Z.to_nat _).
  - destruct (P2 ltac:(discriminate)) as [A1 A2]. destruct (Q2 ltac:(discriminate)) as [B1 B2]. clear P1 P2 Q1 Q2.
    set (C := c :: cs) in *. set (D := d :: ds) in *.
    assert (Cn : C <> []) by discriminate. assert (Dn : D <> []) by discriminate.
    assert (E : v = w).
    { destruct (Z.lt_trichotomy v w) as [K|[K|K]]; [|exact K|]; exfalso.
      - apply A1. rewrite <- (coeff_at_hd v C Cn), H. now apply coeff_at_below.
      - apply B1. rewrite <- (coeff_at_hd w D Dn), <- H. now apply coeff_at_below. }
    subst w. assert (EL : length C = length D).
    { destruct (lt_eq_lt_dec (length C) (length D)) as [[K|K]|K]; [|exact K|]; exfalso.
      - apply B2. rewrite <- (coeff_at_last v D Dn), <- H. apply coeff_at_above. lia.
      - apply A2. rewrite <- (coeff_at_last v C Cn), H. apply coeff_at_above. lia. }
    f_equal. apply (nth_ext _ _ 0 0); [exact EL|]. intros i Hi. specialize (H (v + Z.of_nat i)). unfold coeff_at in H.
    destruct (Z.ltb_spec (v + Z.of_nat i) v); [lia|]. replace (Z.to_nat (v + Z.of_nat i - v)) with i in H by lia. exact H.
Qed.

(** the array loops *)
Lemma lin_addat acc : forall v i t g, (i < length acc)%nat -> lin v (addat acc i t) g = lin v acc g + t * g (v + Z.of_nat i).
Proof.
  unfold addat. induction acc as [|c acc IH]; intros v i t g H; [cbn in H; lia|]. destruct i as [|i]; cbn [upd nth lin].
  - rewrite Z.add_0_r. lia.
  - rewrite IH by (cbn in H; lia). replace (v + 1 + Z.of_nat i) with (v + Z.of_nat (S i)) by lia. lia.
Qed.
Lemma addat_length acc i t : length (addat acc i t) = length acc. Proof. apply upd_length. Qed.

Lemma add_loop v0 cs : forall s acc off g, 0 <= off + s -> off + s + Z.of_nat (length cs) <= Z.of_nat (length acc) ->
  length (fold_left (fun acc '(i, c) => addat acc (Z.to_nat (off + i)) c) (enumerate s cs) acc) = length acc /\
  lin v0 (fold_left (fun acc '(i, c) => addat acc (Z.to_nat (off + i)) c) (enumerate s cs) acc) g
  = lin v0 acc g + lin (v0 + off + s) cs g.
Proof.
  induction cs as [|c cs IH]; intros s acc off g H1 H2; cbn [enumerate fold_left lin]; [split; [reflexivity|lia]|].
  cbn [length] in H2. destruct (IH (s + 1) (addat acc (Z.to_nat (off + s)) c) off g) as [E1 E2]; [lia|rewrite addat_length; lia|].
  rewrite E1, E2, addat_length. split; [reflexivity|]. rewrite lin_addat by lia. rewrite Z2Nat.id by lia.
  replace (v0 + off + (s + 1)) with (v0 + off + s + 1) by lia. replace (v0 + (off + s)) with (v0 + off + s) by lia. lia.
Qed.
Lemma fold_left_ext {A B} (f g : A -> B -> A) l : (forall a b, f a b = g a b) -> forall a, fold_left f l a = fold_left g l a.
Proof. intros H. induction l as [|b l IH]; intros a; cbn; [reflexivity|]. now rewrite H. Qed.

Lemma L_add p q g : L (ladd p q) g = L p g + L q g.
Proof.
  unfold ladd. rewrite L_make. set (mv := Z.min (lval p) (lval q)).
  set (mp := Z.max (lval p + Z.of_nat (length (lcoeffs p))) (lval q + Z.of_nat (length (lcoeffs q)))).
  rewrite (fold_left_ext _ (fun acc '(i, c) => addat acc (Z.to_nat ((lval q - mv) + i)) c) (enumerate 0 (lcoeffs q)))
    by (intros a [i c]; f_equal; f_equal; lia).
  rewrite (fold_left_ext _ (fun acc '(i, c) => addat acc (Z.to_nat ((lval p - mv) + i)) c) (enumerate 0 (lcoeffs p)))
    by (intros a [i c]; f_equal; f_equal; lia).
  destruct (add_loop mv (lcoeffs p) 0 (repeat 0 (Z.to_nat (mp - mv))) (lval p - mv) g) as [A1 A2]; [lia|rewrite repeat_length; lia|].
  rewrite repeat_length in A1.
  match goal with |- context [fold_left _ _ ?X] => set (c1 := X) in * end.
  destruct (add_loop mv (lcoeffs q) 0 c1 (lval q - mv) g) as [B1 B2]; [lia|rewrite A1; lia|].
  rewrite B2, A2, lin_zeros. unfold L. replace (mv + (lval p - mv) + 0) with (lval p) by lia.
  replace (mv + (lval q - mv) + 0) with (lval q) by lia. lia.
Qed.
(** index of every write in [ladd] is in range (so Python raises no IndexError and wraps no negative index) *)
Lemma add_index_ok p q i : 0 <= i < Z.of_nat (length (lcoeffs p)) ->
  0 <= lval p + i - Z.min (lval p) (lval q) <
  Z.max (lval p + Z.of_nat (length (lcoeffs p))) (lval q + Z.of_nat (length (lcoeffs q))) - Z.min (lval p) (lval q).
Proof. lia. Qed.

Lemma mul_row v c i b : forall s acc g, 0 <= i -> 0 <= s -> i + s + Z.of_nat (length b) <= Z.of_nat (length acc) ->
  length (fold_left (fun acc '((i, c), (j, d)) => addat acc (Z.to_nat (i + j)) (c * d)) (map (fun y => ((i, c), y)) (enumerate s b)) acc) = length acc /\
  lin v (fold_left (fun acc '((i, c), (j, d)) => addat acc (Z.to_nat (i + j)) (c * d)) (map (fun y => ((i, c), y)) (enumerate s b)) acc) g =
  lin v acc g + c * lin (v + i + s) b g.
Proof.
  induction b as [|d b IH]; intros s acc g Hi Hs H; cbn [enumerate map fold_left lin]; [split; [reflexivity|lia]|].
  cbn [length] in H. destruct (IH (s + 1) (addat acc (Z.to_nat (i + s)) (c * d)) g) as [E1 E2]; [lia|lia|rewrite addat_length; lia|].
  rewrite E1, E2, addat_length. split; [reflexivity|]. rewrite lin_addat by lia. rewrite Z2Nat.id by lia.
  replace (v + i + (s + 1)) with (v + i + s + 1) by lia. replace (v + (i + s)) with (v + i + s) by lia. lia.
Qed.
Lemma lin_conv_aux v b a : forall s acc g, 0 <= s -> s + Z.of_nat (length a) + Z.of_nat (length b) <= Z.of_nat (length acc) ->
  length (fold_left (fun acc '((i, c), (j, d)) => addat acc (Z.to_nat (i + j)) (c * d)) (list_prod (enumerate s a) (enumerate 0 b)) acc) = length acc /\
  lin v (fold_left (fun acc '((i, c), (j, d)) => addat acc (Z.to_nat (i + j)) (c * d)) (list_prod (enumerate s a) (enumerate 0 b)) acc) g =
  lin v acc g + lin (v + s) a (fun e => lin 0 b (fun f => g (e + f))).
Proof.
  induction a as [|c a IH]; intros s acc g Hs H; cbn [enumerate list_prod fold_left lin]; [split; [reflexivity|lia]|].
  cbn [length] in H. rewrite fold_left_app.
  destruct (mul_row v c s b 0 acc g) as [R1 R2]; [lia|lia|lia|].
  match goal with |- context [fold_left _ (list_prod _ _) ?X] => set (acc1 := X) in * end.
  destruct (IH (s + 1) acc1 g) as [E1 E2]; [lia|rewrite R1; lia|]. rewrite E1, E2, R1, R2. split; [reflexivity|].
  replace (v + (s + 1)) with (v + s + 1) by lia. rewrite Z.add_0_r.
  replace (lin (v + s) b g) with (lin 0 b (fun f => g (v + s + f))); [lia|].
  symmetry. replace (v + s) with (0 + (v + s)) at 1 by lia. rewrite lin_shift. apply lin_ext. intros e. f_equal. lia.
Qed.
Lemma lin_conv v a b g : lin v (conv a b) g = lin v a (fun e => lin 0 b (fun f => g (e + f))).
Proof.
  unfold conv. destruct (lin_conv_aux v b a 0 (repeat 0 (length a + length b)) g) as [_ E]; [lia|rewrite repeat_length; lia|].
  rewrite E, lin_zeros. replace (v + 0) with v by lia. lia.
Qed.
Lemma mul_index_ok (a b : list Z) i j : 0 <= i < Z.of_nat (length a) -> 0 <= j < Z.of_nat (length b) ->
  0 <= i + j < Z.of_nat (length a + length b).
Proof. lia. Qed.
Lemma L_mul p q g : L (lmul p q) g = L p (fun e => L q (fun f => g (e + f))).
Proof.
  unfold lmul. rewrite L_make, lin_conv. unfold L. rewrite lin_shift. apply lin_ext. intros e.
  assert (E : forall h, lin (lval q) (lcoeffs q) h = lin 0 (lcoeffs q) (fun f => h (f + lval q))).
  { intros h. rewrite <- lin_shift. now rewrite Z.add_0_l. }
  rewrite E. apply lin_ext. intros f. f_equal. lia.
Qed.
Lemma L_neg p g : L (lneg p) g = - L p g.
Proof. unfold lneg. rewrite L_make. apply lin_map_opp. Qed.
Lemma L_muli p c g : L (lmuli p c) g = L p g * c.
Proof. unfold lmuli. rewrite L_make. apply lin_map_scale. Qed.
Lemma L_int c g : L (lint c) g = c * g 0.
Proof. unfold lint. rewrite L_make. cbn. lia. Qed.
Lemma L_ext p g h : (forall e, g e = h e) -> L p g = L p h. Proof. apply lin_ext. Qed.
Lemma L_sub p q g : L (lsub p q) g = L p g - L q g.
Proof. unfold lsub. rewrite L_add, L_neg. lia. Qed.
Lemma L_addi p c g : L (laddi p c) g = L p g + c * g 0.
Proof. unfold laddi. now rewrite L_add, L_int. Qed.

#[global] Instance ladd_proper : Proper (leq ==> leq ==> leq) ladd.
Proof. intros p p' H q q' K. apply leq_L. intros g. rewrite !L_add. rewrite leq_L in H, K. now rewrite H, K. Qed.
#[global] Instance lmul_proper : Proper (leq ==> leq ==> leq) lmul.
Proof.
  intros p p' H q q' K. apply leq_L. intros g. rewrite !L_mul. rewrite leq_L in H, K. rewrite H.
  apply L_ext. intros e. apply K.
Qed.
#[global] Instance lneg_proper : Proper (leq ==> leq) lneg.
Proof. intros p p' H. apply leq_L. intros g. rewrite !L_neg. rewrite leq_L in H. now rewrite H. Qed.
#[global] Instance lsub_proper : Proper (leq ==> leq ==> leq) lsub.
Proof. intros p p' H q q' K. apply leq_L. intros g. rewrite !L_sub. rewrite leq_L in H, K. now rewrite H, K. Qed.

Lemma lring : ring_theory (lint 0) (lint 1) ladd lmul lsub lneg leq.
Proof.
  split; intros; apply leq_L; intros g; rewrite ?L_add, ?L_sub, ?L_neg, ?L_mul, ?L_int, ?L_add, ?L_neg, ?L_mul; try lia.
  - rewrite (L_ext _ _ g); [lia|]. intros e. f_equal.
  - unfold L. rewrite lin_swap. apply lin_ext. intros f. apply lin_ext. intros e. f_equal. lia.
  - apply L_ext. intros e. rewrite L_mul. apply L_ext. intros f. apply L_ext. intros h. f_equal. lia.
Qed.
Lemma lring_ext : ring_eq_ext ladd lmul lneg leq.
Proof. split; [apply ladd_proper|apply lmul_proper|apply lneg_proper]. Qed.
Add Ring lpoly_ring : lring (setoid leq_equiv lring_ext).

Lemma canon_add p q : lcanon (ladd p q). Proof. apply canon_make. Qed.
Lemma canon_mul p q : lcanon (lmul p q). Proof. apply canon_make. Qed.
Lemma canon_neg p : lcanon (lneg p). Proof. apply canon_make. Qed.
Lemma canon_int c : lcanon (lint c). Proof. apply canon_make. Qed.
Lemma canon_muli p c : lcanon (lmuli p c). Proof. apply canon_make. Qed.
Lemma leqb_eq p q : leqb p q = true <-> p = q.
Proof.
  unfold leqb. rewrite andb_true_iff, Z.eqb_eq. destruct p as [v c], q as [w d]. cbn [lval lcoeffs].
  destruct (list_eq_dec Z.eq_dec c d) as [->|N]; (split; [intros [H K]|intros E]).
  - now rewrite H.
  - injection E as E. split; [exact E|reflexivity].
  - discriminate.
  - injection E as _ K. contradiction.
Qed.
