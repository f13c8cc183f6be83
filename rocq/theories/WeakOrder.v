(** WeakOrder.v – inversions, descents and the weak order on permutations. *)
From Verif Require Import Base ModelPerm PermTheory.
From Coq Require Import Permutation.

Section WO.
Variable n : nat.
Notation P := (isperm n).
Definition sg (i : nat) : list nat := ptrans n i (i + 1).

Lemma isperm_sg i : i + 1 < n -> P (sg i).
Proof. intros. apply isperm_ptrans; lia. Qed.
Lemma sg_sg i : i + 1 < n -> pcomp (sg i) (sg i) = identity n.
Proof. intros. apply ptrans_invol; lia. Qed.
Lemma pinv_sg i : i + 1 < n -> pinv (sg i) = sg i.
Proof. intros. apply pinv_ptrans; lia. Qed.
Lemma app_sg i k : i + 1 < n -> k < n -> ap (sg i) k = if k =? i then i + 1 else if k =? i + 1 then i else k.
Proof. intros. unfold sg. apply app_ptrans; lia. Qed.

(** descents *)
Definition Rdes (w : list nat) (i : nat) : Prop := ap w (i + 1) < ap w i.
Definition Ldes (w : list nat) (i : nat) : Prop := ap (pinv w) (i + 1) < ap (pinv w) i.
Lemma Rdes_dec w i : {Rdes w i} + {~ Rdes w i}. Proof. apply lt_dec. Qed.
Lemma Ldes_dec w i : {Ldes w i} + {~ Ldes w i}. Proof. apply lt_dec. Qed.

Lemma nRdes w i : P w -> i + 1 < n -> (~ Rdes w i <-> ap w i < ap w (i + 1)).
Proof.
  intros H Hi. unfold Rdes. split; [|lia]. intros K.
  assert (ap w i <> ap w (i + 1)) by (intros E; apply (isperm_inj n w) in E; auto; lia). lia.
Qed.
Lemma nLdes w i : P w -> i + 1 < n -> (~ Ldes w i <-> ap (pinv w) i < ap (pinv w) (i + 1)).
Proof. intros H Hi. apply (nRdes (pinv w) i); auto using isperm_pinv. Qed.

(** reduced products: no inversion of y^-1 is an inversion of x *)
Definition pred (x y : list nat) : Prop :=
  forall a b, a < b -> b < n -> ap (pinv y) b < ap (pinv y) a -> ap x a < ap x b.

Lemma pred_pos x y : P x -> P y ->
  (pred x y <-> forall i j, i < j -> j < n -> ap y j < ap y i -> ap x (ap y j) < ap x (ap y i)).
Proof.
  intros Hx Hy. split.
  - intros H i j Hij Hj L. apply (H (ap y j) (ap y i) L); [now apply isperm_app_lt; auto; lia|].
    rewrite !(pinv_app n) by (auto; lia). exact Hij.
  - intros H a b Hab Hb L.
    rewrite <- (app_pinv n y a), <- (app_pinv n y b) by (auto; lia).
    apply H; [exact L|apply isperm_app_lt; auto using isperm_pinv; lia|].
    rewrite !(app_pinv n) by (auto; lia). exact Hab.
Qed.

Lemma neq_app w i j : P w -> i < n -> j < n -> i <> j -> ap w i <> ap w j.
Proof. intros H Hi Hj N E. apply N. now apply (isperm_inj n w). Qed.

Lemma pred_1l y : P y -> pred (identity n) y.
Proof. intros Hy a b H1 H2 _. rewrite !app_id by lia. exact H1. Qed.
Lemma pred_1r x : P x -> pred x (identity n).
Proof. intros Hx a b H1 H2. rewrite pinv_id, !app_id by lia. lia. Qed.

Lemma pred_assoc_r x y z : P x -> P y -> P z -> pred x y -> pred (pcomp x y) z -> pred y z /\ pred x (pcomp y z).
Proof.
  intros Hx Hy Hz H1 H2.
  rewrite pred_pos in H1, H2 by auto using isperm_pcomp.
  assert (A : pred y z).
  { apply pred_pos; auto. intros i j Hij Hj L.
    assert (Bi : ap z i < n) by (apply isperm_app_lt; auto; lia).
    assert (Bj : ap z j < n) by (apply isperm_app_lt; auto; lia).
    specialize (H2 i j Hij Hj L). rewrite !(app_pcomp n) in H2 by auto.
    pose proof (neq_app y (ap z i) (ap z j) Hy Bi Bj ltac:(lia)).
    destruct (le_lt_dec (ap y (ap z i)) (ap y (ap z j))) as [K|K]; [|exact K].
    specialize (H1 (ap z j) (ap z i) L Bi ltac:(lia)). lia. }
  split; [exact A|]. apply pred_pos; auto using isperm_pcomp.
  intros i j Hij Hj. rewrite !(app_pcomp n) by (auto; lia). intros L.
  assert (Bi : ap z i < n) by (apply isperm_app_lt; auto; lia).
  assert (Bj : ap z j < n) by (apply isperm_app_lt; auto; lia).
  pose proof (neq_app z i j Hz ltac:(lia) Hj ltac:(lia)).
  destruct (le_lt_dec (ap z i) (ap z j)) as [K|K].
  - apply (H1 (ap z i) (ap z j)); lia.
  - specialize (H2 i j Hij Hj K). now rewrite !(app_pcomp n) in H2 by auto.
Qed.

Lemma pred_assoc_l x y z : P x -> P y -> P z -> pred y z -> pred x (pcomp y z) -> pred x y /\ pred (pcomp x y) z.
Proof.
  intros Hx Hy Hz H1 H2.
  rewrite pred_pos in H1, H2 by auto using isperm_pcomp.
  assert (A : forall i j, i < j -> j < n -> ap y (ap z j) < ap y (ap z i) -> ap x (ap y (ap z j)) < ap x (ap y (ap z i))).
  { intros i j Hij Hj L. specialize (H2 i j Hij Hj). rewrite !(app_pcomp n) in H2 by (auto; lia). auto. }
  split.
  - apply pred_pos; auto. intros p q Hpq Hq L.
    destruct (isperm_surj n z p Hz ltac:(lia)) as [i [Hi Ei]].
    destruct (isperm_surj n z q Hz ltac:(lia)) as [j [Hj Ej]]. subst p q.
    assert (i <> j) by (intros ->; lia).
    destruct (le_lt_dec i j) as [K|K]; [apply A; lia|].
    specialize (H1 j i K Hi Hpq). lia.
  - apply pred_pos; auto using isperm_pcomp. intros i j Hij Hj L.
    rewrite !(app_pcomp n) by (auto using isperm_app_lt; apply isperm_app_lt; auto; lia).
    apply A; auto.
Qed.

(** no inversions: identity *)
Lemma incr_id w : P w -> (forall i, i + 1 < n -> ap w i < ap w (i + 1)) -> w = identity n.
Proof.
  intros Hw H. apply (isperm_ext n); auto using isperm_id.
  assert (A : forall i, i < n -> i <= ap w i).
  { induction i as [|i IH]; intros Hi; [lia|]. specialize (IH ltac:(lia)). specialize (H i ltac:(lia)).
    rewrite Nat.add_1_r in H. lia. }
  assert (B : forall k, k < n -> ap w (n - 1 - k) <= n - 1 - k).
  { induction k as [|k IH]; intros Hk.
    - pose proof (isperm_app_lt n w (n - 1 - 0) Hw ltac:(lia)). lia.
    - specialize (IH ltac:(lia)). specialize (H (n - 1 - S k) ltac:(lia)).
      replace (n - 1 - S k + 1) with (n - 1 - k) in H by lia. lia. }
  intros i Hi. rewrite app_id by lia. specialize (A i Hi). specialize (B (n - 1 - i) ltac:(lia)).
  replace (n - 1 - (n - 1 - i)) with i in B by lia. lia.
Qed.

Lemma ex_Rdes w : P w -> w <> identity n -> exists i, i + 1 < n /\ Rdes w i.
Proof.
  intros Hw N.
  destruct (forallb (fun i => ap w i <? ap w (i + 1)) (seq 0 (n - 1))) eqn:E.
  - exfalso. apply N. apply incr_id; auto. intros i Hi.
    rewrite forallb_forall in E. apply Nat.ltb_lt. apply E. apply in_seq. lia.
  - assert (K : exists i, In i (seq 0 (n - 1)) /\ (ap w i <? ap w (i + 1)) = false).
    { clear -E. induction (seq 0 (n - 1)) as [|i l IH]; [discriminate|]. cbn [forallb] in E.
      destruct (ap w i <? ap w (i + 1)) eqn:F; [|exists i; split; [now left|exact F]].
      destruct (IH E) as [j [H1 H2]]. exists j. split; [now right|exact H2]. }
    destruct K as [i [H1 H2]]. apply in_seq in H1. exists i. split; [lia|].
    apply Nat.ltb_ge in H2. unfold Rdes.
    pose proof (neq_app w i (i + 1) Hw ltac:(lia) ltac:(lia) ltac:(lia)). lia.
Qed.
Lemma ex_Ldes w : P w -> w <> identity n -> exists i, i + 1 < n /\ Ldes w i.
Proof.
  intros Hw N. apply ex_Rdes; auto using isperm_pinv. intros E. apply N.
  rewrite <- (pinv_pinv n w Hw), E. apply pinv_id.
Qed.

Lemma pred_sg_r x i : P x -> i + 1 < n -> (pred x (sg i) <-> ~ Rdes x i).
Proof.
  intros Hx Hi. rewrite nRdes by auto. split.
  - intros H. apply H; try lia. rewrite pinv_sg by auto. rewrite !app_sg by lia.
    rewrite Nat.eqb_refl. destruct (Nat.eqb_spec (i + 1) i); [lia|]. rewrite Nat.eqb_refl. lia.
  - intros H a b Hab Hb. rewrite pinv_sg by auto. rewrite !app_sg by lia.
    destruct (Nat.eqb_spec a i) as [Ea|Ea], (Nat.eqb_spec a (i + 1)) as [Fa|Fa],
      (Nat.eqb_spec b i) as [Eb|Eb], (Nat.eqb_spec b (i + 1)) as [Fb|Fb]; try lia; try (subst; lia).
Qed.
Lemma pred_sg_l y i : P y -> i + 1 < n -> (pred (sg i) y <-> ~ Ldes y i).
Proof.
  intros Hy Hi. rewrite nLdes by auto. split.
  - intros H. pose proof (neq_app (pinv y) i (i + 1) (isperm_pinv _ _ Hy) ltac:(lia) ltac:(lia) ltac:(lia)).
    destruct (le_lt_dec (ap (pinv y) i) (ap (pinv y) (i + 1))) as [K|K]; [lia|].
    specialize (H i (i + 1) ltac:(lia) ltac:(lia) K). rewrite !app_sg in H by lia.
    rewrite Nat.eqb_refl in H. destruct (Nat.eqb_spec (i + 1) i); [lia|]. rewrite Nat.eqb_refl in H. lia.
  - intros H a b Hab Hb L. rewrite !app_sg by lia.
    destruct (Nat.eqb_spec a i) as [Ea|Ea], (Nat.eqb_spec a (i + 1)) as [Fa|Fa],
      (Nat.eqb_spec b i) as [Eb|Eb], (Nat.eqb_spec b (i + 1)) as [Fb|Fb]; try lia; try (subst; lia).
Qed.

(** weak order: e is a left divisor of y *)
Definition pdiv (e y : list nat) : Prop :=
  forall a b, a < b -> b < n -> ap (pinv e) b < ap (pinv e) a -> ap (pinv y) b < ap (pinv y) a.

Lemma pdiv_iff e y : P e -> P y -> (pdiv e y <-> pred e (pcomp (pinv e) y)).
Proof.
  intros He Hy. assert (Hf : P (pcomp (pinv e) y)) by auto using isperm_pcomp, isperm_pinv.
  rewrite pred_pos by auto. split.
  - intros H i j Hij Hj. rewrite !(app_pcomp n) by (auto using isperm_pinv; lia). intros L.
    assert (Bi : ap y i < n) by (apply isperm_app_lt; auto; lia).
    assert (Bj : ap y j < n) by (apply isperm_app_lt; auto; lia).
    rewrite !(app_pinv n) by auto.
    pose proof (neq_app y i j Hy ltac:(lia) Hj ltac:(lia)).
    destruct (le_lt_dec (ap y i) (ap y j)) as [K|K]; [|exact K].
    specialize (H (ap y i) (ap y j) ltac:(lia) Bj L). rewrite !(pinv_app n) in H by (auto; lia). lia.
  - intros H a b Hab Hb L.
    destruct (isperm_surj n y a Hy ltac:(lia)) as [i [Hi Ei]].
    destruct (isperm_surj n y b Hy ltac:(lia)) as [j [Hj Ej]]. subst a b.
    rewrite !(pinv_app n) by auto.
    destruct (le_lt_dec i j) as [K|K]; [|exact K].
    assert (i <> j) by (intros ->; lia).
    specialize (H i j ltac:(lia) Hj). rewrite !(app_pcomp n), !(app_pinv n) in H by (auto using isperm_pinv, isperm_app_lt; lia).
    specialize (H L). lia.
Qed.

Lemma Ldes_div y i : P y -> i + 1 < n -> (Ldes y i <-> pdiv (sg i) y).
Proof.
  intros Hy Hi. split.
  - intros H a b Hab Hb. rewrite pinv_sg by auto. rewrite !app_sg by lia.
    destruct (Nat.eqb_spec a i) as [Ea|Ea], (Nat.eqb_spec a (i + 1)) as [Fa|Fa],
      (Nat.eqb_spec b i) as [Eb|Eb], (Nat.eqb_spec b (i + 1)) as [Fb|Fb]; try lia; try (subst; lia). subst. intros _. exact H.
  - intros H. apply H; try lia. rewrite pinv_sg by auto. rewrite !app_sg by lia.
    rewrite Nat.eqb_refl. destruct (Nat.eqb_spec (i + 1) i); [lia|]. rewrite Nat.eqb_refl. lia.
Qed.

(** ** length: number of inversions *)
Fixpoint invs (l : list nat) : nat :=
  match l with
  | [] => 0
  | x :: r => length (filter (fun y => y <? x) r) + invs r
  end.

Lemma count_sum (f : nat -> bool) l : list_sum (map (fun j => if f j then 1 else 0) l) = length (filter f l).
Proof. unfold list_sum. induction l as [|x l IH]; [reflexivity|]. cbn. destruct (f x); cbn [length]; rewrite IH; reflexivity. Qed.

Lemma filter_map_comm {A B} (f : B -> bool) (g : A -> B) l : filter f (map g l) = map g (filter (fun a => f (g a)) l).
Proof. induction l as [|a l IH]; [reflexivity|]. cbn [map filter]. rewrite IH. destruct (f (g a)); reflexivity. Qed.

Lemma filter_nth (f : nat -> bool) l d : length (filter f l) = length (filter (fun j => f (nth j l d)) (seq 0 (length l))).
Proof.
  induction l as [|x l IH]; [reflexivity|]. cbn [length seq]. rewrite <- seq_shift.
  cbn [filter]. rewrite filter_map_comm. cbn [nth].
  destruct (f x); cbn [length]; rewrite map_length, IH; reflexivity.
Qed.

Lemma plength_cons x w : plength (x :: w) = length (filter (fun y => y <? x) w) + plength w.
Proof.
  unfold plength. cbn [length]. rewrite <- cons_seq. cbn [map]. unfold list_sum at 1. cbn [fold_right].
  f_equal.
  - replace (S (length w) - (0 + 1)) with (length w) by lia.
    change (0 + 1) with 1. rewrite <- (seq_shift (length w) 0), map_map. cbn [nth].
    rewrite count_sum. now rewrite (filter_nth (fun y => y <? x) w 0).
  - fold (list_sum (map (fun i => list_sum (map (fun j => if nth j (x :: w) 0 <? nth i (x :: w) 0 then 1 else 0)
        (seq (i + 1) (S (length w) - (i + 1))))) (seq 1 (length w)))).
    rewrite <- (seq_shift (length w) 0), map_map. f_equal. apply map_ext. intros i.
    replace (S (length w) - (S i + 1)) with (length w - (i + 1)) by lia.
    change (S i + 1) with (S (i + 1)).
    rewrite <- (seq_shift (length w - (i + 1)) (i + 1)), map_map. cbn [nth]. reflexivity.
Qed.
Lemma plength_invs w : plength w = invs w.
Proof. induction w as [|x w IH]; [reflexivity|]. now rewrite plength_cons, IH. Qed.

Lemma filter_perm_len {A} (f : A -> bool) l l' : Permutation l l' -> length (filter f l) = length (filter f l').
Proof.
  induction 1; cbn; [reflexivity| | |congruence].
  - destruct (f x); cbn; congruence.
  - destruct (f x), (f y); reflexivity.
Qed.

Lemma invs_swap l1 a b l2 : a < b -> invs (l1 ++ b :: a :: l2) = S (invs (l1 ++ a :: b :: l2)).
Proof.
  intros H. induction l1 as [|x l1 IH]; cbn [List.app invs].
  - cbn [filter]. destruct (Nat.ltb_spec a b), (Nat.ltb_spec b a); try lia. cbn [length]. lia.
  - rewrite IH. rewrite (filter_perm_len _ (l1 ++ b :: a :: l2) (l1 ++ a :: b :: l2)); [lia|].
    apply Permutation_app_head. apply perm_swap.
Qed.

Lemma swap_adj_split (w : list nat) i : i + 1 < length w -> exists l1 l2,
  w = l1 ++ ap w i :: ap w (i + 1) :: l2 /\ swap w i (i + 1) = l1 ++ ap w (i + 1) :: ap w i :: l2.
Proof.
  revert i. induction w as [|x w IH]; intros i H; cbn [length] in H; [lia|].
  destruct i as [|i].
  - destruct w as [|y w]; cbn in H; [lia|]. exists [], w. split; reflexivity.
  - destruct (IH i ltac:(lia)) as [l1 [l2 [E1 E2]]]. exists (x :: l1), l2.
    cbn [nth plus List.app]. split; [now rewrite <- E1|].
    rewrite <- E2. unfold swap. cbn [nth plus upd]. reflexivity.
Qed.

Lemma plength_swap w i : i + 1 < length w -> ap w (i + 1) < ap w i ->
  plength w = S (plength (swap w i (i + 1))).
Proof.
  intros H L. destruct (swap_adj_split w i H) as [l1 [l2 [E1 E2]]].
  rewrite !plength_invs, E2, <- (invs_swap _ _ _ _ L). now rewrite <- E1.
Qed.
Lemma plength_swap_up w i : i + 1 < length w -> ap w i < ap w (i + 1) ->
  plength (swap w i (i + 1)) = S (plength w).
Proof.
  intros H L. destruct (swap_adj_split w i H) as [l1 [l2 [E1 E2]]].
  rewrite !plength_invs, E2, (invs_swap _ _ _ _ L). now rewrite <- E1.
Qed.

Lemma invs_bound l : 2 * invs l <= length l * (length l - 1).
Proof.
  induction l as [|x l IH]; [cbn; lia|]. cbn [invs length].
  assert (length (filter (fun y => y <? x) l) <= length l).
  { clear. induction l as [|y l IH]; [reflexivity|]. cbn [filter length]. destruct (y <? x); cbn [length]; lia. }
  destruct (length l) as [|m]; [cbn in *; lia|]. cbn [Nat.sub] in *. rewrite ?Nat.sub_0_r in *. nia.
Qed.
Lemma plength_bound w : 2 * plength w <= length w * (length w - 1).
Proof. rewrite plength_invs. apply invs_bound. Qed.

Lemma plength_id : plength (identity n) = 0.
Proof.
  rewrite plength_invs. unfold identity. generalize 0 at 1. induction n as [|m IH]; intros k; [reflexivity|].
  cbn [seq invs]. rewrite IH. rewrite Nat.add_0_r.
  assert (E : filter (fun y => y <? k) (seq (S k) m) = []).
  { assert (G : forall j, k <= j -> filter (fun y => y <? k) (seq j m) = []).
    { clear. induction m as [|m IH]; intros j Hj; [reflexivity|]. cbn [seq filter].
      destruct (Nat.ltb_spec j k); [lia|]. apply IH. lia. }
    apply G. lia. }
  now rewrite E.
Qed.

(** left multiplication by a generator, through the inverse *)
Lemma pinv_sgl w i : P w -> i + 1 < n -> pinv (pcomp (sg i) w) = swap (pinv w) i (i + 1).
Proof.
  intros Hw Hi. rewrite (pinv_pcomp n) by auto using isperm_sg. rewrite pinv_sg by auto.
  unfold sg. apply (pcomp_ptrans n); auto using isperm_pinv; lia.
Qed.
Definition llen (w : list nat) : nat := plength (pinv w).
Lemma llen_down w i : P w -> i + 1 < n -> Ldes w i -> llen w = S (llen (pcomp (sg i) w)).
Proof.
  intros Hw Hi H. unfold llen. rewrite pinv_sgl by auto. apply plength_swap; [|exact H].
  rewrite (isperm_length n) by auto using isperm_pinv. exact Hi.
Qed.
Lemma sg_cancel w i : P w -> i + 1 < n -> pcomp (sg i) (pcomp (sg i) w) = w.
Proof.
  intros Hw Hi. rewrite <- (pcomp_assoc n) by auto using isperm_sg. rewrite sg_sg by auto. now apply pcomp_id_l.
Qed.
Lemma sg_cancel_r w i : P w -> i + 1 < n -> pcomp (pcomp w (sg i)) (sg i) = w.
Proof.
  intros Hw Hi. rewrite (pcomp_assoc n) by auto using isperm_sg. rewrite sg_sg by auto. now apply pcomp_id_r.
Qed.

(** group cancellation *)
Lemma pcomp_cancel_l x y z : P x -> P y -> P z -> pcomp x y = pcomp x z -> y = z.
Proof.
  intros Hx Hy Hz E. apply (f_equal (pcomp (pinv x))) in E.
  rewrite <- !(pcomp_assoc n) in E by auto using isperm_pinv.
  rewrite !(pcomp_pinv_l n), !pcomp_id_l in E by auto. exact E.
Qed.
Lemma pcomp_cancel_r x y z : P x -> P y -> P z -> pcomp x z = pcomp y z -> x = y.
Proof.
  intros Hx Hy Hz E. apply (f_equal (fun w => pcomp w (pinv z))) in E.
  rewrite !(pcomp_assoc n) in E by auto using isperm_pinv.
  rewrite !(pcomp_pinv_r n), !pcomp_id_r in E by auto. exact E.
Qed.

(** ** rank two *)
Lemma app_sg_i i : i + 1 < n -> ap (sg i) i = i + 1.
Proof. intros. rewrite app_sg by lia. now rewrite Nat.eqb_refl. Qed.
Lemma app_sg_i1 i : i + 1 < n -> ap (sg i) (i + 1) = i.
Proof. intros. rewrite app_sg by lia. destruct (Nat.eqb_spec (i + 1) i); [lia|]. now rewrite Nat.eqb_refl. Qed.
Lemma app_sg_o i k : i + 1 < n -> k < n -> k <> i -> k <> i + 1 -> ap (sg i) k = k.
Proof.
  intros. rewrite app_sg by lia. destruct (Nat.eqb_spec k i); [lia|]. destruct (Nat.eqb_spec k (i + 1)); [lia|reflexivity].
Qed.

Lemma app_braid i k : i + 2 < n -> k < n ->
  ap (pcomp (sg i) (pcomp (sg (i + 1)) (sg i))) k = if k =? i then i + 2 else if k =? i + 2 then i else k.
Proof.
  intros Hi Hk. assert (H1 : P (sg i)) by (apply isperm_sg; lia). assert (H2 : P (sg (i + 1))) by (apply isperm_sg; lia).
  rewrite !(app_pcomp n) by auto using isperm_pcomp, isperm_app_lt.
  destruct (Nat.eqb_spec k i) as [->|N1].
  - rewrite app_sg_i by lia. rewrite app_sg_i by lia. rewrite app_sg_o by lia. lia.
  - destruct (Nat.eqb_spec k (i + 2)) as [->|N2].
    + rewrite (app_sg_o i (i + 2)) by lia. replace (i + 2) with (i + 1 + 1) by lia.
      rewrite app_sg_i1 by lia. rewrite app_sg_i1 by lia. reflexivity.
    + destruct (Nat.eq_dec k (i + 1)) as [->|N3].
      * rewrite app_sg_i1 by lia. rewrite (app_sg_o (i + 1) i) by lia. rewrite app_sg_i by lia. reflexivity.
      * rewrite (app_sg_o i k) by lia. rewrite (app_sg_o (i + 1) k) by lia. apply app_sg_o; lia.
Qed.
Lemma app_braid' i k : i + 2 < n -> k < n ->
  ap (pcomp (sg (i + 1)) (pcomp (sg i) (sg (i + 1)))) k = if k =? i then i + 2 else if k =? i + 2 then i else k.
Proof.
  intros Hi Hk. assert (H1 : P (sg i)) by (apply isperm_sg; lia). assert (H2 : P (sg (i + 1))) by (apply isperm_sg; lia).
  rewrite !(app_pcomp n) by auto using isperm_pcomp, isperm_app_lt.
  destruct (Nat.eqb_spec k i) as [->|N1].
  - rewrite (app_sg_o (i + 1) i) by lia. rewrite app_sg_i by lia. rewrite app_sg_i by lia. lia.
  - destruct (Nat.eqb_spec k (i + 2)) as [->|N2].
    + replace (i + 2) with (i + 1 + 1) by lia. rewrite app_sg_i1 by lia. rewrite app_sg_i1 by lia. apply app_sg_o; lia.
    + destruct (Nat.eq_dec k (i + 1)) as [->|N3].
      * rewrite app_sg_i by lia. rewrite (app_sg_o i (i + 1 + 1)) by lia. apply app_sg_i1. lia.
      * rewrite (app_sg_o (i + 1) k) by lia. rewrite (app_sg_o i k) by lia. apply app_sg_o; lia.
Qed.

Lemma braid_sg i : i + 2 < n ->
  pcomp (sg i) (pcomp (sg (i + 1)) (sg i)) = pcomp (sg (i + 1)) (pcomp (sg i) (sg (i + 1))).
Proof.
  intros Hi. assert (H1 : P (sg i)) by (apply isperm_sg; lia). assert (H2 : P (sg (i + 1))) by (apply isperm_sg; lia).
  apply (isperm_ext n); auto using isperm_pcomp. intros k Hk. now rewrite app_braid, app_braid'.
Qed.

Lemma app_far i j k : i + 2 <= j -> j + 1 < n -> k < n ->
  ap (pcomp (sg i) (sg j)) k = if k =? i then i + 1 else if k =? i + 1 then i else if k =? j then j + 1 else if k =? j + 1 then j else k.
Proof.
  intros Hi Hj Hk. assert (H1 : P (sg i)) by (apply isperm_sg; lia). assert (H2 : P (sg j)) by (apply isperm_sg; lia).
  rewrite (app_pcomp n) by auto. rewrite (app_sg j k) by lia.
  destruct (Nat.eqb_spec k i) as [->|N1]; [|destruct (Nat.eqb_spec k (i + 1)) as [->|N2]].
  - destruct (Nat.eqb_spec i j); [lia|]. destruct (Nat.eqb_spec i (j + 1)); [lia|]. apply app_sg_i; lia.
  - destruct (Nat.eqb_spec (i + 1) j); [lia|]. destruct (Nat.eqb_spec (i + 1) (j + 1)); [lia|]. apply app_sg_i1; lia.
  - destruct (Nat.eqb_spec k j); [|destruct (Nat.eqb_spec k (j + 1))]; apply app_sg_o; lia.
Qed.
Lemma far_sg i j : i + 2 <= j -> j + 1 < n -> pcomp (sg i) (sg j) = pcomp (sg j) (sg i).
Proof.
  intros Hi Hj. assert (H1 : P (sg i)) by (apply isperm_sg; lia). assert (H2 : P (sg j)) by (apply isperm_sg; lia).
  apply (isperm_ext n); auto using isperm_pcomp. intros k Hk. rewrite app_far by lia.
  rewrite (app_pcomp n) by auto. rewrite (app_sg i k) by lia.
  destruct (Nat.eqb_spec k i) as [->|N1]; [|destruct (Nat.eqb_spec k (i + 1)) as [->|N2]].
  - symmetry; apply app_sg_o; lia.
  - symmetry; apply app_sg_o; lia.
  - symmetry. apply app_sg; lia.
Qed.

(** reduced words *)
Inductive redw : list nat -> list nat -> Prop :=
| rw_nil : redw [] (identity n)
| rw_cons i u w : i + 1 < n -> P w -> pred (sg i) w -> redw u w -> redw (i :: u) (pcomp (sg i) w).

Lemma redw_perm u w : redw u w -> P w.
Proof. induction 1; [apply isperm_id|]. apply isperm_pcomp; [now apply isperm_sg|assumption]. Qed.
Lemma redw_range u w : redw u w -> Forall (fun i => i + 1 < n) u.
Proof. induction 1; constructor; assumption. Qed.
Lemma redw_sg i : i + 1 < n -> redw [i] (sg i).
Proof.
  intros H. rewrite <- (pcomp_id_r n (sg i)) by now apply isperm_sg. apply rw_cons; auto using isperm_id.
  - apply pred_1r. now apply isperm_sg.
  - constructor.
Qed.
Lemma redw_app u v x y : redw u x -> redw v y -> pred x y -> redw (u ++ v) (pcomp x y).
Proof.
  intros Hu. revert v y. induction Hu as [|i u w Hi Hw Hr Hu IH]; intros v y Hv Hp.
  - cbn. rewrite pcomp_id_l by now apply redw_perm in Hv. exact Hv.
  - assert (Hy : P y) by now apply redw_perm in Hv. assert (Hs : P (sg i)) by now apply isperm_sg.
    destruct (pred_assoc_r _ _ _ Hs Hw Hy Hr Hp) as [K1 K2].
    rewrite (pcomp_assoc n) by auto. cbn [List.app]. apply rw_cons; auto using isperm_pcomp.
Qed.

Lemma Ldes_split w i : P w -> i + 1 < n -> Ldes w i ->
  pred (sg i) (pcomp (sg i) w) /\ w = pcomp (sg i) (pcomp (sg i) w).
Proof.
  intros Hw Hi H. assert (Hs : P (sg i)) by now apply isperm_sg. split; [|symmetry; now apply sg_cancel].
  apply pred_sg_l; auto using isperm_pcomp. apply nLdes; auto using isperm_pcomp.
  rewrite pinv_sgl by auto.
  assert (L : length (pinv w) = n) by (apply isperm_length; now apply isperm_pinv).
  rewrite !app_swap by lia. rewrite !Nat.eqb_refl. destruct (Nat.eqb_spec (i + 1) i); [lia|]. exact H.
Qed.
Lemma Ldes_mul w i : P w -> i + 1 < n -> pred (sg i) w -> Ldes (pcomp (sg i) w) i.
Proof.
  intros Hw Hi H. unfold Ldes. rewrite pinv_sgl by auto.
  assert (L : length (pinv w) = n) by (apply isperm_length; now apply isperm_pinv).
  rewrite !app_swap by lia. rewrite !Nat.eqb_refl. destruct (Nat.eqb_spec (i + 1) i); [lia|].
  apply pred_sg_l in H; auto. now apply nLdes in H.
Qed.

(** every permutation has a reduced word *)
Lemma llen_ind (Q : list nat -> Prop) :
  Q (identity n) ->
  (forall w i, P w -> i + 1 < n -> pred (sg i) w -> Q w -> Q (pcomp (sg i) w)) ->
  forall w, P w -> Q w.
Proof.
  intros H0 HS. assert (K : forall k w, llen w <= k -> P w -> Q w).
  { induction k as [|k IH]; intros w Hk Hw.
    - destruct (list_eq_dec Nat.eq_dec w (identity n)) as [->|N]; [exact H0|].
      destruct (ex_Ldes w Hw N) as [i [Hi Hd]]. pose proof (llen_down w i Hw Hi Hd). lia.
    - destruct (list_eq_dec Nat.eq_dec w (identity n)) as [->|N]; [exact H0|].
      destruct (ex_Ldes w Hw N) as [i [Hi Hd]]. destruct (Ldes_split w i Hw Hi Hd) as [Hr E].
      pose proof (llen_down w i Hw Hi Hd). rewrite E.
      assert (Hq : P (pcomp (sg i) w)) by (apply isperm_pcomp; [now apply isperm_sg|assumption]).
      apply HS; auto. apply IH; [lia|exact Hq]. }
  intros w. now apply (K (llen w)).
Qed.
Lemma redw_ex w : P w -> exists u, redw u w.
Proof.
  revert w. apply llen_ind.
  - exists []. constructor.
  - intros w i Hw Hi Hr [u Hu]. exists (i :: u). now constructor.
Qed.

(** rank two lcm *)
Record lcm2 (i j : nat) (u v : list nat) (m x y : list nat) : Prop := {
  l2_u : redw u x; l2_v : redw v y;
  l2_mx : m = pcomp (sg i) x; l2_my : m = pcomp (sg j) y;
  l2_px : pred (sg i) x; l2_py : pred (sg j) y;
  l2_div : forall w, P w -> Ldes w i -> Ldes w j -> pdiv m w;
  l2_red : forall w, P w -> ~ Rdes w i -> ~ Rdes w j -> pred w m }.

Lemma pinv_eq m : P m -> (forall k, k < n -> ap m (ap m k) = k) -> pinv m = m.
Proof.
  intros Hm H. apply (isperm_ext n); auto using isperm_pinv. intros k Hk.
  rewrite <- (H k Hk) at 1. apply (pinv_app n); auto using isperm_app_lt.
Qed.

Lemma lcm2_far i j : i + 2 <= j -> j + 1 < n ->
  lcm2 i j [j] [i] (pcomp (sg i) (sg j)) (sg j) (sg i).
Proof.
  intros Hi Hj. assert (H1 : P (sg i)) by (apply isperm_sg; lia). assert (H2 : P (sg j)) by (apply isperm_sg; lia).
  assert (Hm : P (pcomp (sg i) (sg j))) by auto using isperm_pcomp.
  assert (Ei : pinv (pcomp (sg i) (sg j)) = pcomp (sg i) (sg j)).
  { rewrite (pinv_pcomp n), !pinv_sg by (auto; lia). symmetry. now apply far_sg. }
  assert (Em : forall a b, a < b -> b < n -> ap (pcomp (sg i) (sg j)) b < ap (pcomp (sg i) (sg j)) a ->
     (a = i /\ b = i + 1) \/ (a = j /\ b = j + 1)).
  { intros a b Hab Hb. rewrite !app_far by lia.
    destruct (Nat.eqb_spec a i) as [E1|E1], (Nat.eqb_spec a (i + 1)) as [E2|E2], (Nat.eqb_spec a j) as [E3|E3],
      (Nat.eqb_spec a (j + 1)) as [E4|E4], (Nat.eqb_spec b i) as [F1|F1], (Nat.eqb_spec b (i + 1)) as [F2|F2], (Nat.eqb_spec b j) as [F3|F3],
      (Nat.eqb_spec b (j + 1)) as [F4|F4]; lia. }
  split.
  - apply redw_sg; lia.
  - apply redw_sg; lia.
  - reflexivity.
  - now apply far_sg.
  - apply pred_sg_r; auto. apply nRdes; auto; try lia. rewrite !app_sg_o by lia. lia.
  - apply pred_sg_r; auto; try lia. apply nRdes; auto; try lia. rewrite !app_sg_o by lia. lia.
  - intros w Hw D1 D2 a b Hab Hb. rewrite Ei. intros L. destruct (Em a b Hab Hb L) as [[-> ->]|[-> ->]]; assumption.
  - intros w Hw D1 D2 a b Hab Hb. rewrite Ei. intros L. apply nRdes in D1, D2; auto; try lia.
    destruct (Em a b Hab Hb L) as [[-> ->]|[-> ->]]; assumption.
Qed.

Lemma lcm2_adj i : i + 2 < n ->
  lcm2 i (i + 1) [i + 1; i] [i; i + 1] (pcomp (sg i) (pcomp (sg (i + 1)) (sg i)))
     (pcomp (sg (i + 1)) (sg i)) (pcomp (sg i) (sg (i + 1))).
Proof.
  intros Hi. assert (H1 : P (sg i)) by (apply isperm_sg; lia). assert (H2 : P (sg (i + 1))) by (apply isperm_sg; lia).
  assert (Hm : P (pcomp (sg i) (pcomp (sg (i + 1)) (sg i)))) by auto using isperm_pcomp.
  assert (Ei : pinv (pcomp (sg i) (pcomp (sg (i + 1)) (sg i))) = pcomp (sg i) (pcomp (sg (i + 1)) (sg i))).
  { rewrite !(pinv_pcomp n), !pinv_sg by (auto using isperm_pcomp; lia). apply (pcomp_assoc n); auto. }
  assert (Em : forall a b, a < b -> b < n -> ap (pcomp (sg i) (pcomp (sg (i + 1)) (sg i))) b < ap (pcomp (sg i) (pcomp (sg (i + 1)) (sg i))) a ->
     i <= a /\ b <= i + 2).
  { intros a b Hab Hb. rewrite !app_braid by lia.
    destruct (Nat.eqb_spec a i), (Nat.eqb_spec a (i + 2)), (Nat.eqb_spec b i), (Nat.eqb_spec b (i + 2)); lia. }
  assert (C : forall a b, i <= a -> a < b -> b <= i + 2 -> (a = i /\ b = i + 1) \/ (a = i /\ b = i + 1 + 1) \/ (a = i + 1 /\ b = i + 1 + 1)) by lia.
  assert (PA : pred (sg (i + 1)) (sg i)).
  { apply pred_sg_r; auto; try lia. apply nRdes; auto; try lia. rewrite app_sg_i by lia. rewrite app_sg_o by lia. lia. }
  assert (PB : pred (sg i) (sg (i + 1))).
  { apply pred_sg_r; auto; try lia. apply nRdes; auto; try lia. rewrite app_sg_i1 by lia. rewrite app_sg_o by lia. lia. }
  split.
  - apply rw_cons; auto; try lia. apply redw_sg; lia.
  - apply rw_cons; auto; try lia. apply redw_sg; lia.
  - reflexivity.
  - now apply braid_sg.
  - apply pred_sg_l; auto using isperm_pcomp; try lia. apply nLdes; auto using isperm_pcomp; try lia.
    rewrite (pinv_pcomp n), !pinv_sg by (auto; lia). rewrite !(app_pcomp n) by (auto; lia).
    rewrite (app_sg_o (i + 1) i) by lia. rewrite app_sg_i by lia. rewrite app_sg_i by lia. rewrite app_sg_o by lia. lia.
  - apply pred_sg_l; auto using isperm_pcomp; try lia. apply nLdes; auto using isperm_pcomp; try lia.
    rewrite (pinv_pcomp n), !pinv_sg by (auto; lia). rewrite !(app_pcomp n) by (auto; lia).
    rewrite app_sg_i1 by lia. rewrite (app_sg_o (i + 1) i) by lia.
    rewrite (app_sg_o i (i + 1 + 1)) by lia. rewrite app_sg_i1 by lia. lia.
  - intros w Hw D1 D2 a b Hab Hb. rewrite Ei. intros L. destruct (Em a b Hab Hb L) as [L1 L2].
    unfold Ldes in D1, D2. destruct (C a b L1 Hab L2) as [[-> ->]|[[-> ->]|[-> ->]]]; lia.
  - intros w Hw D1 D2 a b Hab Hb. rewrite Ei. intros L. destruct (Em a b Hab Hb L) as [L1 L2].
    apply nRdes in D1, D2; auto; try lia. destruct (C a b L1 Hab L2) as [[-> ->]|[[-> ->]|[-> ->]]]; lia.
Qed.

Lemma lcm2_sym i j u v m x y : lcm2 i j u v m x y -> lcm2 j i v u m y x.
Proof. intros []. split; auto. Qed.

Lemma lcm2_ex i j : i + 1 < n -> j + 1 < n -> i <> j -> exists u v m x y, lcm2 i j u v m x y.
Proof.
  intros Hi Hj N. destruct (lt_eq_lt_dec i j) as [[L|L]|L]; [|lia|].
  - destruct (Nat.eq_dec j (i + 1)) as [->|K].
    + eexists _, _, _, _, _. apply lcm2_adj; lia.
    + eexists _, _, _, _, _. apply lcm2_far; lia.
  - destruct (Nat.eq_dec i (j + 1)) as [->|K].
    + eexists _, _, _, _, _. apply lcm2_sym, lcm2_adj; lia.
    + eexists _, _, _, _, _. apply lcm2_sym, lcm2_far; lia.
Qed.

(** ** greatest reduced divisor *)
Lemma pdiv_refl w : pdiv w w. Proof. intros a b _ _ H. exact H. Qed.
Lemma pdiv_trans x y z : pdiv x y -> pdiv y z -> pdiv x z.
Proof. intros H1 H2 a b Ha Hb L. apply H2; auto. Qed.
Lemma pdiv_pred x c c' : pdiv c c' -> pred x c' -> pred x c.
Proof. intros H1 H2 a b Ha Hb L. apply H2; auto. Qed.
Lemma pred_pdiv x y : P x -> P y -> pred x y -> pdiv x (pcomp x y).
Proof.
  intros Hx Hy H. apply pdiv_iff; auto using isperm_pcomp.
  rewrite <- (pcomp_assoc n), (pcomp_pinv_l n), pcomp_id_l by auto using isperm_pinv. exact H.
Qed.
Lemma pdiv_split e y : P e -> P y -> pdiv e y -> pred e (pcomp (pinv e) y) /\ y = pcomp e (pcomp (pinv e) y).
Proof.
  intros He Hy H. split; [now apply pdiv_iff|].
  rewrite <- (pcomp_assoc n), (pcomp_pinv_r n), pcomp_id_l by auto using isperm_pinv. reflexivity.
Qed.

Definition head (x y c : list nat) : Prop :=
  P c /\ pdiv c y /\ pred x c /\ forall e, P e -> pdiv e y -> pred x e -> pdiv e c.

Lemma head_one x y : P x -> P y -> (forall i, i + 1 < n -> Ldes y i -> Rdes x i) -> head x y (identity n).
Proof.
  intros Hx Hy H. split; [apply isperm_id|]. split.
  { intros a b Ha Hb. rewrite pinv_id, !app_id by lia. lia. }
  split; [now apply pred_1r|]. intros e He D R.
  destruct (list_eq_dec Nat.eq_dec e (identity n)) as [->|N]; [apply pdiv_refl|].
  destruct (ex_Ldes e He N) as [i [Hi L]]. exfalso.
  assert (Hs : pdiv (sg i) e) by (now apply Ldes_div).
  assert (L2 : Ldes y i) by (apply Ldes_div; auto; eapply pdiv_trans; eassumption).
  assert (R2 : pred x (sg i)) by (eapply pdiv_pred; eassumption).
  apply pred_sg_r in R2; auto.
Qed.

(** divisors of w above a generator *)
Lemma pdiv_sg_mul i e w : P e -> P w -> i + 1 < n -> pred (sg i) e -> pred (sg i) w ->
  (pdiv e w <-> pdiv (pcomp (sg i) e) (pcomp (sg i) w)).
Proof.
  intros He Hw Hi R1 R2. assert (Hs : P (sg i)) by now apply isperm_sg.
  assert (E : pcomp (pinv (pcomp (sg i) e)) (pcomp (sg i) w) = pcomp (pinv e) w).
  { rewrite (pinv_pcomp n) by auto. rewrite (pcomp_assoc n) by auto using isperm_pinv, isperm_pcomp.
    f_equal. rewrite <- (pcomp_assoc n), (pcomp_pinv_l n), pcomp_id_l by auto using isperm_pinv. reflexivity. }
  rewrite !pdiv_iff by auto using isperm_pcomp. rewrite E.
  assert (Hf : P (pcomp (pinv e) w)) by auto using isperm_pcomp, isperm_pinv.
  assert (Ew : pcomp e (pcomp (pinv e) w) = w).
  { rewrite <- (pcomp_assoc n), (pcomp_pinv_r n), pcomp_id_l by auto using isperm_pinv. reflexivity. }
  split.
  - intros H. apply (pred_assoc_l (sg i) e (pcomp (pinv e) w)); auto. now rewrite Ew.
  - intros H. apply (pred_assoc_r (sg i) e (pcomp (pinv e) w)); auto.
Qed.

Lemma head_ex_ y : P y -> forall x, P x -> exists c, head x y c.
Proof.
  assert (K : forall k y, llen y <= k -> P y -> forall x, P x -> exists c, head x y c).
  2:{ intros Hy. now apply (K (llen y)). }
  clear y. induction k as [|k IH]; intros y Hk Hy x Hx.
  - exists (identity n). apply head_one; auto. intros i Hi L. exfalso. pose proof (llen_down y i Hy Hi L). lia.
  - (* candidates *)
    assert (Cand : forall i, i + 1 < n -> Ldes y i -> ~ Rdes x i -> exists c, P c /\ pdiv c y /\ pred x c /\
       pdiv (sg i) c /\ forall e, P e -> pdiv e y -> pred x e -> pdiv (sg i) e -> pdiv e c).
    { intros i Hi L R. assert (Hs : P (sg i)) by now apply isperm_sg.
      destruct (Ldes_split y i Hy Hi L) as [S1 S2]. set (y' := pcomp (sg i) y) in *.
      assert (Hy' : P y') by (apply isperm_pcomp; auto).
      pose proof (llen_down y i Hy Hi L) as LL. fold y' in LL.
      assert (Hxs : P (pcomp x (sg i))) by auto using isperm_pcomp.
      assert (Rx : pred x (sg i)) by (apply pred_sg_r; auto).
      destruct (IH y' ltac:(lia) Hy' (pcomp x (sg i)) Hxs) as [c [C1 [C2 [C3 C4]]]].
      destruct (pred_assoc_r x (sg i) c Hx Hs C1 Rx C3) as [A1 A2].
      exists (pcomp (sg i) c). split; [auto using isperm_pcomp|]. split; [|split; [exact A2|split]].
      - rewrite S2. apply pdiv_sg_mul; auto.
      - apply pred_pdiv; auto.
      - intros e He D1 D2 D3. destruct (pdiv_split (sg i) e Hs He D3) as [F1 F2].
        rewrite pinv_sg in F1, F2 by auto. set (e' := pcomp (sg i) e) in *.
        assert (He' : P e') by (apply isperm_pcomp; auto).
        rewrite F2. apply pdiv_sg_mul; auto. apply C4; auto.
        + apply (pdiv_sg_mul i); auto. rewrite <- F2, <- S2. exact D1.
        + rewrite F2 in D2. now apply (pred_assoc_l x (sg i) e'). }
    destruct (existsb (fun i => if Ldes_dec y i then if Rdes_dec x i then false else true else false) (seq 0 (n - 1))) eqn:E.
    + apply existsb_exists in E. destruct E as [i [Hi E]]. apply in_seq in Hi.
      destruct (Ldes_dec y i) as [L|]; [|discriminate]. destruct (Rdes_dec x i) as [|R]; [discriminate|].
      destruct (Cand i ltac:(lia) L R) as [c [C1 [C2 [C3 [C4 C5]]]]]. exists c.
      split; [exact C1|]. split; [exact C2|]. split; [exact C3|]. intros e He D1 D2.
      destruct (list_eq_dec Nat.eq_dec e (identity n)) as [->|N].
      { intros a b Ha Hb. rewrite pinv_id, !app_id by lia. lia. }
      destruct (ex_Ldes e He N) as [j [Hj Lj]].
      assert (Dj : pdiv (sg j) e) by now apply Ldes_div.
      assert (Lyj : Ldes y j) by (apply Ldes_div; auto; eapply pdiv_trans; eassumption).
      assert (Rxj : ~ Rdes x j) by (apply pred_sg_r; auto; eapply pdiv_pred; eassumption).
      destruct (Nat.eq_dec i j) as [->|Nij]; [now apply C5|].
      destruct (Cand j Hj Lyj Rxj) as [c' [B1 [B2 [B3 [B4 B5]]]]].
      apply (pdiv_trans e c'); [now apply B5|].
      (* c' is above sg i as well *)
      destruct (lcm2_ex i j ltac:(lia) Hj Nij) as [u [v [m [p [q LC]]]]].
      assert (Pp : P p) by (eapply redw_perm; apply (l2_u _ _ _ _ _ _ _ LC)).
      assert (Pm : P m) by (rewrite (l2_mx _ _ _ _ _ _ _ LC); apply isperm_pcomp; [apply isperm_sg; lia|exact Pp]).
      assert (Mi : pdiv (sg i) m).
      { rewrite (l2_mx _ _ _ _ _ _ _ LC). apply pred_pdiv; [apply isperm_sg; lia|exact Pp|apply (l2_px _ _ _ _ _ _ _ LC)]. }
      assert (Pq : P q) by (eapply redw_perm; apply (l2_v _ _ _ _ _ _ _ LC)).
      assert (Mj : pdiv (sg j) m).
      { rewrite (l2_my _ _ _ _ _ _ _ LC). apply pred_pdiv; [apply isperm_sg; lia|exact Pq|apply (l2_py _ _ _ _ _ _ _ LC)]. }
      assert (My : pdiv m y) by (apply (l2_div _ _ _ _ _ _ _ LC); auto).
      assert (Mx : pred x m) by (apply (l2_red _ _ _ _ _ _ _ LC); auto).
      apply C5; auto. eapply pdiv_trans; [exact Mi|]. now apply B5.
    + exists (identity n). apply head_one; auto. intros i Hi L.
      destruct (Rdes_dec x i) as [R|R]; [exact R|]. exfalso.
      assert (K2 : existsb (fun i => if Ldes_dec y i then if Rdes_dec x i then false else true else false) (seq 0 (n - 1)) = true).
      { apply existsb_exists. exists i. split; [apply in_seq; lia|]. destruct (Ldes_dec y i); [|contradiction].
        destruct (Rdes_dec x i); [contradiction|reflexivity]. }
      congruence.
Qed.
End WO.
