(** TLRel.v – the Temperley-Lieb relations for the diagrams e_i. *)
From Verif Require Import Base ModelTL SpecTL ComposeTheory TLTheory TLAlg TLAlg2.
Local Arguments Nat.ltb : simpl never.
Local Arguments Nat.sub : simpl never.

Lemma e_seq_length i n : length (e_seq i n) = 2 * n.
Proof. unfold e_seq. rewrite !upd_length. apply id_seq_length. Qed.
Lemma nth_e i n x : i + 1 < n -> x < 2 * n -> nth x (e_seq i n) 0 =
  if x =? i then i + 1 else if x =? i + 1 then i else if x =? 2 * n - i - 1 then 2 * n - i - 2 else if x =? 2 * n - i - 2 then 2 * n - i - 1 else 2 * n - 1 - x.
Proof.
  intros Hi Hx. unfold e_seq.
  destruct (Nat.eqb_spec x i) as [->|N1]; [rewrite !nth_upd_neq by lia; apply nth_upd_eq; rewrite id_seq_length; lia|].
  destruct (Nat.eqb_spec x (i + 1)) as [->|N2]; [rewrite (nth_upd_neq _ (2 * n - i - 2)), (nth_upd_neq _ (2 * n - i - 1)) by lia; apply nth_upd_eq; rewrite upd_length, id_seq_length; lia|].
  destruct (Nat.eqb_spec x (2 * n - i - 1)) as [->|N3]; [rewrite nth_upd_neq by lia; apply nth_upd_eq; rewrite !upd_length, id_seq_length; lia|].
  destruct (Nat.eqb_spec x (2 * n - i - 2)) as [->|N4]; [apply nth_upd_eq; rewrite !upd_length, id_seq_length; lia|].
  rewrite !nth_upd_neq by lia. now apply nth_id.
Qed.
Lemma e_cases i n x : i + 1 < n -> x < 2 * n -> let v := nth x (e_seq i n) 0 in
  (x = i /\ v = i + 1) \/ (x = i + 1 /\ v = i) \/ (x + i + 1 = 2 * n /\ v + i + 2 = 2 * n) \/ (x + i + 2 = 2 * n /\ v + i + 1 = 2 * n) \/
  (x <> i /\ x <> i + 1 /\ x + i + 1 <> 2 * n /\ x + i + 2 <> 2 * n /\ v + x + 1 = 2 * n).
Proof.
  intros Hi Hx. cbv zeta. rewrite nth_e by auto. destruct (Nat.eqb_spec x i); [tauto|]. destruct (Nat.eqb_spec x (i + 1)); [tauto|].
  destruct (Nat.eqb_spec x (2 * n - i - 1)); [right; right; left; lia|]. destruct (Nat.eqb_spec x (2 * n - i - 2)); [right; right; right; left; lia|]. do 4 right. lia.
Qed.
Ltac ecases i n x H1 H2 := let K := fresh "K" in pose proof (e_cases i n x H1 H2) as K; cbv zeta in K;
  destruct K as [[? ?]|[[? ?]|[[? ?]|[[? ?]|[? [? [? [? ?]]]]]]]].
Lemma crossingless_e i n : i + 1 < n -> crossingless (e_seq i n).
Proof.
  intros Hi. split; rewrite e_seq_length.
  - intros x Hx. assert (V : nth x (e_seq i n) 0 < 2 * n) by (ecases i n x Hi Hx; lia).
    ecases i n x Hi Hx; ecases i n (nth x (e_seq i n) 0) Hi V; lia.
  - intros x y Hy [H1 [H2 H3]]. assert (Hx : x < 2 * n) by lia. ecases i n x Hi Hx; try lia; ecases i n y Hi Hy; lia.
Qed.
(** [a] bars, then a diagram with [k] points on top and bottom, then [c] bars *)
Definition pad (a k c : nat) (x : list nat) : list nat := ins (ins (id_seq a) x a) (id_seq c) (a + k).
Lemma pad_length a k c x : length x = 2 * k -> length (pad a k c x) = 2 * (a + k + c).
Proof. intros L. unfold pad. rewrite ins_length; rewrite ins_length, ?id_seq_length, ?L; rewrite ?id_seq_length; lia. Qed.
Lemma pad_crossingless a k c x : length x = 2 * k -> crossingless x -> crossingless (pad a k c x).
Proof.
  intros L C. unfold pad. apply crossingless_ins; auto using crossingless_id.
  - rewrite ins_length; rewrite id_seq_length; lia.
  - apply crossingless_ins; auto using crossingless_id. rewrite id_seq_length. lia.
Qed.
Lemma pad_compose a k c x y z m : length x = 2 * k -> length y = 2 * k -> crossingless x -> crossingless y ->
  compose x y k = Ok (z, m) -> compose (pad a k c x) (pad a k c y) (a + k + c) = Ok (pad a k c z, m).
Proof.
  intros Lx Ly Cx Cy E. unfold pad.
  assert (Ia : a <= length (id_seq a)) by (rewrite id_seq_length; lia). assert (Ic : c <= length (id_seq c)) by (rewrite id_seq_length; lia).
  assert (E1 : compose (ins (id_seq a) x a) (ins (id_seq a) y a) (a + k) = Ok (ins (id_seq a) z a, m)).
  { destruct (compose_ins (id_seq a) x (id_seq a) y a k) as [ac [n1 [bd [n2 [H1 [H2 H3]]]]]]; auto using crossingless_id; try lia.
    rewrite compose_id_l in H1 by auto using crossingless_id. injection H1 as <- <-. rewrite E in H2. injection H2 as <- <-.
    replace (length (id_seq a) - a) with a in H3 by (rewrite id_seq_length; lia). exact H3. }
  assert (L1 : forall w, length w = 2 * k -> length (ins (id_seq a) w a) = 2 * (a + k)) by (intros w Lw; rewrite ins_length by exact Ia; rewrite id_seq_length; lia).
  destruct (compose_ins (ins (id_seq a) x a) (id_seq c) (ins (id_seq a) y a) (id_seq c) (a + k) c) as [ac [n1 [bd [n2 [H1 [H2 H3]]]]]];
    auto using crossingless_id, crossingless_ins; try (rewrite L1 by auto; lia).
  rewrite compose_id_l in H2 by auto using crossingless_id. injection H2 as <- <-. rewrite E1 in H1. injection H1 as <- <-.
  replace (length (ins (id_seq a) y a) - (a + k)) with (a + k) in H3 by (rewrite L1 by auto; lia). rewrite Nat.add_0_r in H3. exact H3.
Qed.
Lemma pad_id a k c : pad a k c (id_seq k) = id_seq (a + k + c).
Proof. unfold pad. now rewrite !ins_id. Qed.
(** the points of a padded diagram *)
Lemma nth_pad a k c x i : length x = 2 * k -> (forall j, j < 2 * k -> nth j x 0 < 2 * k) -> i < 2 * (a + k + c) -> nth i (pad a k c x) 0 =
  let sh y := if y <? k then y + a else y + a + 2 * c in
  if i <? a then 2 * (a + k + c) - 1 - i else if i <? a + k then sh (nth (i - a) x 0)
  else if i <? a + k + 2 * c then 2 * (a + k + c) - 1 - i else if i <? a + 2 * k + 2 * c then sh (nth (i - a - 2 * c) x 0) else 2 * (a + k + c) - 1 - i.
Proof.
  intros L B Hi. cbv zeta. unfold pad. set (o := ins (id_seq a) x a).
  assert (Ia : a <= length (id_seq a)) by (rewrite id_seq_length; lia).
  assert (Lo : length o = 2 * (a + k)) by (unfold o; rewrite ins_length by exact Ia; rewrite id_seq_length; lia).
  assert (Hk : a + k <= length o) by lia.
  assert (No : forall j, j < 2 * (a + k) -> nth j o 0 = if j <? a then 2 * (a + k) - 1 - j else if j <? a + 2 * k then nth (j - a) x 0 + a else 2 * (a + k) - 1 - j).
  { intros j Hj. destruct (ins_cases (id_seq a) x a Ia j) as [[w [Hw ->]]|[w [Hw ->]]]; [rewrite id_seq_length; lia| |].
    - unfold o. rewrite ins_eo by auto. rewrite id_seq_length in Hw. rewrite nth_id by lia. rewrite L. unfold eo.
      destruct (Nat.ltb_spec w a).
      + destruct (Nat.ltb_spec w a); [|lia]. destruct (Nat.ltb_spec (2 * a - 1 - w) a); lia.
      + destruct (Nat.ltb_spec (w + 2 * k) a); [lia|]. destruct (Nat.ltb_spec (w + 2 * k) (a + 2 * k)); [lia|]. destruct (Nat.ltb_spec (2 * a - 1 - w) a); lia.
    - unfold o. rewrite ins_ei by auto. destruct (Nat.ltb_spec (w + a) a); [lia|]. destruct (Nat.ltb_spec (w + a) (a + 2 * k)); [|lia]. now replace (w + a - a) with w by lia. }
  destruct (ins_cases o (id_seq c) (a + k) Hk i) as [[w [Hw ->]]|[w [Hw ->]]]; [rewrite id_seq_length; lia| |].
  - rewrite ins_eo by auto. rewrite Lo in Hw. rewrite No by lia. unfold eo in *. rewrite id_seq_length in *. destruct (Nat.ltb_spec w (a + k)).
    + destruct (Nat.ltb_spec w a).
      * destruct (Nat.ltb_spec (2 * (a + k) - 1 - w) (a + k)); lia.
      * destruct (Nat.ltb_spec w (a + 2 * k)); [|lia]. destruct (Nat.ltb_spec w (a + k)); [|lia].
        destruct (Nat.ltb_spec (nth (w - a) x 0 + a) (a + k)), (Nat.ltb_spec (nth (w - a) x 0) k); lia.
    + destruct (Nat.ltb_spec w a); [lia|]. destruct (Nat.ltb_spec (w + 2 * c) a); [lia|]. destruct (Nat.ltb_spec (w + 2 * c) (a + k)); [lia|].
      destruct (Nat.ltb_spec (w + 2 * c) (a + k + 2 * c)); [lia|]. destruct (Nat.ltb_spec (w + 2 * c) (a + 2 * k + 2 * c)), (Nat.ltb_spec w (a + 2 * k)); try lia.
      * replace (w + 2 * c - a - 2 * c) with (w - a) by lia. destruct (Nat.ltb_spec (nth (w - a) x 0 + a) (a + k)), (Nat.ltb_spec (nth (w - a) x 0) k); lia.
      * destruct (Nat.ltb_spec (2 * (a + k) - 1 - w) (a + k)); lia.
  - rewrite id_seq_length in Hw. rewrite ins_ei by (auto; rewrite id_seq_length; lia). rewrite nth_id by lia.
    destruct (Nat.ltb_spec (w + (a + k)) a); [lia|]. destruct (Nat.ltb_spec (w + (a + k)) (a + k)); [lia|]. destruct (Nat.ltb_spec (w + (a + k)) (a + k + 2 * c)); lia.
Qed.
Lemma pad_e a k c j : j + 1 < k -> pad a k c (e_seq j k) = e_seq (a + j) (a + k + c).
Proof.
  intros Hj. apply (nth_ext_len _ _ (2 * (a + k + c)) 0); [apply pad_length, e_seq_length|apply e_seq_length|]. intros i Hi.
  assert (B : forall w, w < 2 * k -> nth w (e_seq j k) 0 < 2 * k) by (intros w Hw; ecases j k w Hj Hw; lia).
  rewrite nth_pad; auto using e_seq_length. cbv zeta.
  assert (Hj' : a + j + 1 < a + k + c) by lia.
  destruct (Nat.ltb_spec i a); [ecases (a + j) (a + k + c) i Hj' Hi; lia|]. destruct (Nat.ltb_spec i (a + k)).
  - assert (Hw : i - a < 2 * k) by lia. ecases j k (i - a) Hj Hw; destruct (Nat.ltb_spec (nth (i - a) (e_seq j k) 0) k); ecases (a + j) (a + k + c) i Hj' Hi; lia.
  - destruct (Nat.ltb_spec i (a + k + 2 * c)); [ecases (a + j) (a + k + c) i Hj' Hi; lia|]. destruct (Nat.ltb_spec i (a + 2 * k + 2 * c)); [|ecases (a + j) (a + k + c) i Hj' Hi; lia].
    assert (Hw : i - a - 2 * c < 2 * k) by lia. ecases j k (i - a - 2 * c) Hj Hw; destruct (Nat.ltb_spec (nth (i - a - 2 * c) (e_seq j k) 0) k); ecases (a + j) (a + k + c) i Hj' Hi; lia.
Qed.

(** ** the relations *)
Theorem e_e i n : i + 1 < n -> compose (e_seq i n) (e_seq i n) n = Ok (e_seq i n, 1).
Proof.
  intros H. pose proof (pad_compose i 2 (n - 2 - i) (e_seq 0 2) (e_seq 0 2) (e_seq 0 2) 1 eq_refl eq_refl) as K.
  rewrite pad_e in K by lia. replace (i + 2 + (n - 2 - i)) with n in K by lia. replace (i + 0) with i in K by lia. apply K; try (apply crossingless_e; lia). vm_compute. reflexivity.
Qed.
Theorem e_e_e i n : i + 2 < n ->
  exists p q m1 m2, compose (e_seq i n) (e_seq (i + 1) n) n = Ok (p, 0) /\ compose p (e_seq i n) n = Ok (e_seq i n, m1) /\
    compose (e_seq (i + 1) n) (e_seq i n) n = Ok (q, 0) /\ compose q (e_seq (i + 1) n) n = Ok (e_seq (i + 1) n, m2) /\ m1 = 0 /\ m2 = 0.
Proof.
  intros H. set (c := n - 3 - i).
  assert (E0 : e_seq i n = pad i 3 c (e_seq 0 3)) by (rewrite pad_e by lia; f_equal; unfold c; lia).
  assert (E1 : e_seq (i + 1) n = pad i 3 c (e_seq 1 3)) by (rewrite pad_e by lia; f_equal; unfold c; lia).
  assert (En : n = i + 3 + c) by (unfold c; lia).
  assert (C0 : crossingless (e_seq 0 3)) by (apply crossingless_e; lia). assert (C1 : crossingless (e_seq 1 3)) by (apply crossingless_e; lia).
  destruct (compose_ok (e_seq 0 3) (e_seq 1 3) 3 C0 C1 ltac:(rewrite e_seq_length; lia) ltac:(rewrite e_seq_length; lia)) as [p [k [Ep [_ [Cp _]]]]].
  destruct (compose_ok (e_seq 1 3) (e_seq 0 3) 3 C1 C0 ltac:(rewrite e_seq_length; lia) ltac:(rewrite e_seq_length; lia)) as [q [l [Eq [_ [Cq _]]]]].
  pose proof Ep as Ep'. pose proof Eq as Eq'. vm_compute in Ep', Eq'. injection Ep' as Hp Hk. injection Eq' as Hq Hl.
  exists (pad i 3 c p), (pad i 3 c q), 0, 0. rewrite E0, E1. rewrite En at 1 2 3 4. repeat split.
  - apply pad_compose; auto. rewrite Ep. congruence.
  - apply pad_compose; auto; [now rewrite <- Hp|]. rewrite <- Hp. vm_compute. reflexivity.
  - apply pad_compose; auto. rewrite Eq. congruence.
  - apply pad_compose; auto; [now rewrite <- Hq|]. rewrite <- Hq. vm_compute. reflexivity.
Qed.
Theorem e_far i j n : i + 1 < j -> j + 1 < n -> exists p, compose (e_seq i n) (e_seq j n) n = Ok (p, 0) /\ compose (e_seq j n) (e_seq i n) n = Ok (p, 0).
Proof.
  intros H1 H2. assert (Lj : length (id_seq j) = 2 * j) by apply id_seq_length. assert (Lc : length (id_seq (n - j)) = 2 * (n - j)) by apply id_seq_length.
  pose proof (e_seq_length i j) as Li. pose proof (e_seq_length 0 (n - j)) as Le.
  assert (Ei : e_seq i n = ins (e_seq i j) (id_seq (n - j)) j).
  { pose proof (pad_e 0 j (n - j) i ltac:(lia)) as K. unfold pad in K. change (id_seq 0) with (@nil nat) in K. rewrite ins_nil_l in K. cbn [Nat.add] in K.
    replace (j + (n - j)) with n in K by lia. now rewrite K. }
  assert (Ej : e_seq j n = ins (id_seq j) (e_seq 0 (n - j)) j).
  { pose proof (pad_e j (n - j) 0 0 ltac:(lia)) as K. unfold pad in K. change (id_seq 0) with (@nil nat) in K. rewrite ins_nil_r in K by (rewrite ins_length; lia).
    replace (j + 0) with j in K by lia. replace (j + (n - j) + 0) with n in K by lia. now rewrite K. }
  assert (C1 : crossingless (e_seq i j)) by (apply crossingless_e; lia). assert (C2 : crossingless (e_seq 0 (n - j))) by (apply crossingless_e; lia).
  destruct (compose_ins (e_seq i j) (id_seq (n - j)) (id_seq j) (e_seq 0 (n - j)) j (n - j)) as [u [a [v [b [U [V W]]]]]]; auto using crossingless_id; try lia.
  rewrite compose_id_r in U by (auto; lia). rewrite compose_id_l in V by (auto; lia). injection U as <- <-. injection V as <- <-.
  destruct (compose_ins (id_seq j) (e_seq 0 (n - j)) (e_seq i j) (id_seq (n - j)) j (n - j)) as [u [a [v [b [U [V W']]]]]]; auto using crossingless_id; try lia.
  rewrite compose_id_l in U by (auto; lia). rewrite compose_id_r in V by (auto; lia). injection U as <- <-. injection V as <- <-.
  rewrite Lj in W. rewrite Li in W'. replace (2 * j - j) with j in * by lia. replace (j + (n - j)) with n in * by lia. rewrite <- Ei, <- Ej in *.
  cbn [Nat.add] in *. eauto.
Qed.
