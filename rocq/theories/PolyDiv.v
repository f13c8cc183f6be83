(** PolyDiv.v – class Poly: ring laws, powers, division. *)
From Verif Require Import Base ModelPoly SpecPoly PolyTheory.
From Coq Require Import Ring Setoid Morphisms.
Local Open Scope Z_scope.

Definition pc (p : poly) (i : nat) : Z := nth i p 0.
Definition peq (p q : poly) : Prop := forall i, pc p i = pc q i.
Definition pcanon (p : poly) : Prop := p = [] \/ last p 0 <> 0.
Definition P0 (p : poly) (g : Z -> Z) : Z := lin 0 p g.

Lemma pc_delta p i : pc p i = P0 p (delta (Z.of_nat i)).
Proof.
  unfold P0. rewrite delta_lin. unfold coeff_at, pc. destruct (Z.ltb_spec (Z.of_nat i) 0); [lia|].
  f_equal. lia.
Qed.
Lemma peq_P p q : peq p q <-> forall g, P0 p g = P0 q g.
Proof.
  split.
  - intros H g. assert (K : leq (mkL 0 p) (mkL 0 q)).
    { intros k. unfold coef, coeff_at. cbn [lval lcoeffs]. destruct (k <? 0); [reflexivity|]. apply H. }
    rewrite leq_L in K. apply (K g).
  - intros H i. rewrite !pc_delta. apply H.
Qed.
#[global] Instance peq_equiv : Equivalence peq.
Proof. split; [intros p i; reflexivity|intros p q H i; now rewrite H|intros p q r H K i; now rewrite H]. Qed.
Lemma P_make l g : P0 (poly_make l) g = P0 l g. Proof. apply lin_trim_right. Qed.
Lemma pcanon_make l : pcanon (poly_make l). Proof. apply trim_right_last. Qed.
Lemma pcanon_len p m : pcanon p -> (forall i, (m <= i)%nat -> pc p i = 0) -> (length p <= m)%nat.
Proof.
  intros [->|H] K; [cbn; lia|]. destruct (le_lt_dec (length p) m) as [L|L]; [exact L|exfalso]. apply H.
  assert (p <> []) by (intros ->; cbn in L; lia).
  destruct (exists_last H0) as [l [x ->]]. rewrite last_last. rewrite app_length in L. cbn in L.
  specialize (K (length l) ltac:(lia)). unfold pc in K. now rewrite nth_middle in K.
Qed.
Lemma last_pc p : p <> [] -> last p 0 = pc p (length p - 1).
Proof.
  intros H. destruct (exists_last H) as [l [x ->]]. rewrite last_last, app_length. cbn [length].
  replace (length l + 1 - 1)%nat with (length l) by lia. unfold pc. now rewrite nth_middle.
Qed.
Lemma pc_over p i : (length p <= i)%nat -> pc p i = 0. Proof. apply nth_overflow. Qed.
Lemma pcanon_eq p q : pcanon p -> pcanon q -> peq p q -> p = q.
Proof.
  intros Hp Hq H. apply (nth_ext _ _ 0 0); [|intros i _; apply H].
  apply Nat.le_antisymm; apply pcanon_len; auto; intros i Hi; [rewrite H|rewrite <- H]; now apply pc_over.
Qed.

Lemma P_add_aux a : forall b v g, lin v (map (fun '(c, d) => c + d) (zip_longest a b)) g = lin v a g + lin v b g.
Proof.
  induction a as [|c a IH]; intros b v g.
  - cbn [zip_longest lin]. rewrite map_map. rewrite (map_ext _ (fun d => d)) by reflexivity. rewrite map_id. lia.
  - destruct b as [|d b]; cbn [zip_longest].
    + rewrite map_map. rewrite (map_ext _ (fun d => d)) by (intros; lia). rewrite map_id. cbn [lin]. lia.
    + cbn [map lin]. rewrite IH. lia.
Qed.
Lemma P_sub_aux a : forall b v g, lin v (map (fun '(c, d) => c - d) (zip_longest a b)) g = lin v a g - lin v b g.
Proof.
  induction a as [|c a IH]; intros b v g.
  - cbn [zip_longest lin]. rewrite map_map. rewrite (map_ext _ (fun d => - d)) by (intros; lia). rewrite lin_map_opp. lia.
  - destruct b as [|d b]; cbn [zip_longest].
    + rewrite map_map. rewrite (map_ext _ (fun d => d)) by (intros; lia). rewrite map_id. cbn [lin]. lia.
    + cbn [map lin]. rewrite IH. lia.
Qed.
Lemma P_add p q g : P0 (padd p q) g = P0 p g + P0 q g. Proof. unfold padd. rewrite P_make. apply P_add_aux. Qed.
Lemma P_sub p q g : P0 (psub p q) g = P0 p g - P0 q g. Proof. unfold psub. rewrite P_make. apply P_sub_aux. Qed.
Lemma P_neg p g : P0 (pneg p) g = - P0 p g. Proof. unfold pneg. rewrite P_make. apply lin_map_opp. Qed.
Lemma P_muli p c g : P0 (pmuli p c) g = P0 p g * c. Proof. unfold pmuli. rewrite P_make. apply lin_map_scale. Qed.
Lemma P_mul p q g : P0 (pmul p q) g = P0 p (fun e => P0 q (fun f => g (e + f))).
Proof. unfold pmul. rewrite P_make. apply lin_conv. Qed.
Lemma P_ext p g h : (forall e, g e = h e) -> P0 p g = P0 p h. Proof. apply lin_ext. Qed.
Lemma P_const c g : P0 [c] g = c * g 0. Proof. unfold P0. cbn. lia. Qed.
Lemma P_nil g : P0 [] g = 0. Proof. reflexivity. Qed.

#[global] Instance padd_proper : Proper (peq ==> peq ==> peq) padd.
Proof. intros p p' H q q' K. apply peq_P. intros g. rewrite !P_add. rewrite peq_P in H, K. now rewrite H, K. Qed.
#[global] Instance pmul_proper : Proper (peq ==> peq ==> peq) pmul.
Proof. intros p p' H q q' K. apply peq_P. intros g. rewrite !P_mul. rewrite peq_P in H, K. rewrite H. apply P_ext. intros e. apply K. Qed.
#[global] Instance pneg_proper : Proper (peq ==> peq) pneg.
Proof. intros p p' H. apply peq_P. intros g. rewrite !P_neg. rewrite peq_P in H. now rewrite H. Qed.
#[global] Instance psub_proper : Proper (peq ==> peq ==> peq) psub.
Proof. intros p p' H q q' K. apply peq_P. intros g. rewrite !P_sub. rewrite peq_P in H, K. now rewrite H, K. Qed.
Lemma pring : ring_theory [] [1] padd pmul psub pneg peq.
Proof.
  split; intros; apply peq_P; intros g; rewrite ?P_add, ?P_sub, ?P_neg, ?P_mul, ?P_const, ?P_nil, ?P_add, ?P_neg, ?P_mul; try lia.
  - rewrite (P_ext _ _ g); [lia|]. intros e. f_equal.
  - unfold P0. rewrite lin_swap. apply lin_ext. intros f. apply lin_ext. intros e. f_equal. lia.
  - apply P_ext. intros e. rewrite P_mul. apply P_ext. intros f. apply P_ext. intros h. f_equal. lia.
Qed.
Lemma pring_ext : ring_eq_ext padd pmul pneg peq.
Proof. split; [apply padd_proper|apply pmul_proper|apply pneg_proper]. Qed.
Add Ring poly_ring : pring (setoid peq_equiv pring_ext).

Lemma pcanon_add p q : pcanon (padd p q). Proof. apply pcanon_make. Qed.
Lemma pcanon_sub p q : pcanon (psub p q). Proof. apply pcanon_make. Qed.
Lemma pcanon_mul p q : pcanon (pmul p q). Proof. apply pcanon_make. Qed.
Lemma pcanon_neg p : pcanon (pneg p). Proof. apply pcanon_make. Qed.
Lemma pcanon_nil : pcanon []. Proof. now left. Qed.
Lemma pcanon_one : pcanon [1]. Proof. right. cbn. lia. Qed.
#[global] Hint Resolve pcanon_add pcanon_sub pcanon_mul pcanon_neg pcanon_nil pcanon_one pcanon_make : pcanon.
Lemma make_canon p : pcanon p -> poly_make p = p.
Proof. intros H. apply pcanon_eq; auto with pcanon. apply peq_P. intros g. apply P_make. Qed.
Lemma make_peq p : peq (poly_make p) p. Proof. apply peq_P. intros g. apply P_make. Qed.

(** ** degrees *)
Lemma pc_mul p q i : pc (pmul p q) i = lin 0 p (fun e => coeff_at 0 q (Z.of_nat i - e)).
Proof.
  rewrite pc_delta, P_mul. apply lin_ext. intros e. unfold P0. rewrite <- delta_lin. apply lin_ext. intros f.
  unfold delta. destruct (Z.eqb_spec (e + f) (Z.of_nat i)), (Z.eqb_spec f (Z.of_nat i - e)); lia.
Qed.
Lemma lin_zero v cs g : (forall e, v <= e < v + Z.of_nat (length cs) -> g e = 0) -> lin v cs g = 0.
Proof.
  revert v. induction cs as [|c cs IH]; intros v H; cbn [lin]; [reflexivity|]. cbn [length] in H.
  rewrite H, IH by (try intros e He; try apply H; lia). lia.
Qed.
Lemma pc_mul_over p q i : (length p + length q <= S i)%nat -> pc (pmul p q) i = 0.
Proof. intros H. rewrite pc_mul. apply lin_zero. intros e He. apply coeff_at_above. lia. Qed.
Lemma pc_mul_top p q : p <> [] -> q <> [] -> pc (pmul p q) (length p + length q - 2) = last p 0 * last q 0.
Proof.
  intros Hp Hq. assert (0 < length q)%nat by (destruct q; [contradiction|cbn; lia]).
  rewrite pc_mul. destruct (exists_last Hp) as [l [x ->]]. rewrite last_last, lin_app, app_length. cbn [length lin].
  rewrite lin_zero.
  - rewrite <- (coeff_at_last 0 q Hq). match goal with |- 0 + (x * coeff_at 0 q ?a + 0) = x * coeff_at 0 q ?b => replace a with b by lia end. lia.
  - intros e He. apply coeff_at_above. lia.
Qed.
Lemma pmul_len p q : pcanon p -> pcanon q -> p <> [] -> q <> [] -> length (pmul p q) = (length p + length q - 1)%nat.
Proof.
  intros [->|Hp] [->|Hq]; try contradiction. intros Np Nq.
  assert (0 < length q)%nat by (destruct q; [contradiction|cbn; lia]).
  assert (0 < length p)%nat by (destruct p; [contradiction|cbn; lia]).
  apply Nat.le_antisymm.
  - apply pcanon_len; [auto with pcanon|]. intros i Hi. apply pc_mul_over. lia.
  - destruct (le_lt_dec (length p + length q - 1) (length (pmul p q))) as [L|L]; [exact L|exfalso].
    pose proof (pc_mul_top p q Np Nq) as E. rewrite pc_over in E by lia. nia.
Qed.
Lemma pmul_last p q : pcanon p -> pcanon q -> p <> [] -> q <> [] -> last (pmul p q) 0 = last p 0 * last q 0.
Proof.
  intros Hp Hq Np Nq. pose proof (pmul_len p q Hp Hq Np Nq) as E.
  assert (0 < length q)%nat by (destruct q; [contradiction|cbn; lia]).
  assert (0 < length p)%nat by (destruct p; [contradiction|cbn; lia]).
  rewrite last_pc by (intros K; rewrite K in E; cbn in E; lia). rewrite <- pc_mul_top by assumption. f_equal. lia.
Qed.
Lemma pmul_zero p q : pcanon p -> pcanon q -> pmul p q = [] -> p = [] \/ q = [].
Proof.
  intros Hp Hq E. destruct p as [|a p]; [now left|]. destruct q as [|b q]; [now right|exfalso].
  pose proof (pmul_len (a :: p) (b :: q) Hp Hq) as L. rewrite E in L. cbn [length] in L. specialize (L ltac:(discriminate) ltac:(discriminate)). lia.
Qed.

Lemma pc_sub p q i : pc (psub p q) i = pc p i - pc q i. Proof. now rewrite !pc_delta, P_sub. Qed.
Lemma pc_add p q i : pc (padd p q) i = pc p i + pc q i. Proof. now rewrite !pc_delta, P_add. Qed.

Definition mono (t : Z) (k : nat) : poly := poly_make (repeat 0 k ++ [t]).
Lemma P_mono t k g : P0 (mono t k) g = t * g (Z.of_nat k).
Proof. unfold mono. rewrite P_make. unfold P0. rewrite lin_app, lin_zeros, repeat_length. cbn. lia. Qed.
Lemma pc_mono t k i : pc (mono t k) i = if (i =? k)%nat then t else 0.
Proof.
  rewrite pc_delta, P_mono. unfold delta. destruct (Z.eqb_spec (Z.of_nat k) (Z.of_nat i)), (Nat.eqb_spec i k); lia.
Qed.
Lemma mono_len t k : t <> 0 -> length (mono t k) = S k /\ last (mono t k) 0 = t.
Proof.
  intros H. assert (E : mono t k = repeat 0 k ++ [t]).
  { apply make_canon. right. now rewrite last_last. }
  rewrite E, last_last, app_length, repeat_length. cbn. split; lia.
Qed.

(** one division step *)
Lemma div_step d r t : pcanon d -> pcanon r -> d <> [] -> (length d <= length r)%nat -> last r 0 = last d 0 * t ->
  (length (psub r (pmul d (mono t (length r - length d)))) < length r)%nat.
Proof.
  intros Hd Hr Nd Hl Ht. assert (Nr : r <> []) by (intros ->; destruct d; [contradiction|cbn in Hl; lia]).
  assert (Lr : last r 0 <> 0) by (destruct Hr; [contradiction|assumption]).
  assert (T0 : t <> 0) by nia. assert (0 < length d)%nat by (destruct d; [contradiction|cbn; lia]).
  destruct (mono_len t (length r - length d) T0) as [M1 M2]. set (m := mono t (length r - length d)) in *.
  assert (Nm : m <> []) by (intros K; rewrite K in M1; discriminate).
  assert (K : (length (psub r (pmul d m)) <= length r - 1)%nat); [|lia].
  apply pcanon_len; [auto with pcanon|]. intros i Hi. rewrite pc_sub.
  destruct (Nat.eq_dec i (length r - 1)) as [->|N].
  - pose proof (pc_mul_top d m Nd Nm) as E. rewrite M1, M2 in E.
    replace (length d + S (length r - length d) - 2)%nat with (length r - 1)%nat in E by lia.
    rewrite E, <- last_pc by exact Nr. lia.
  - rewrite pc_over by lia. rewrite pc_mul_over by (rewrite M1; lia). reflexivity.
Qed.

Lemma divmod_sound d : pcanon d -> d <> [] -> forall fuel q r, (length r < fuel)%nat -> pcanon q -> pcanon r ->
  (exists q' r', divmod_loop fuel d q r = Ok (q', r') /\ pcanon q' /\ pcanon r' /\ (length r' < length d)%nat /\
     peq (padd (pmul d q) r) (padd (pmul d q') r')) \/ divmod_loop fuel d q r = Err ValueError.
Proof.
  intros Hd Nd. induction fuel as [|fuel IH]; intros q r HF Hq Hr; [lia|]. cbn [divmod_loop].
  destruct (Nat.leb_spec (length d) (length r)) as [Hl|Hl].
  - destruct (Z.eqb_spec (last r 0 mod last d 0) 0) as [E|E]; cbn [negb]; [|now right].
    assert (Ld : last d 0 <> 0) by (destruct Hd; [contradiction|assumption]).
    assert (Ht : last r 0 = last d 0 * (last r 0 / last d 0)) by now apply Z.div_exact.
    set (t := last r 0 / last d 0) in *.
    change (poly_make (repeat 0 (length r - length d) ++ [t])) with (mono t (length r - length d)).
    set (m := mono t (length r - length d)).
    pose proof (div_step d r t Hd Hr Nd Hl Ht) as S. fold m in S.
    destruct (IH (padd q m) (psub r (pmul d m)) ltac:(lia)) as [[q' [r' [E1 [E2 [E3 [E4 E5]]]]]]|E1]; auto with pcanon.
    left. exists q', r'. split; [exact E1|]. split; [exact E2|]. split; [exact E3|]. split; [exact E4|].
    rewrite <- E5. ring.
  - left. exists q, r. split; [reflexivity|]. split; [exact Hq|]. split; [exact Hr|]. split; [exact Hl|]. reflexivity.
Qed.
Lemma divmod_complete d : pcanon d -> d <> [] -> forall fuel q r q' r', (length r < fuel)%nat -> pcanon q -> pcanon r ->
  pcanon q' -> pcanon r' -> (length r' < length d)%nat -> peq r (padd (pmul d q') r') ->
  divmod_loop fuel d q r = Ok (padd q q', r').
Proof.
  intros Hd Nd. assert (Ld : last d 0 <> 0) by (destruct Hd; [contradiction|assumption]).
  assert (0 < length d)%nat by (destruct d; [contradiction|cbn; lia]).
  induction fuel as [|fuel IH]; intros q r q' r' HF Hq Hr Hq' Hr' HL E; [lia|]. cbn [divmod_loop].
  destruct (list_eq_dec Z.eq_dec q' []) as [->|Nq].
  - assert (r = r') as ->.
    { apply pcanon_eq; auto. rewrite E. ring. }
    destruct (Nat.leb_spec (length d) (length r')) as [K|K]; [lia|]. do 2 f_equal.
    apply pcanon_eq; auto with pcanon. ring.
  - set (Q := q') in *.
    assert (Lq : last Q 0 <> 0) by (destruct Hq'; [contradiction|assumption]).
    assert (0 < length Q)%nat by (destruct Q; [contradiction|cbn; lia]).
    pose proof (pmul_len d Q Hd Hq' Nd Nq) as ML.
    assert (RL : length r = (length d + length Q - 1)%nat).
    { apply Nat.le_antisymm.
      - apply pcanon_len; [exact Hr|]. intros i Hi. rewrite E, pc_add, pc_mul_over, pc_over by lia. lia.
      - destruct (le_lt_dec (length d + length Q - 1) (length r)) as [L|L]; [exact L|exfalso].
        pose proof (pc_mul_top d Q Nd Nq) as T. specialize (E (length d + length Q - 2)%nat).
        rewrite pc_add, T, !pc_over in E by lia. nia. }
    assert (RT : last r 0 = last d 0 * last Q 0).
    { rewrite last_pc by (intros ->; cbn in RL; lia). rewrite E, pc_add, (pc_over r') by lia.
      rewrite <- pc_mul_top by assumption. rewrite RL, Z.add_0_r. f_equal. lia. }
    destruct (Nat.leb_spec (length d) (length r)) as [Hl|Hl]; [|lia].
    assert (M0 : last r 0 mod last d 0 = 0) by (rewrite RT, Z.mul_comm; apply Z.mod_mul; exact Ld).
    assert (DV : last r 0 / last d 0 = last Q 0) by (rewrite RT, Z.mul_comm; apply Z.div_mul; exact Ld).
    rewrite M0, DV. cbn [Z.eqb negb].
    change (poly_make (repeat 0 (length r - length d) ++ [last Q 0])) with (mono (last Q 0) (length r - length d)).
    set (m := mono (last Q 0) (length r - length d)).
    pose proof (div_step d r (last Q 0) Hd Hr Nd Hl RT) as S. fold m in S.
    rewrite (IH (padd q m) (psub r (pmul d m)) (psub Q m) r'); auto with pcanon; [| |].
    + do 2 f_equal. apply pcanon_eq; auto with pcanon. ring.
    + lia.
    + rewrite E. ring.
Qed.

Lemma assert_nonzero d : pcanon d -> negb (forallb (fun c => c =? 0) d) = negb (pis_zero d).
Proof.
  intros Hd. f_equal. destruct d as [|c d]; [reflexivity|]. cbn [pis_zero]. destruct Hd as [K|Hd]; [discriminate|].
  destruct (forallb (fun c => c =? 0) (c :: d)) eqn:E; [exfalso|reflexivity].
  rewrite forallb_forall in E. apply Hd. apply Z.eqb_eq, E.
  assert (N : c :: d <> []) by discriminate. destruct (exists_last N) as [l [x ->]]. rewrite last_last. apply in_app_iff. right. now left.
Qed.
Lemma pdivmod_zero n : pdivmod n [] = Err AssertionError. Proof. reflexivity. Qed.
Lemma pdivmod_start n d : pcanon d -> d <> [] -> pdivmod n d = divmod_loop (S (length n)) d [] n.
Proof.
  intros Hd Nd. unfold pdivmod. rewrite assert_nonzero by exact Hd. destruct d; [contradiction|]. reflexivity.
Qed.
Theorem pdivmod_spec n d : pcanon n -> pcanon d -> d <> [] ->
  (exists q r, pdivmod n d = Ok (q, r) /\ pcanon q /\ pcanon r /\ (length r < length d)%nat /\ n = padd (pmul d q) r) \/
  pdivmod n d = Err ValueError.
Proof.
  intros Hn Hd Nd. rewrite pdivmod_start by assumption.
  destruct (divmod_sound d Hd Nd (S (length n)) [] n ltac:(lia) pcanon_nil Hn) as [[q [r [E1 [E2 [E3 [E4 E5]]]]]]|E]; [left|now right].
  exists q, r. repeat (split; [assumption|]). apply pcanon_eq; auto with pcanon. rewrite <- E5. ring.
Qed.
Theorem pdivmod_complete n d q r : pcanon n -> pcanon d -> d <> [] -> pcanon q -> pcanon r -> (length r < length d)%nat ->
  n = padd (pmul d q) r -> pdivmod n d = Ok (q, r).
Proof.
  intros Hn Hd Nd Hq Hr HL E. rewrite pdivmod_start by assumption.
  rewrite (divmod_complete d Hd Nd _ [] n q r); auto with pcanon; [|now rewrite <- E].
  do 2 f_equal. apply pcanon_eq; auto with pcanon. ring.
Qed.

(** ** powers *)
Fixpoint pn (p : poly) (k : nat) : poly := match k with O => [1] | S k' => pmul p (pn p k') end.
Fixpoint lpn (p : lpoly) (k : nat) : lpoly := match k with O => lint 1 | S k' => lmul p (lpn p k') end.
Lemma pn_add p a b : peq (pn p (a + b)) (pmul (pn p a) (pn p b)).
Proof. induction a as [|a IH]; cbn [pn lpn Nat.add]; [ring|]. rewrite IH. ring. Qed.
Lemma lpn_add p a b : leq (lpn p (a + b)) (lmul (lpn p a) (lpn p b)).
Proof. induction a as [|a IH]; cbn [pn lpn Nat.add]; [ring|]. rewrite IH. ring. Qed.

Lemma fuel_half n k : 2 <= n -> (S (S (Z.to_nat (Z.log2 n))) <= S k)%nat -> (S (S (Z.to_nat (Z.log2 (n / 2)))) <= k)%nat.
Proof.
  intros Hn H. replace (n / 2) with (Z.shiftr n 1) by (rewrite Z.shiftr_div_pow2 by lia; reflexivity).
  rewrite Z.log2_shiftr by lia. pose proof (Z.log2_le_mono 2 n Hn). change (Z.log2 2) with 1 in *. lia.
Qed.
Lemma half_split n : 0 <= n -> Z.to_nat n = (Z.to_nat (n / 2) + Z.to_nat (n / 2) + Z.to_nat (n mod 2))%nat.
Proof.
  intros H. pose proof (Z.div_mod n 2 ltac:(lia)). pose proof (Z.mod_pos_bound n 2 ltac:(lia)).
  assert (0 <= n / 2) by (apply Z.div_pos; lia). lia.
Qed.
Lemma lpow_nat_ok fuel : forall p n, 0 <= n -> (S (S (Z.to_nat (Z.log2 n))) <= fuel)%nat ->
  exists r, lpow_nat fuel p n = Ok r /\ leq r (lpn p (Z.to_nat n)) /\ (lcanon p -> lcanon r).
Proof.
  induction fuel as [|fuel IH]; intros p n Hn HF; [lia|]. cbn [lpow_nat].
  destruct (Z.eqb_spec n 0) as [->|N0]; [eexists; split; [reflexivity|]; split; [reflexivity|intros _; apply canon_make]|].
  destruct (Z.eqb_spec n 1) as [->|N1]; [eexists; split; [reflexivity|]; split; [change (leq p (lmul p (lint 1))); ring|auto]|].
  assert (H2 : 0 <= n / 2) by (apply Z.div_pos; lia).
  destruct (IH p (n / 2) H2 (fuel_half n fuel ltac:(lia) HF)) as [r [E1 [E2 E3]]]. rewrite E1. cbn [bind].
  eexists. split; [reflexivity|]. rewrite (half_split n Hn).
  pose proof (Z.mod_pos_bound n 2 ltac:(lia)). destruct (Z.eqb_spec (n mod 2) 0) as [E|E].
  - rewrite E. split; [|intros _; apply canon_make]. cbn [Z.to_nat]. rewrite Nat.add_0_r, lpn_add, E2. reflexivity.
  - replace (n mod 2) with 1 by lia. split; [|intros _; apply canon_make]. rewrite !lpn_add, E2.
    change (lpn p (Z.to_nat 1)) with (lmul p (lint 1)). ring.
Qed.
Lemma ppow_nat_ok fuel : forall p n, 0 <= n -> (S (S (Z.to_nat (Z.log2 n))) <= fuel)%nat ->
  exists r, ppow_nat fuel p n = Ok r /\ peq r (pn p (Z.to_nat n)) /\ (pcanon p -> pcanon r).
Proof.
  induction fuel as [|fuel IH]; intros p n Hn HF; [lia|]. cbn [ppow_nat].
  destruct (Z.eqb_spec n 0) as [->|N0]; [eexists; split; [reflexivity|]; split; [reflexivity|intros _; apply pcanon_make]|].
  destruct (Z.eqb_spec n 1) as [->|N1]; [eexists; split; [reflexivity|]; split; [change (peq p (pmul p [1])); ring|auto]|].
  assert (H2 : 0 <= n / 2) by (apply Z.div_pos; lia).
  destruct (IH p (n / 2) H2 (fuel_half n fuel ltac:(lia) HF)) as [r [E1 [E2 E3]]]. rewrite E1. cbn [bind].
  eexists. split; [reflexivity|]. rewrite (half_split n Hn).
  pose proof (Z.mod_pos_bound n 2 ltac:(lia)). destruct (Z.eqb_spec (n mod 2) 0) as [E|E].
  - rewrite E. split; [|intros _; auto with pcanon]. cbn [Z.to_nat]. rewrite Nat.add_0_r, pn_add, E2. reflexivity.
  - replace (n mod 2) with 1 by lia. split; [|intros _; auto with pcanon]. rewrite !pn_add, E2.
    change (pn p (Z.to_nat 1)) with (pmul p [1]). ring.
Qed.
Lemma canon_lpn p k : lcanon (lpn p k). Proof. destruct k; apply canon_make. Qed.
Lemma pcanon_pn p k : pcanon (pn p k). Proof. destruct k; [apply pcanon_one|apply pcanon_make]. Qed.
Lemma lpow_pos p n : lcanon p -> 0 <= n -> lpow p n = Ok (lpn p (Z.to_nat n)).
Proof.
  intros Hp Hn. unfold lpow. destruct (Z.ltb_spec n 0); [lia|].
  destruct (lpow_nat_ok (pow_fuel n) p n Hn ltac:(unfold pow_fuel; lia)) as [r [-> [E C]]]. f_equal.
  apply canon_eq; auto using canon_lpn.
Qed.
Lemma ppow_pos p n : pcanon p -> 0 <= n -> ppow p n = Ok (pn p (Z.to_nat n)).
Proof.
  intros Hp Hn. unfold ppow. destruct (Z.ltb_spec n 0); [lia|].
  destruct (ppow_nat_ok (pow_fuel n) p n Hn ltac:(unfold pow_fuel; lia)) as [r [-> [E C]]]. f_equal.
  apply pcanon_eq; auto using pcanon_pn.
Qed.
