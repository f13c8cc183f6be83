(** NCTheory.v – noncrossing partitions as permutations, by first-order
    conditions: a < b lie in one block of w exactly if w maps the interval
    (a, b] onto [a, b). *)
From Verif Require Import Base ModelPerm PermTheory.
From Coq Require Import Permutation.

Section NC.
Variable n : nat.
Notation P := (isperm n).

Definition E (w : list nat) (a b : nat) : Prop := forall i, i < n -> (a < i <= b <-> a <= ap w i < b).
Definition ed (w : list nat) (a b : nat) : Prop := a < b /\ b < n /\ E w a b.
Definition sm (w : list nat) (a b : nat) : Prop := a = b \/ ed w a b \/ ed w b a.
Definition NC (w : list nat) : Prop := forall i, i < n -> sm w i (ap w i).
Definition Q (w : list nat) : Prop := P w /\ NC w.
(** every edge of the first is an edge of the second *)
Definition sub (e w : list nat) : Prop := forall a b, ed e a b -> ed w a b.
(** p and q lie on the same side of (a, b] *)
Definition side (a b p q : nat) : Prop := a < p <= b <-> a < q <= b.
Definition pr (v : list nat) (a b : nat) : Prop := forall i, i < n -> side a b i (ap v i).
Notation tr a b := (ptrans n a b).
Notation "u ** v" := (pcomp u v) (at level 40, left associativity).

Lemma sm_refl w a : sm w a a. Proof. now left. Qed.
Lemma sm_sym w a b : sm w a b -> sm w b a.
Proof. unfold sm. intuition. Qed.
Lemma sm_ed w a b : a < b -> sm w a b -> ed w a b.
Proof. intros L [?|[?|[H _]]]; [lia|assumption|lia]. Qed.
Lemma ed_sm w a b : ed w a b -> sm w a b. Proof. unfold sm. tauto. Qed.

Lemma ed_chain w a b c : ed w a b -> ed w b c -> ed w a c.
Proof.
  intros [L [B H]] [L' [B' H']]. split; [lia|]. split; [exact B'|]. intros i Hi.
  specialize (H i Hi). specialize (H' i Hi). lia.
Qed.
Lemma ed_left w a b c : a < b -> ed w a c -> ed w b c -> ed w a b.
Proof.
  intros L0 [L [B H]] [L' [B' H']]. split; [lia|]. split; [lia|]. intros i Hi.
  specialize (H i Hi). specialize (H' i Hi). lia.
Qed.
Lemma ed_right w a b c : b < c -> ed w a c -> ed w a b -> ed w b c.
Proof.
  intros L0 [L [B H]] [L' [B' H']]. split; [lia|]. split; [lia|]. intros i Hi.
  specialize (H i Hi). specialize (H' i Hi). lia.
Qed.
Lemma sm_trans w a b c : sm w a b -> sm w b c -> sm w a c.
Proof.
  intros [->|[H|H]] [<-|[K|K]]; auto using ed_sm, sm_sym, sm_refl.
  - right. left. eapply ed_chain; eassumption.
  - destruct (Nat.lt_trichotomy a c) as [L|[->|L]]; [|apply sm_refl|].
    + right. left. eapply ed_left; eassumption.
    + right. right. eapply ed_left; eassumption.
  - destruct (Nat.lt_trichotomy a c) as [L|[->|L]]; [|apply sm_refl|].
    + right. left. eapply (ed_right _ b); eassumption.
    + right. right. eapply (ed_right _ b); eassumption.
  - right. right. eapply ed_chain; eassumption.
Qed.

(** two edges that straddle each other meet *)
Lemma ed_meet w a b p q : ed w a b -> ed w p q -> ~ side a b p q ->
  (sm w p b \/ sm w p a) .
Proof.
  intros [L [B H]] [L' [B' H']] S. unfold side in S.
  assert (a < p <= b /\ ~ a < q <= b \/ ~ a < p <= b /\ a < q <= b) as [C|C] by lia.
  - left. assert (p = b \/ p < b) as [->|K] by lia; [apply sm_refl|]. right. left. split; [lia|]. split; [lia|].
    intros i Hi. specialize (H i Hi). specialize (H' i Hi). lia.
  - right. assert (p = a \/ p < a) as [->|K] by lia; [apply sm_refl|]. right. left. split; [lia|]. split; [lia|].
    intros i Hi. specialize (H i Hi). specialize (H' i Hi). lia.
Qed.
Lemma straddle w a b p q : ed w a b -> ed w p q -> ~ side a b p q -> sm w p a /\ sm w q a.
Proof.
  intros H K S. assert (sm w p a) as G.
  { destruct (ed_meet w a b p q H K S) as [G|G]; [|exact G].
    apply (sm_trans _ _ b); [exact G|]. apply sm_sym, ed_sm, H. }
  split; [exact G|]. apply (sm_trans _ _ p); [|exact G]. apply sm_sym, ed_sm, K.
Qed.

(** ** multiplying by a transposition *)
Lemma ap_tr w a b i : P w -> a < n -> b < n -> i < n ->
  ap (tr a b ** w) i = if ap w i =? a then b else if ap w i =? b then a else ap w i.
Proof.
  intros Hw Ha Hb Hi. rewrite (app_pcomp n) by auto using isperm_ptrans.
  apply app_ptrans; auto using isperm_app_lt.
Qed.
Lemma tr_tr w a b : P w -> a < n -> b < n -> tr a b ** (tr a b ** w) = w.
Proof.
  intros Hw Ha Hb. rewrite <- (pcomp_assoc n), ptrans_invol, (pcomp_id_l n) by auto using isperm_ptrans. reflexivity.
Qed.
Lemma P_tr w a b : P w -> a < n -> b < n -> P (tr a b ** w).
Proof. intros. apply isperm_pcomp; auto using isperm_ptrans. Qed.

Lemma split_pr w a b : P w -> ed w a b -> pr (tr a b ** w) a b.
Proof.
  intros Hw [L [B H]] i Hi. specialize (H i Hi). unfold side. rewrite ap_tr by (assumption || lia).
  destruct (Nat.eqb_spec (ap w i) a), (Nat.eqb_spec (ap w i) b); lia.
Qed.
Lemma merge_ed v a b : P v -> a < b -> b < n -> pr v a b -> ed (tr a b ** v) a b.
Proof.
  intros Hv L B H. split; [exact L|]. split; [exact B|]. intros i Hi. specialize (H i Hi). unfold side in H.
  rewrite ap_tr by (assumption || lia).
  destruct (Nat.eqb_spec (ap v i) a), (Nat.eqb_spec (ap v i) b); lia.
Qed.
Lemma side_ed w a b p q : P w -> a < b -> b < n -> side a b p q -> (ed (tr a b ** w) p q <-> ed w p q).
Proof.
  intros Hw L B S. unfold side in S.
  assert (K : forall i, i < n -> p < q -> (p <= ap (tr a b ** w) i < q <-> p <= ap w i < q)).
  { intros i Hi Lpq. rewrite ap_tr by (assumption || lia).
    destruct (Nat.eqb_spec (ap w i) a), (Nat.eqb_spec (ap w i) b); lia. }
  unfold ed, E. split; intros [L1 [B1 H]]; (split; [exact L1|]; split; [exact B1|]); intros i Hi;
    specialize (H i Hi); specialize (K i Hi L1); lia.
Qed.
Lemma side_sym a b p q : side a b p q -> side a b q p. Proof. unfold side. tauto. Qed.
Lemma side_sm w a b p q : P w -> a < b -> b < n -> side a b p q -> (sm (tr a b ** w) p q <-> sm w p q).
Proof.
  intros Hw L B S. unfold sm. rewrite !side_ed by auto using side_sym. reflexivity.
Qed.
Lemma side_trans a b p q r : side a b p q -> side a b q r -> side a b p r.
Proof. unfold side. tauto. Qed.
Lemma side_refl a b p : side a b p p. Proof. unfold side. tauto. Qed.
Lemma side_dec a b p q : {side a b p q} + {~ side a b p q}.
Proof.
  unfold side. destruct (lt_dec a p), (le_dec p b), (lt_dec a q), (le_dec q b); first [left; lia | right; lia].
Qed.

Lemma NC_split w a b : Q w -> ed w a b -> Q (tr a b ** w).
Proof.
  intros [Hw N] Hed. pose proof Hed as [L [B H]]. split; [apply P_tr; auto; lia|].
  intros i Hi. pose proof (split_pr w a b Hw Hed i Hi) as S. specialize (N i Hi).
  apply side_sm; auto. rewrite ap_tr by (assumption || lia).
  destruct (Nat.eqb_spec (ap w i) a) as [Ea|Na]; [|destruct (Nat.eqb_spec (ap w i) b) as [Eb|Nb]]; [| |exact N].
  - apply (sm_trans _ _ a); [now rewrite <- Ea|now apply ed_sm].
  - apply (sm_trans _ _ b); [now rewrite <- Eb|now apply sm_sym, ed_sm].
Qed.
Lemma NC_merge v a b : Q v -> a < b -> b < n -> pr v a b -> Q (tr a b ** v).
Proof.
  intros [Hv N] L B H. split; [apply P_tr; auto; lia|].
  pose proof (merge_ed v a b Hv L B H) as Hed.
  intros i Hi. specialize (N i Hi). specialize (H i Hi). apply (side_sm v a b) in N; auto.
  rewrite ap_tr by (assumption || lia).
  destruct (Nat.eqb_spec (ap v i) a) as [Ea|Na]; [|destruct (Nat.eqb_spec (ap v i) b) as [Eb|Nb]]; [| |exact N].
  - apply (sm_trans _ _ a); [rewrite Ea in N; exact N|now apply ed_sm].
  - apply (sm_trans _ _ b); [rewrite Eb in N; exact N|now apply sm_sym, ed_sm].
Qed.

(** ** counting *)
Definition cnt (f : nat -> bool) : nat := length (filter f (seq 0 n)).
Lemma cnt_range x y : x <= y -> y <= n -> cnt (fun i => (x <=? i) && (i <? y)) = y - x.
Proof.
  intros L B. unfold cnt.
  replace n with (x + (y - x + (n - y))) by lia. rewrite !seq_app, !filter_app, !app_length. cbn [Nat.add].
  assert (Z : forall (f : nat -> bool) l, (forall i, In i l -> f i = false) -> length (filter f l) = 0).
  { intros f l. induction l as [|i l IH]; intros K; [reflexivity|]. cbn [filter]. rewrite (K i) by now left.
    apply IH. intros j Hj. apply K. now right. }
  assert (O : forall (f : nat -> bool) l, (forall i, In i l -> f i = true) -> length (filter f l) = length l).
  { intros f l. induction l as [|i l IH]; intros K; [reflexivity|]. cbn [filter]. rewrite (K i) by now left.
    cbn [length]. f_equal. apply IH. intros j Hj. apply K. now right. }
  rewrite Z, O, Z, seq_length; [lia| | |]; intros i Hi; apply in_seq in Hi;
    destruct (Nat.leb_spec x i), (Nat.ltb_spec i y); cbn; first [reflexivity | exfalso; lia].
Qed.
Lemma cnt_ext f g : (forall i, i < n -> f i = g i) -> cnt f = cnt g.
Proof.
  intros H. unfold cnt. f_equal. apply filter_ext_in. intros i Hi. apply in_seq in Hi. apply H. lia.
Qed.
Lemma cnt_perm w f : P w -> cnt (fun i => f (ap w i)) = cnt f.
Proof.
  intros Hw. unfold cnt.
  assert (W : w = map (fun i => ap w i) (seq 0 n)).
  { apply (nth_ext_len _ _ n 0); [now apply isperm_length|now rewrite map_length, seq_length|].
    intros i Hi. now rewrite nth_map_seq. }
  assert (PL : forall (f : nat -> bool) l l', Permutation l l' -> length (filter f l) = length (filter f l')).
  { clear. intros f l l' H. induction H; cbn [filter]; repeat (destruct (f _)); cbn [length]; congruence || lia. }
  rewrite <- (PL f w (seq 0 n) Hw).
  transitivity (length (filter f (map (fun i => ap w i) (seq 0 n)))); [|now rewrite <- W].
  clear. induction (seq 0 n) as [|i l IH]; [reflexivity|]. cbn [map filter].
  destruct (f (ap w i)); cbn [length]; now rewrite IH.
Qed.
Lemma range_size w x y x' y' : P w -> x <= y -> x' <= y' -> y <= n -> y' <= n ->
  (forall i, i < n -> (x <= i < y <-> x' <= ap w i < y')) -> y - x = y' - x'.
Proof.
  intros Hw L L' B B' H. rewrite <- (cnt_range x y L B), <- (cnt_range x' y' L' B').
  rewrite <- (cnt_perm w (fun i => (x' <=? i) && (i <? y'))) by exact Hw. apply cnt_ext. intros i Hi.
  specialize (H i Hi). destruct (Nat.leb_spec x i), (Nat.ltb_spec i y), (Nat.leb_spec x' (ap w i)), (Nat.ltb_spec (ap w i) y'); cbn; first [reflexivity | exfalso; lia].
Qed.
Lemma pr_side v a b p q : P v -> a < b -> b < n -> pr v a b -> ed v p q -> side a b p q.
Proof.
  intros Hv L B H [L' [B' K]]. destruct (side_dec a b p q) as [S|S]; [exact S|exfalso].
  unfold side in S. assert (a < p <= b /\ b < q \/ p <= a /\ a < q <= b) as [C|C] by lia.
  - pose proof (range_size v (p + 1) (b + 1) p (b + 1) Hv ltac:(lia) ltac:(lia) ltac:(lia) ltac:(lia)) as R.
    cbv beta in R. assert (b + 1 - (p + 1) = b + 1 - p); [|lia]. apply R. intros i Hi. specialize (H i Hi). specialize (K i Hi). unfold side in H. lia.
  - pose proof (range_size v (a + 1) (q + 1) (a + 1) q Hv ltac:(lia) ltac:(lia) ltac:(lia) ltac:(lia)) as R.
    assert (q + 1 - (a + 1) = q - (a + 1)); [|lia]. apply R. intros i Hi. specialize (H i Hi). specialize (K i Hi). unfold side in H. lia.
Qed.
(** the edges after a split *)
Lemma split_ed w a b p q : P w -> ed w a b -> (ed (tr a b ** w) p q <-> ed w p q /\ side a b p q).
Proof.
  intros Hw Hed. pose proof Hed as [L [B _]]. split.
  - intros K. assert (S : side a b p q).
    { apply (pr_side (tr a b ** w)); auto using split_pr. apply P_tr; auto; lia. }
    split; [|exact S]. now apply (side_ed w a b) in K.
  - intros [K S]. now apply side_ed.
Qed.
Lemma NC_pr v a b : NC v -> (forall p q, ed v p q -> side a b p q) -> pr v a b.
Proof.
  intros N H i Hi. destruct (N i Hi) as [<-|[K|K]]; [apply side_refl|now apply H|apply side_sym; now apply H].
Qed.

(** ** the measure: how many points go down *)
Definition exc (w : list nat) : nat := cnt (fun i => ap w i <? i).
Lemma cnt_one f g m : m < n -> (forall i, i < n -> i <> m -> f i = g i) -> f m = true -> g m = false -> cnt f = S (cnt g).
Proof.
  intros Hm H F G. unfold cnt. replace n with (m + (1 + (n - m - 1))) by lia.
  rewrite !seq_app, !filter_app, !app_length. cbn [Nat.add seq filter]. rewrite F, G. cbn [length].
  assert (X : forall a k, (forall i, a <= i < a + k -> f i = g i) -> length (filter f (seq a k)) = length (filter g (seq a k))).
  { intros a k K. f_equal. apply filter_ext_in. intros i Hi. apply in_seq in Hi. now apply K. }
  rewrite (X 0 m), (X (m + 1) (n - m - 1)); [lia| |]; intros i Hi; apply H; lia.
Qed.
Lemma exc_split w a b : P w -> ed w a b -> exc w = S (exc (tr a b ** w)).
Proof.
  intros Hw Hed. pose proof Hed as [L [B H]]. destruct (isperm_surj n w a Hw ltac:(lia)) as [x [Hx Ex]].
  pose proof (H x Hx) as Kx. apply (cnt_one _ _ x Hx).
  - intros i Hi Nx. rewrite ap_tr by (assumption || lia). specialize (H i Hi).
    destruct (Nat.eqb_spec (ap w i) a) as [Ea|Na].
    + exfalso. apply Nx. apply (isperm_inj n w); auto. congruence.
    + destruct (Nat.eqb_spec (ap w i) b) as [Eb|Nb]; [|reflexivity].
      destruct (Nat.ltb_spec (ap w i) i), (Nat.ltb_spec a i); first [reflexivity | exfalso; lia].
  - rewrite Ex. apply Nat.ltb_lt. lia.
  - rewrite ap_tr by (assumption || lia). rewrite Ex, Nat.eqb_refl. apply Nat.ltb_ge. lia.
Qed.

Lemma E_dec w a b : {E w a b} + {~ E w a b}.
Proof.
  assert (D : {forall i, In i (seq 0 n) -> (a < i <= b <-> a <= ap w i < b)} +
              {~ (forall i, In i (seq 0 n) -> (a < i <= b <-> a <= ap w i < b))}).
  { generalize (seq 0 n). intros l. induction l as [|i l [IH|IH]]; [now left| |].
    - destruct (lt_dec a i), (le_dec i b), (le_dec a (ap w i)), (lt_dec (ap w i) b);
        first [left; intros j [<-|Hj]; [lia|now apply IH] | right; intros K; specialize (K i (or_introl eq_refl)); lia].
    - right. intros K. apply IH. intros j Hj. apply K. now right. }
  unfold E. destruct D as [D|D]; [left|right]; intros.
  - apply D. apply in_seq. lia.
  - intros K. apply D. intros i Hi. apply in_seq in Hi. apply K. lia.
Defined.
Lemma ed_dec w a b : {ed w a b} + {~ ed w a b}.
Proof.
  unfold ed. destruct (lt_dec a b); [|right; tauto]. destruct (lt_dec b n); [|right; tauto].
  destruct (E_dec w a b); [left; tauto|right; tauto].
Defined.
Lemma pair_dec (R : nat -> nat -> Prop) (D : forall a b, {R a b} + {~ R a b}) :
  {p | R (fst p) (snd p)} + {forall a b, a < n -> b < n -> ~ R a b}.
Proof.
  destruct (find (fun p => if D (fst p) (snd p) then true else false) (list_prod (seq 0 n) (seq 0 n))) as [p|] eqn:F.
  - left. exists p. apply find_some in F. destruct F as [_ F]. now destruct (D (fst p) (snd p)).
  - right. intros a b Ha Hb K. pose proof (find_none _ _ F (a, b)) as G. cbn [fst snd] in G.
    destruct (D a b); [|contradiction]. discriminate G. apply in_prod; apply in_seq; lia.
Defined.

Lemma no_edge_id w : Q w -> (forall a b, ~ ed w a b) -> w = identity n.
Proof.
  intros [Hw N] H. apply (isperm_ext n); auto using isperm_id. intros i Hi. rewrite app_id by exact Hi.
  destruct (N i Hi) as [K|[K|K]]; [now symmetry|now apply H in K|now apply H in K].
Qed.
Lemma id_no_edge a b : ~ ed (identity n) a b.
Proof.
  intros [L [B H]]. specialize (H a ltac:(lia)). rewrite app_id in H by lia. lia.
Qed.
Lemma Q_id : Q (identity n).
Proof. split; [apply isperm_id|]. intros i Hi. left. now rewrite app_id. Qed.

Lemma NC_ind (Pr : list nat -> Prop) : Pr (identity n) ->
  (forall w a b, Q w -> ed w a b -> Pr (tr a b ** w) -> Pr w) -> forall w, Q w -> Pr w.
Proof.
  intros H0 HS w. remember (exc w) as k eqn:Ek. revert w Ek. induction k as [|k IH]; intros w Ek Hw;
    (destruct (pair_dec (ed w) (ed_dec w)) as [[[a b] K]|K]; cbn [fst snd] in *).
  - rewrite (exc_split w a b) in Ek by (try apply Hw; exact K). discriminate.
  - rewrite (no_edge_id w Hw); [exact H0|]. intros a b Kab. pose proof Kab as [? [? _]]. apply (K a b); auto; lia.
  - apply (HS w a b Hw K). apply IH; [|now apply NC_split]. rewrite (exc_split w a b) in Ek by (try apply Hw; exact K). now injection Ek.
  - rewrite (no_edge_id w Hw); [exact H0|]. intros a b Kab. pose proof Kab as [? [? _]]. apply (K a b); auto; lia.
Qed.

Lemma sub_refl w : sub w w. Proof. intros a b H. exact H. Qed.
Lemma sub_trans u v w : sub u v -> sub v w -> sub u w. Proof. intros H K a b M. apply K, H, M. Qed.
Lemma sub_split w a b : P w -> ed w a b -> sub (tr a b ** w) w.
Proof. intros Hw H p q K. now apply split_ed in K. Qed.
Lemma split_sub e w a b : P e -> P w -> sub e w -> ed e a b -> sub (tr a b ** e) (tr a b ** w).
Proof.
  intros He Hw S H p q K. apply split_ed in K; auto. apply split_ed; auto. split; [now apply S|tauto].
Qed.
Lemma pinv_tr e a b : P e -> a < n -> b < n -> pinv (tr a b ** e) = pinv e ** tr a b.
Proof.
  intros He Ha Hb. rewrite (pinv_pcomp n), pinv_ptrans by auto using isperm_ptrans. reflexivity.
Qed.
Lemma quot_tr e w a b : P e -> P w -> a < n -> b < n -> pinv (tr a b ** e) ** (tr a b ** w) = pinv e ** w.
Proof.
  intros He Hw Ha Hb. rewrite pinv_tr by assumption.
  rewrite (pcomp_assoc n) by auto using isperm_pinv, isperm_ptrans, P_tr. now rewrite tr_tr.
Qed.

(** ** division *)
Lemma div_NC e : Q e -> forall w, Q w -> sub e w -> Q (pinv e ** w) /\ sub (pinv e ** w) w.
Proof.
  revert e. apply (NC_ind (fun e => forall w, Q w -> sub e w -> Q (pinv e ** w) /\ sub (pinv e ** w) w)).
  - intros w Hw _. rewrite pinv_id, (pcomp_id_l n) by apply Hw. auto using sub_refl.
  - intros e a b He Hed IH w Hw S. pose proof Hed as [L [B _]].
    destruct (IH (tr a b ** w)) as [I1 I2].
    + apply NC_split; auto.
    + apply split_sub; try apply He; try apply Hw; auto.
    + rewrite quot_tr in I1, I2 by (try apply He; try apply Hw; lia). split; [exact I1|].
      eapply sub_trans; [exact I2|]. apply sub_split; [apply Hw|auto].
Qed.
Lemma div_mono e : Q e -> forall f w, Q f -> Q w -> sub e f -> sub f w -> sub (pinv e ** f) (pinv e ** w).
Proof.
  revert e. apply (NC_ind (fun e => forall f w, Q f -> Q w -> sub e f -> sub f w -> sub (pinv e ** f) (pinv e ** w))).
  - intros f w Hf Hw _ S. rewrite pinv_id, !(pcomp_id_l n) by (apply Hf || apply Hw). exact S.
  - intros e a b He Hed IH f w Hf Hw S1 S2. pose proof Hed as [L [B _]].
    rewrite <- (quot_tr e f a b), <- (quot_tr e w a b) by (try apply He; try apply Hf; try apply Hw; lia).
    apply IH.
    + apply NC_split; auto.
    + apply NC_split; auto.
    + apply split_sub; try apply He; try apply Hf; auto.
    + apply split_sub; try apply Hf; try apply Hw; auto.
Qed.
Lemma ed_cases g x a b p q : P g -> P x -> ed x a b -> sub g (tr a b ** x) -> NC g ->
  ed (tr a b ** g) p q -> ed x p q.
Proof.
  intros Hg Hx Hed S N K. pose proof Hed as [L [B _]].
  assert (G : pr g a b) by (apply NC_pr; [exact N|]; intros p' q' K'; apply S in K'; now apply split_ed in K').
  pose proof (merge_ed g a b Hg L B G) as M.
  assert (SM : forall u v, side a b u v -> sm (tr a b ** g) u v -> sm x u v).
  { intros u v Sd K'. apply (side_sm g) in K'; auto. destruct K' as [->|[K'|K']]; [apply sm_refl| |].
    - apply ed_sm. apply S in K'. now apply split_ed in K'.
    - apply sm_sym, ed_sm. apply S in K'. now apply split_ed in K'. }
  apply sm_ed; [exact (proj1 K)|]. destruct (side_dec a b p q) as [Sd|Sd]; [apply SM; [exact Sd|now apply ed_sm]|].
  destruct (straddle _ _ _ _ _ M K Sd) as [Sp Sq].
  assert (SA : forall u, sm (tr a b ** g) u a -> sm x u a).
  { intros u K'. destruct (side_dec a b u a) as [Sd'|Sd']; [now apply SM|].
    apply (sm_trans _ _ b); [|apply sm_sym, ed_sm; exact Hed]. apply SM.
    - unfold side in *. lia.
    - apply (sm_trans _ _ a); [exact K'|now apply ed_sm]. }
  apply (sm_trans _ _ a); [now apply SA|apply sm_sym; now apply SA].
Qed.
Lemma mul_NC x : Q x -> forall y w, Q y -> Q w -> sub x w -> sub y (pinv x ** w) ->
  Q (x ** y) /\ sub x (x ** y) /\ sub (x ** y) w.
Proof.
  revert x. apply (NC_ind (fun x => forall y w, Q y -> Q w -> sub x w -> sub y (pinv x ** w) ->
    Q (x ** y) /\ sub x (x ** y) /\ sub (x ** y) w)).
  - intros y w Hy Hw _ S. rewrite pinv_id, (pcomp_id_l n) in S by apply Hw. rewrite (pcomp_id_l n) by apply Hy.
    split; [exact Hy|]. split; [|exact S]. intros a b K. now apply id_no_edge in K.
  - intros x a b Hx Hed IH y w Hy Hw S1 S2. pose proof Hed as [L [B _]].
    rewrite <- (quot_tr x w a b) in S2 by (try apply Hx; try apply Hw; lia).
    destruct (IH y (tr a b ** w) Hy) as [I1 [I2 I3]]; [apply NC_split; auto| |exact S2|].
    { apply split_sub; try apply Hx; try apply Hw; auto. }
    assert (Ex : x ** y = tr a b ** (tr a b ** x ** y)).
    { rewrite (pcomp_assoc n _ x y) by (try apply Hx; try apply Hy; apply isperm_ptrans; lia).
      rewrite tr_tr; [reflexivity|apply isperm_pcomp; [apply Hx|apply Hy]|lia|lia]. }
    set (g := tr a b ** x ** y) in *.
    assert (G : pr g a b).
    { apply NC_pr; [apply I1|]. intros p q K. apply I3 in K. apply split_ed in K; [tauto|apply Hw|auto]. }
    assert (Qg : Q (tr a b ** g)) by (apply NC_merge; auto). rewrite Ex. split; [exact Qg|].
    pose proof (merge_ed g a b (proj1 I1) L B G) as M. split.
    + intros p q K. destruct (side_dec a b p q) as [Sd|Sd].
      * apply side_ed; auto; [apply I1|]. apply I2. apply split_ed; auto. apply Hx.
      * destruct (straddle _ _ _ _ _ Hed K Sd) as [Sp Sq].
        assert (SM : forall u v, side a b u v -> sm x u v -> sm (tr a b ** g) u v).
        { intros u v Sd' K'. apply side_sm; auto; [apply I1|]. destruct K' as [->|[K'|K']]; [apply sm_refl| |].
          - apply ed_sm, I2. apply split_ed; auto. apply Hx.
          - apply sm_sym, ed_sm, I2. apply split_ed; auto using side_sym. apply Hx. }
        assert (SA : forall u, sm x u a -> sm (tr a b ** g) u a).
        { intros u K'. destruct (side_dec a b u a) as [Sd'|Sd']; [now apply SM|].
          apply (sm_trans _ _ b); [|apply sm_sym, ed_sm; exact M]. apply SM.
          - unfold side in *. lia.
          - apply (sm_trans _ _ a); [exact K'|now apply ed_sm]. }
        apply sm_ed; [exact (proj1 K)|]. apply (sm_trans _ _ a); [now apply SA|apply sm_sym; now apply SA].
    + intros p q K. apply (ed_cases g w a b p q); auto; [apply I1|apply Hw|apply I1].
Qed.

(** ** meets *)
Lemma meet_ex x : Q x -> forall y, Q y -> exists g, Q g /\ forall p q, ed g p q <-> ed x p q /\ ed y p q.
Proof.
  remember (exc x) as k eqn:Ek. revert x Ek. induction k as [k IH] using (well_founded_induction Wf_nat.lt_wf).
  intros x Ek Hx y Hy.
  assert (D : forall a b, {ed x a b /\ ed y a b} + {~ (ed x a b /\ ed y a b)}).
  { intros a b. destruct (ed_dec x a b), (ed_dec y a b); [left|right|right|right]; tauto. }
  destruct (pair_dec _ D) as [[[a b] [Kx Ky]]|K]; cbn [fst snd] in *.
  2:{ exists (identity n). split; [apply Q_id|]. intros p q. split.
      - intros M. now apply id_no_edge in M.
      - intros M. exfalso. pose proof M as [[? [? _]] _]. apply (K p q); auto; lia. }
  pose proof Kx as [L [B _]].
  destruct (IH (exc (tr a b ** x))) with (x := tr a b ** x) (y := tr a b ** y) as [g [Hg G]]; auto using NC_split.
  { rewrite Ek, (exc_split x a b); [lia|apply Hx|exact Kx]. }
  assert (PG : pr g a b).
  { apply NC_pr; [apply Hg|]. intros p q K. apply G in K. destruct K as [K _]. apply split_ed in K; [tauto|apply Hx|auto]. }
  pose proof (merge_ed g a b (proj1 Hg) L B PG) as M.
  exists (tr a b ** g). split; [now apply NC_merge|]. intros p q. split.
  - intros K. split; apply (ed_cases g _ a b p q); auto; try apply Hg; try apply Hx; try apply Hy; intros u v W; now apply G in W.
  - intros [K1 K2]. destruct (side_dec a b p q) as [Sd|Sd].
    { apply side_ed; auto; [apply Hg|]. apply G. split; apply split_ed; auto; try apply Hx; apply Hy. }
    destruct (straddle _ _ _ _ _ Kx K1 Sd) as [Sp Sq]. destruct (straddle _ _ _ _ _ Ky K2 Sd) as [Tp Tq].
    assert (SM : forall u v, side a b u v -> sm x u v -> sm y u v -> sm (tr a b ** g) u v).
    { assert (S1 : forall u v, side a b u v -> ed x u v -> ed y u v -> ed g u v).
      { intros u v Sd' A1 A2. apply G. split; apply split_ed; auto; try apply Hx; apply Hy. }
      intros u v Sd' A1 A2. apply side_sm; auto; [apply Hg|].
      destruct (Nat.lt_trichotomy u v) as [Lu|[->|Lu]]; [|apply sm_refl|].
      - apply ed_sm. apply S1; auto using sm_ed.
      - apply sm_sym, ed_sm. apply S1; auto using sm_ed, sm_sym, side_sym. }
    assert (SA : forall u, sm x u a -> sm y u a -> sm (tr a b ** g) u a).
    { intros u A1 A2. destruct (side_dec a b u a) as [Sd'|Sd']; [now apply SM|].
      apply (sm_trans _ _ b); [|apply sm_sym, ed_sm; exact M]. apply SM.
      - unfold side in *. lia.
      - apply (sm_trans _ _ a); [exact A1|now apply ed_sm].
      - apply (sm_trans _ _ a); [exact A2|now apply ed_sm]. }
    apply sm_ed; [exact (proj1 K1)|]. apply (sm_trans _ _ a); [now apply SA|apply sm_sym; now apply SA].
Qed.

(** ** the cycle i -> i - 1 *)
Definition cox : list nat := map (fun i => if i =? 0 then n - 1 else i - 1) (seq 0 n).
Lemma ap_cox i : i < n -> ap cox i = if i =? 0 then n - 1 else i - 1.
Proof. intros H. unfold cox. now rewrite nth_map_seq. Qed.
Lemma P_cox : P cox.
Proof.
  apply isperm_of_app.
  - unfold cox. now rewrite map_length, seq_length.
  - intros i Hi. rewrite ap_cox by exact Hi. destruct (Nat.eqb_spec i 0); lia.
  - intros i j Hi Hj. rewrite !ap_cox by assumption. destruct (Nat.eqb_spec i 0), (Nat.eqb_spec j 0); lia.
Qed.
Lemma cox_ed a b : a < b -> b < n -> ed cox a b.
Proof.
  intros L B. split; [exact L|]. split; [exact B|]. intros i Hi. rewrite ap_cox by exact Hi.
  destruct (Nat.eqb_spec i 0); lia.
Qed.
Lemma Q_cox : Q cox.
Proof.
  split; [apply P_cox|]. intros i Hi. pose proof (isperm_app_lt n cox i P_cox Hi) as B.
  destruct (Nat.lt_trichotomy i (ap cox i)) as [L|[E0|L]]; [right; left; now apply cox_ed|now left|right; right; now apply cox_ed].
Qed.
Lemma sub_cox w : sub w cox. Proof. intros a b [L [B _]]. now apply cox_ed. Qed.
Lemma rc_NC w : Q w -> Q (pinv w ** cox).
Proof. intros H. apply div_NC; auto using Q_cox, sub_cox. Qed.

(** powers of the cycle *)
Definition cpow (k : nat) : list nat := Nat.iter k (pcomp cox) (identity n).
Lemma P_cpow k : P (cpow k).
Proof. induction k as [|k IH]; [apply isperm_id|]. cbn. apply isperm_pcomp; [apply P_cox|exact IH]. Qed.
Lemma ap_cpow k i : i < n -> ap (cpow k) i = (i + k * (n - 1)) mod n.
Proof.
  intros Hi. induction k as [|k IH].
  - change (cpow 0) with (identity n). rewrite app_id, Nat.add_0_r, Nat.mod_small by exact Hi. reflexivity.
  - change (cpow (S k)) with (cox ** cpow k). rewrite (app_pcomp n) by auto using P_cox, P_cpow. rewrite IH.
    pose proof (Nat.mod_upper_bound (i + k * (n - 1)) n ltac:(lia)) as B. rewrite ap_cox by exact B.
    replace (i + S k * (n - 1)) with (i + k * (n - 1) + (n - 1)) by lia.
    rewrite (Nat.add_mod (i + k * (n - 1)) (n - 1) n) by lia. set (m := (i + k * (n - 1)) mod n) in *. rewrite (Nat.mod_small (n - 1)) by lia.
    destruct (Nat.eqb_spec m 0) as [->|N]; [cbn [Nat.add]; rewrite Nat.mod_small; lia|].
    replace (m + (n - 1)) with (m - 1 + 1 * n) by lia. rewrite Nat.mod_add, Nat.mod_small by lia. reflexivity.
Qed.
Lemma cpow_n : cpow n = identity n.
Proof.
  apply (isperm_ext n); auto using P_cpow, isperm_id. intros i Hi. rewrite ap_cpow, app_id by exact Hi.
  replace (i + n * (n - 1)) with (i + (n - 1) * n) by lia. rewrite Nat.mod_add, Nat.mod_small by lia. reflexivity.
Qed.
Lemma cpow_r k : cpow k ** cox = cpow (S k).
Proof.
  induction k as [|k IH].
  - change (cpow 1) with (cox ** identity n). change (cpow 0) with (identity n).
    rewrite (pcomp_id_l n), (pcomp_id_r n) by apply P_cox. reflexivity.
  - change (cpow (S k)) with (cox ** cpow k) at 1. rewrite (pcomp_assoc n) by auto using P_cox, P_cpow. rewrite IH. reflexivity.
Qed.
Definition conj (k : nat) (w : list nat) : list nat := pinv (cpow k) ** w ** cpow k.
Lemma P_conj k w : P w -> P (conj k w).
Proof. intros H. unfold conj. auto using isperm_pcomp, isperm_pinv, P_cpow. Qed.
Lemma conj_0 w : P w -> conj 0 w = w.
Proof. intros H. unfold conj. change (cpow 0) with (identity n). rewrite pinv_id, (pcomp_id_l n), (pcomp_id_r n); auto. Qed.
Lemma rc_rc w : P w -> pinv (pinv w ** cox) ** cox = pinv cox ** w ** cox.
Proof. intros H. rewrite (pinv_pcomp n), (pinv_pinv n); auto using isperm_pinv, P_cox. Qed.
Lemma conj_S k w : P w -> conj (S k) w = pinv (pinv (conj k w) ** cox) ** cox.
Proof.
  intros H. rewrite rc_rc by now apply P_conj. unfold conj. rewrite <- (cpow_r k).
  rewrite (pinv_pcomp n) by auto using P_cpow, P_cox.
  rewrite !(pcomp_assoc n); auto 10 using isperm_pcomp, isperm_pinv, P_cpow, P_cox.
Qed.
Lemma Q_conj k w : Q w -> Q (conj k w).
Proof.
  intros H. induction k as [|k IH]; [now rewrite conj_0 by apply H|].
  rewrite conj_S by apply H. now apply rc_NC, rc_NC.
Qed.
Lemma conj_n w : P w -> conj n w = w.
Proof. intros H. unfold conj. rewrite cpow_n, pinv_id, (pcomp_id_l n), (pcomp_id_r n); auto. Qed.
Lemma lc_NC w : Q w -> Q (cox ** pinv w).
Proof.
  intros H. assert (Hw : P w) by apply H. destruct (Nat.eq_dec n 0) as [N0|Hn].
  { split; [auto using isperm_pcomp, isperm_pinv, P_cox|]. intros i Hi. lia. }
  replace (cox ** pinv w) with (conj (n - 1) (pinv w ** cox)); [now apply Q_conj, rc_NC|].
  unfold conj. assert (A : pinv (cpow (n - 1)) = cox).
  { assert (B : cpow (n - 1) ** cox = identity n) by (rewrite cpow_r; replace (S (n - 1)) with n by lia; apply cpow_n).
    rewrite <- (pcomp_id_r n (pinv (cpow (n - 1)))) by auto using isperm_pinv, P_cpow. rewrite <- B.
    rewrite <- (pcomp_assoc n), (pcomp_pinv_l n), (pcomp_id_l n) by auto using isperm_pinv, P_cpow, P_cox. reflexivity. }
  rewrite A. assert (C : cox ** cpow (n - 1) = identity n).
  { change (cox ** cpow (n - 1)) with (cpow (S (n - 1))). replace (S (n - 1)) with n by lia. apply cpow_n. }
  rewrite !(pcomp_assoc n) by auto using isperm_pcomp, isperm_pinv, P_cpow, P_cox. rewrite C.
  rewrite (pcomp_id_r n) by auto using isperm_pinv. reflexivity.
Qed.
End NC.
