(** CycleTheory.v – correctness of the cycle loops of permutations.py. *)
From Verif Require Import Base ModelPerm PermTheory WeakOrder PermWords.
From Coq Require Import Permutation Sorted.

Section Cyc.
Variable n : nat.
Variable w : list nat.
Hypothesis Hw : isperm n w.
Notation f := (fun x => nth x w 0).
Definition it (k i : nat) : nat := Nat.iter k (fun x => nth x w 0) i.

Lemma Lw : length w = n. Proof. exact (isperm_length n w Hw). Qed.

Lemma it_lt k i : i < n -> it k i < n.
Proof. intros H. induction k; [exact H|]. cbn. now apply isperm_app_lt. Qed.
Lemma it_S k i : it (S k) i = f (it k i). Proof. reflexivity. Qed.
Lemma it_add j k i : it (j + k) i = it j (it k i).
Proof. induction j; [reflexivity|]. cbn [Nat.add]. now rewrite !it_S, IHj. Qed.
Lemma it_inj k i j : i < n -> j < n -> it k i = it k j -> i = j.
Proof.
  intros Hi Hj. induction k; intros E; [exact E|]. apply IHk. rewrite !it_S in E.
  apply (isperm_inj n w); auto using it_lt.
Qed.

Definition orb (m i : nat) : list nat := map (fun k => it k i) (seq 0 m).
(** [c] is the orbit of [i], listed from [i], of exact length m *)
Definition is_cycle (i : nat) (c : list nat) : Prop :=
  i < n /\ exists m, 0 < m /\ c = orb m i /\ it m i = i /\ NoDup c.

Lemma orb_length m i : length (orb m i) = m.
Proof. unfold orb. now rewrite map_length, seq_length. Qed.
Lemma orb_S m i : orb (S m) i = orb m i ++ [it m i].
Proof. unfold orb. rewrite seq_S, map_app. reflexivity. Qed.
Lemma in_orb m i x : In x (orb m i) <-> exists k, k < m /\ x = it k i.
Proof.
  unfold orb. rewrite in_map_iff. split.
  - intros [k [<- Hk]]. apply in_seq in Hk. exists k. split; [lia|reflexivity].
  - intros [k [Hk ->]]. exists k. split; [reflexivity|]. apply in_seq. lia.
Qed.

Definition marks (v v' : list bool) (c : list nat) : Prop :=
  length v' = n /\ forall x, nth x v' false = nth x v false || existsb (Nat.eqb x) c.

Lemma NoDup_bound (l : list nat) : NoDup l -> (forall x, In x l -> x < n) -> length l <= n.
Proof.
  intros ND H. rewrite <- (seq_length n 0). apply NoDup_incl_length; [exact ND|].
  intros x Hx. apply in_seq. apply H in Hx. lia.
Qed.

Lemma cycle_loop_ok fuel : forall i k v, i < n -> length v = n -> NoDup (orb (S k) i) -> fuel = n - k ->
  exists m v', k < m /\ cycle_loop w i fuel (it k i) (orb k i) v = Ok (orb m i, v') /\
    it m i = i /\ NoDup (orb m i) /\ marks v v' (map (fun j => it j i) (seq k (m - k))).
Proof.
  induction fuel as [|fuel IH]; intros i k v Hi Lv ND HF.
  - exfalso. pose proof (NoDup_bound _ ND) as B. rewrite orb_length in B.
    assert (forall x, In x (orb (S k) i) -> x < n) as K.
    { intros x Hx. apply in_orb in Hx. destruct Hx as [j [_ ->]]. now apply it_lt. }
    specialize (B K). lia.
  - cbn [cycle_loop]. pose proof (it_lt k i Hi) as Lk. pose proof Lw as Lw.
    rewrite set_ok by lia. cbn [bind]. rewrite (get_ok w _ 0) by lia. cbn [bind].
    change (nth (it k i) w 0) with (it (S k) i).
    set (v1 := upd v (it k i) true).
    assert (L1 : length v1 = n) by (unfold v1; now rewrite upd_length).
    assert (M1 : forall x, nth x v1 false = nth x v false || existsb (Nat.eqb x) [it k i]).
    { intros x. unfold v1. rewrite nth_upd. cbn [existsb]. rewrite orb_false_r, (Nat.eqb_sym x).
      destruct (Nat.eqb_spec (it k i) x) as [E|E]; cbn [andb]; [|now rewrite orb_false_r].
      destruct (Nat.ltb_spec (it k i) (length v)); [now rewrite orb_true_r|lia]. }
    rewrite <- orb_S. destruct (Nat.eqb_spec (it (S k) i) i) as [E|E].
    + exists (S k), v1. split; [lia|]. split; [reflexivity|]. split; [exact E|]. split; [exact ND|].
      split; [exact L1|]. replace (S k - k) with 1 by lia. exact M1.
    + destruct (IH i (S k) v1) as [m [v' [Hm [E1 [E2 [E3 [E4 E5]]]]]]]; auto; [|lia|].
      * rewrite orb_S. apply NoDup_app_intro; [exact ND|repeat constructor; intros []|].
        intros x Hx [<-|[]]. apply in_orb in Hx. destruct Hx as [j [Hj Ej]].
        destruct j as [|j]; [now apply E|]. rewrite !it_S in Ej.
        apply (isperm_inj n w) in Ej; auto using it_lt.
        assert (K : nth k (orb (S k) i) 0 = nth j (orb (S k) i) 0).
        { unfold orb. rewrite !(nth_map_seq (fun k => it k i)) by lia. exact Ej. }
        apply (proj1 (NoDup_nth _ 0) ND) in K; rewrite ?orb_length; lia.
      * exists m, v'. split; [lia|]. split; [exact E1|]. split; [exact E2|]. split; [exact E3|]. split; [exact E4|].
        intros x. rewrite E5, M1. replace (m - k) with (S (m - S k)) by lia. cbn [seq map existsb].
        rewrite orb_false_r. now rewrite <- orb_assoc.
Qed.

Lemma cycle_closed i c x : is_cycle i c -> In x c -> In (f x) c.
Proof.
  intros [Hi [m [Hm [-> [E ND]]]]] Hx. apply in_orb in Hx. destruct Hx as [k [Hk ->]]. apply in_orb.
  destruct (Nat.eq_dec (S k) m) as [<-|N].
  - exists 0. split; [lia|]. exact E.
  - exists (S k). split; [lia|reflexivity].
Qed.
Lemma cycle_closed_inv i c x : is_cycle i c -> x < n -> In (f x) c -> In x c.
Proof.
  intros [Hi [m [Hm [-> [E ND]]]]] Lx Hx. apply in_orb in Hx. destruct Hx as [k [Hk Ek]]. apply in_orb.
  destruct k as [|k].
  - exists (m - 1). split; [lia|]. apply (isperm_inj n w); auto using it_lt.
    cbn in Ek. rewrite Ek. rewrite <- E at 1. replace m with (S (m - 1)) at 1 by lia. reflexivity.
  - exists k. split; [lia|]. apply (isperm_inj n w); auto using it_lt.
Qed.
Lemma cycle_it i c k x : is_cycle i c -> In x c -> In (it k x) c.
Proof. intros H Hx. induction k; [exact Hx|]. rewrite it_S. now apply (cycle_closed i). Qed.
Lemma cycle_it_inv i c k x : is_cycle i c -> x < n -> In (it k x) c -> In x c.
Proof.
  intros H Lx. induction k; intros Hx; [exact Hx|]. apply IHk. rewrite it_S in Hx.
  apply (cycle_closed_inv i); auto using it_lt.
Qed.

(** invariant of the outer loop *)
Definition inv (t : nat) (cycles : list (list nat)) (v : list bool) : Prop :=
  length v = n /\
  (forall x, nth x v false = existsb (Nat.eqb x) (concat cycles)) /\
  NoDup (concat cycles) /\
  (forall x, x < t -> In x (concat cycles)) /\
  (forall c, In c cycles -> exists i, i < t /\ is_cycle i c /\ forall x, In x c -> i <= x) /\
  StronglySorted (fun c c' => hd 0 c < hd 0 c') cycles.

Definition dstep := fun '((cycles, visited) : list (list nat) * list bool) (i : nat) =>
  v <- get visited i ;;
  if (v : bool) then Ok (cycles, visited)
  else
    '(cycle, visited') <- cycle_loop w i (length w) i [] visited ;;
    Ok (cycles ++ [cycle], visited').

Lemma inb x l : existsb (Nat.eqb x) l = true <-> In x l.
Proof.
  rewrite existsb_exists. split; [intros [y [H E]]; apply Nat.eqb_eq in E; now subst|].
  intros H. exists x. split; [exact H|apply Nat.eqb_refl].
Qed.

Lemma SS_snoc {A} (R : A -> A -> Prop) l x : StronglySorted R l -> Forall (fun y => R y x) l -> StronglySorted R (l ++ [x]).
Proof.
  induction 1 as [|y l S IH F]; intros H; cbn.
  - repeat constructor.
  - inversion H; subst. constructor; [now apply IH|]. apply Forall_app. split; [exact F|]. now constructor.
Qed.

Lemma is_cycle_hd i c : is_cycle i c -> hd 0 c = i.
Proof. intros [_ [m [Hm [-> _]]]]. destruct m; [lia|]. reflexivity. Qed.

Lemma dstep_ok t cycles v : t < n -> inv t cycles v -> exists cycles' v', dstep (cycles, v) t = Ok (cycles', v') /\ inv (S t) cycles' v'.
Proof.
  intros Ht [Lv [Hv [ND [Hall [Hc HS]]]]]. cbn [dstep]. rewrite (get_ok v t false) by lia. cbn [bind].
  rewrite Hv. destruct (existsb (Nat.eqb t) (concat cycles)) eqn:Et.
  - apply inb in Et. exists cycles, v. split; [reflexivity|]. repeat split; auto.
    + intros x Hx. destruct (Nat.eq_dec x t) as [->|N]; [exact Et|]. apply Hall. lia.
    + intros c HHc. destruct (Hc c HHc) as [i [Hi K]]. exists i. split; [lia|exact K].
  - assert (Nt : ~ In t (concat cycles)).
    { intros K. apply inb in K. congruence. }
    destruct (cycle_loop_ok n t 0 v) as [m [v' [Hm [E1 [E2 [E3 [E4 E5]]]]]]]; auto; try lia.
    { cbn. repeat constructor. intros []. }
    rewrite Lw. change (it 0 t) with t in E1. change (orb 0 t) with (@nil nat) in E1. rewrite E1. cbn [bind].
    exists (cycles ++ [orb m t]), v'. split; [reflexivity|].
    replace (m - 0) with m in E5 by lia.
    assert (Cy : is_cycle t (orb m t)).
    { split; [exact Ht|]. exists m. auto. }
    assert (Dis : forall x, In x (orb m t) -> ~ In x (concat cycles)).
    { intros x Hx K. apply in_concat in K. destruct K as [c [Hcc Hxc]].
      destruct (Hc c Hcc) as [i [Hi [Ci _]]]. apply in_orb in Hx. destruct Hx as [k [Hk ->]].
      apply Nt. apply in_concat. exists c. split; [exact Hcc|]. now apply (cycle_it_inv i c k). }
    assert (CC : concat (cycles ++ [orb m t]) = concat cycles ++ orb m t).
    { rewrite concat_app. cbn. now rewrite app_nil_r. }
    split; [exact E4|]. split; [|split; [|split; [|split]]].
    + intros x. rewrite E5, Hv, CC, existsb_app. reflexivity.
    + rewrite CC. apply NoDup_app_intro; auto. intros x H1 H2. now apply (Dis x).
    + intros x Hx. rewrite CC. apply in_app_iff. destruct (Nat.eq_dec x t) as [->|N].
      * right. apply in_orb. exists 0. split; [lia|reflexivity].
      * left. apply Hall. lia.
    + intros c Hcc. apply in_app_iff in Hcc. destruct Hcc as [Hcc|[<-|[]]].
      * destruct (Hc c Hcc) as [i [Hi K]]. exists i. split; [lia|exact K].
      * exists t. split; [lia|]. split; [exact Cy|]. intros x Hx.
        destruct (le_lt_dec t x) as [L|L]; [exact L|]. exfalso. apply (Dis x Hx). now apply Hall.
    + apply SS_snoc; [exact HS|]. apply Forall_forall. intros c Hcc. destruct (Hc c Hcc) as [i [Hi [Ci _]]].
      rewrite (is_cycle_hd i c Ci), (is_cycle_hd t _ Cy). exact Hi.
Qed.

Theorem disjoint_cycles_ok : exists cycles, disjoint_cycles w = Ok cycles /\
  Permutation (concat cycles) (seq 0 n) /\
  (forall c, In c cycles -> exists i, is_cycle i c /\ forall x, In x c -> i <= x) /\
  StronglySorted (fun c c' => hd 0 c < hd 0 c') cycles.
Proof.
  assert (K : forall k t st, k + t = n -> inv t (fst st) (snd st) -> exists st', foldM dstep (seq t k) st = Ok st' /\ inv n (fst st') (snd st')).
  { induction k as [|k IH]; intros t st Hk HI; cbn [seq foldM].
    - exists st. replace t with n in HI by lia. auto.
    - destruct st as [cs v]. destruct (dstep_ok t cs v ltac:(lia) HI) as [cs' [v' [E HI']]]. rewrite E. cbn [bind].
      apply IH; [lia|exact HI']. }
  destruct (K n 0 ([], repeat false n)) as [[cs v] [E [_ [_ [ND [HA [HC HS]]]]]]]; [lia| |].
  { cbn. split; [apply repeat_length|]. split; [|split; [constructor|split; [intros x Hx; lia|split; [intros c []|constructor]]]].
    intros x. destruct (lt_dec x n); [now rewrite nth_repeat|]. now rewrite nth_overflow by (rewrite repeat_length; lia). }
  exists cs. split; [|split; [|split; [|exact HS]]].
  - unfold disjoint_cycles. rewrite <- Lw in E. match goal with |- bind ?X _ = _ => change X with (foldM dstep (seq 0 (length w)) ([], repeat false (length w))) end. rewrite E. reflexivity.
  - apply NoDup_Permutation_bis; auto using seq_NoDup.
    + rewrite seq_length. rewrite <- (seq_length n 0). apply NoDup_incl_length; [apply seq_NoDup|].
      intros x Hx. apply in_seq in Hx. apply HA. lia.
    + intros x Hx. cbn [fst] in *. apply in_concat in Hx. destruct Hx as [c [Hc Hx]]. destruct (HC c Hc) as [i [_ [Ci _]]].
      destruct Ci as [Hi [m [_ [-> _]]]]. apply in_orb in Hx. destruct Hx as [k [_ ->]]. apply in_seq. pose proof (it_lt k i Hi). lia.
  - intros c Hc. destruct (HC c Hc) as [i [_ K']]. eauto.
Qed.

(** cycle_type runs the same loop *)
Lemma length_loop_cycle i fuel : forall pos cyc len v, len = length cyc ->
  length_loop w i fuel pos len v =
  ('(c, v') <- cycle_loop w i fuel pos cyc v ;; Ok (length c, v')).
Proof.
  induction fuel as [|fuel IH]; intros pos cyc len v E; [reflexivity|]. cbn [length_loop cycle_loop].
  destruct (set_ v pos true); [|reflexivity]. cbn [bind]. destruct (get w pos) as [pos'|]; [|reflexivity]. cbn [bind].
  destruct (pos' =? i).
  - cbn [bind]. rewrite app_length, E. reflexivity.
  - apply IH. rewrite app_length, E. reflexivity.
Qed.
Lemma cycle_type_cycles cycles : disjoint_cycles w = Ok cycles -> cycle_type w = Ok (sorted geb (map (@length nat) cycles)).
Proof.
  unfold disjoint_cycles, cycle_type.
  assert (K : forall l cs v, foldM (fun '(lengths, visited) i =>
      v <- get visited i ;;
      if (v : bool) then Ok (lengths, visited)
      else '(len, visited') <- length_loop w i (length w) i 0 visited ;; Ok (lengths ++ [len], visited')) l (map (@length nat) cs, v) =
    ('(cs', v') <- foldM dstep l (cs, v) ;; Ok (map (@length nat) cs', v'))).
  { induction l as [|i l IH]; intros cs v; [reflexivity|]. cbn [foldM dstep]. destruct (get v i) as [b|]; [|reflexivity]. cbn [bind].
    destruct b; [apply IH|]. rewrite (length_loop_cycle i (length w) i [] 0 v eq_refl).
    destruct (cycle_loop w i (length w) i [] v) as [[c v']|]; [|reflexivity]. cbn [bind].
    rewrite <- IH. now rewrite map_app. }
  specialize (K (seq 0 (length w)) [] (repeat false (length w))). cbn [map] in K. rewrite K.
  change (('(cs, _) <- foldM dstep (seq 0 (length w)) ([], repeat false (length w)) ;; Ok cs) = Ok cycles ->
    ('(ls, _) <- ('(cs', v') <- foldM dstep (seq 0 (length w)) ([], repeat false (length w)) ;; Ok (map (@length nat) cs', v')) ;; Ok (sorted geb ls)) = Ok (sorted geb (map (@length nat) cycles))).
  destruct (foldM dstep (seq 0 (length w)) ([], repeat false (length w))) as [[cs v]|]; cbn [bind]; [|discriminate].
  intros E. injection E as <-. reflexivity.
Qed.
End Cyc.

Lemma insert_perm leb x l : Permutation (insert leb x l) (x :: l).
Proof.
  induction l as [|y l IH]; [reflexivity|]. cbn. destruct (leb x y); [reflexivity|].
  etransitivity; [apply perm_skip, IH|]. apply perm_swap.
Qed.
Lemma sorted_perm leb l : Permutation (sorted leb l) l.
Proof.
  induction l as [|x l IH]; [reflexivity|]. cbn. etransitivity; [apply insert_perm|]. now apply perm_skip.
Qed.
Lemma sorted_sorted leb (R : nat -> nat -> Prop) l :
  (forall x y, leb x y = true -> R x y) -> (forall x y, leb x y = false -> R y x) ->
  (forall x y z, R x y -> R y z -> R x z) -> StronglySorted R (sorted leb l).
Proof.
  intros H1 H2 HT. induction l as [|x l IH]; [constructor|]. cbn. fold (sorted leb l).
  induction IH as [|y s S IHs F]; cbn; [repeat constructor|].
  destruct (leb x y) eqn:E.
  - constructor; [now constructor|]. constructor; [now apply H1|]. eapply Forall_impl; [|exact F]. intros z. apply HT. now apply H1.
  - constructor; [exact IHs|]. apply H2 in E.
    apply Forall_forall. intros z Hz. apply (Permutation_in _ (insert_perm leb x s)) in Hz. destruct Hz as [<-|Hz]; [exact E|].
    rewrite Forall_forall in F. now apply F.
Qed.
