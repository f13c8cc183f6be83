(** SampleTheory.v – reservoir sampling: counting the outcomes of a sequence of
    independent draws. *)
From Verif Require Import Base.
Local Open Scope nat_scope.

Definition count {W} (p : W -> bool) (l : list W) : nat := length (filter p l).
Lemma count_app {W} (p : W -> bool) l l' : count p (l ++ l') = count p l + count p l'.
Proof. unfold count. now rewrite filter_app, app_length. Qed.
Lemma count_map {V W} (f : V -> W) p l : count p (map f l) = count (fun v => p (f v)) l.
Proof. unfold count. induction l as [|x l IH]; cbn; [reflexivity|]. destruct (p (f x)); cbn; now rewrite IH. Qed.
Lemma count_ext {W} (p q : W -> bool) l : (forall x, In x l -> p x = q x) -> count p l = count q l.
Proof. intros H. unfold count. f_equal. apply filter_ext_in. exact H. Qed.
Lemma count_le {W} (p : W -> bool) l : count p l <= length l.
Proof. unfold count. induction l as [|x l IH]; cbn; [lia|]. destruct (p x); cbn; lia. Qed.
Lemma count_not {W} (p : W -> bool) l : count (fun x => negb (p x)) l + count p l = length l.
Proof. unfold count. induction l as [|x l IH]; cbn; [reflexivity|]. destruct (p x); cbn; lia. Qed.
Lemma count_false {W} (p : W -> bool) l : (forall x, In x l -> p x = false) -> count p l = 0.
Proof. intros H. unfold count. induction l as [|x l IH]; cbn; [reflexivity|]. rewrite (H x) by now left. apply IH. intros y Hy. apply H. now right. Qed.
Lemma count_true {W} (p : W -> bool) l : (forall x, In x l -> p x = true) -> count p l = length l.
Proof. intros H. unfold count. induction l as [|x l IH]; cbn; [reflexivity|]. rewrite (H x) by now left. cbn. f_equal. apply IH. intros y Hy. apply H. now right. Qed.

Lemma NoDup_app_l {W} (l l' : list W) : NoDup (l ++ l') -> NoDup l.
Proof. induction l as [|x l IH]; cbn; intros H; constructor; inversion H as [|? ? H1 H2]; subst; [|now apply IH]. intros C. apply H1, in_app_iff. now left. Qed.
Section Draws.
Context {W : Type} (choices : nat -> list W).
(** all sequences of k draws, the draw at step t from [choices t], t = s, s+1, ... *)
Fixpoint sequences (s k : nat) : list (list W) :=
  match k with 0 => [[]] | S k' => flat_map (fun ws => map (fun w => ws ++ [w]) (choices (s + k'))) (sequences s k') end.
Lemma in_sequences s k ws : In ws (sequences s k) <-> length ws = k /\ forall i w, nth_error ws i = Some w -> In w (choices (s + i)).
Proof.
  revert ws; induction k as [|k IH]; intros ws; cbn [sequences].
  - split; [intros [<-|[]]; split; [reflexivity|intros [|i]; discriminate]|]. intros [L _]. destruct ws; [now left|discriminate].
  - rewrite in_flat_map. split.
    + intros [us [Hu H]]. apply in_map_iff in H. destruct H as [w [<- Hw]]. apply IH in Hu. destruct Hu as [L Hu]. split; [rewrite app_length; cbn; lia|].
      intros i v Hv. destruct (Nat.lt_ge_cases i (length us)) as [Hi|Hi]; [rewrite nth_error_app1 in Hv by exact Hi; now apply Hu|].
      rewrite nth_error_app2 in Hv by exact Hi. destruct (i - length us) as [|m] eqn:E; cbn in Hv; [|destruct m; discriminate]. injection Hv as <-. replace i with k by lia. exact Hw.
    + intros [L H]. destruct (exists_last (l := ws)) as [us [w ->]]; [intros ->; discriminate|]. rewrite app_length in L. cbn in L. exists us. split.
      * apply IH. split; [lia|]. intros i v Hv. apply H. rewrite nth_error_app1; [exact Hv|]. apply nth_error_Some. congruence.
      * apply in_map_iff. exists w. split; [reflexivity|]. replace k with (length us) by lia. apply H. rewrite nth_error_app2, Nat.sub_diag by lia. reflexivity.
Qed.
Lemma NoDup_sequences s k : (forall t, NoDup (choices t)) -> NoDup (sequences s k).
Proof.
  intros ND. induction k as [|k IH]; cbn [sequences]; [constructor; [intros []|constructor]|].
  induction IH as [|ws l N IHl IH']; cbn [flat_map]; [constructor|]. apply NoDup_app_intro.
  - clear - ND. specialize (ND (s + k)). induction ND as [|w l H ND IH]; cbn; constructor; [|exact IH]. intros C. apply in_map_iff in C. destruct C as [v [E Hv]]. apply app_inj_tail in E. destruct E as [_ ->]. contradiction.
  - exact IH'.
  - intros us H1 H2. apply in_map_iff in H1. destruct H1 as [w [<- _]]. apply in_flat_map in H2. destruct H2 as [vs [Hv H2]]. apply in_map_iff in H2. destruct H2 as [v [E _]]. apply app_inj_tail in E. destruct E as [-> _]. contradiction.
Qed.
Lemma sequences_succ s k : length (sequences s (S k)) = length (sequences s k) * length (choices (s + k)).
Proof. cbn [sequences]. induction (sequences s k) as [|ws l IH]; cbn [flat_map length]; [reflexivity|]. rewrite app_length, map_length, IH. lia. Qed.
Lemma count_sequences s k p a (q : list W -> bool) : (forall ws, In ws (sequences s k) -> count (fun w => p (ws ++ [w])) (choices (s + k)) = if q ws then a else 0) ->
  count p (sequences s (S k)) = a * count q (sequences s k).
Proof.
  cbn [sequences]. induction (sequences s k) as [|ws l IH]; intros H; cbn [flat_map]; [unfold count; cbn; lia|]. rewrite count_app, count_map, IH by (intros us Hu; apply H; now right).
  rewrite (H ws) by now left. unfold count. cbn [filter]. destruct (q ws); cbn [length]; lia.
Qed.

(** the reservoir: at step t the draw w says which position is replaced by the new element *)
Context {A : Type} (dec : forall a b : A, {a = b} + {a <> b}) (decide : nat -> W -> option nat).
Definition put (t : nat) (items : list A) (x : A) (w : W) : list A := match decide t w with Some i => upd items i x | None => items end.
Fixpoint replay (t : nat) (items xs : list A) (ws : list W) : list A :=
  match xs, ws with x :: xs', w :: ws' => replay (S t) (put t items x w) xs' ws' | _, _ => items end.
Lemma replay_snoc t items xs x ws w : length xs = length ws -> replay t items (xs ++ [x]) (ws ++ [w]) = put (t + length xs) (replay t items xs ws) x w.
Proof.
  revert t items ws. induction xs as [|y xs IH]; intros t items [|v ws] L; cbn in L; try discriminate; cbn [app replay length]; [now rewrite Nat.add_0_r|].
  rewrite IH by lia. f_equal. lia.
Qed.
Lemma put_length t items x w : length (put t items x w) = length items.
Proof. unfold put. destruct (decide t w); [apply upd_length|reflexivity]. Qed.
Lemma replay_length xs : forall t items ws, length (replay t items xs ws) = length items.
Proof. induction xs as [|x xs IH]; intros t items [|w ws]; cbn [replay]; auto. now rewrite IH, put_length. Qed.
Lemma in_upd (l : list A) i x y : In y (upd l i x) -> y = x \/ In y l.
Proof. revert i. induction l as [|z l IH]; intros [|i]; cbn; auto; intros [<-|C]; auto. destruct (IH _ C); auto. Qed.
Lemma replay_incl xs : forall t items ws y, In y (replay t items xs ws) -> In y (items ++ xs).
Proof.
  induction xs as [|x xs IH]; intros t items ws y; cbn [replay]; [now rewrite app_nil_r|]. destruct ws as [|w ws]; [intros H; apply in_app_iff; now left|]. intros H. apply IH in H. apply in_app_iff in H. apply in_app_iff.
  destruct H as [H|H]; [|right; now right]. unfold put in H. destruct (decide t w) as [i|]; [|auto]. apply in_upd in H. destruct H as [->|H]; [right; now left|now left].
Qed.
Lemma upd_NoDup (l : list A) i x : NoDup l -> ~ In x l -> NoDup (upd l i x).
Proof.
  intros N. revert i. induction N as [|y l Hy N IH]; intros [|i] Hx; cbn [upd]; try constructor; auto; try (intros C; apply Hx; now right).
  - intros C. apply in_upd in C. rename C into K.
    destruct K as [->|K]; [apply Hx; now left|contradiction].
  - apply IH. intros C. apply Hx. now right.
Qed.
Lemma replay_NoDup xs : forall t items ws, NoDup (items ++ xs) -> NoDup (replay t items xs ws).
Proof.
  induction xs as [|x xs IH]; intros t items ws N; cbn [replay]; [now rewrite app_nil_r in N|]. destruct ws as [|w ws]; [eapply NoDup_app_l; exact N|]. apply IH.
  assert (N2 : NoDup (items ++ xs)) by (apply NoDup_remove_1 in N; exact N). pose proof (NoDup_remove_2 _ _ _ N) as Nx. unfold put. destruct (decide t w) as [i|]; [|exact N2].
  apply NoDup_app_intro.
  - apply upd_NoDup; [eapply NoDup_app_l; exact N2|]. intros C. apply Nx, in_app_iff. now left.
  - clear - N2. induction items as [|z items IHi]; [exact N2|]. inversion N2; auto.
  - intros y H1 H2. pose proof (in_upd _ _ _ _ H1) as K.
    destruct K as [->|K]; [apply Nx, in_app_iff; now right|]. clear - N2 K H2. induction items as [|z items IHi]; [destruct K|]. cbn in N2. inversion N2 as [|? ? Hz N3]; subst. destruct K as [->|K]; [apply Hz, in_app_iff; now right|now apply IHi].
Qed.
Definition kept (x : A) (l : list A) : bool := if in_dec dec x l then true else false.
Lemma kept_upd_new l i x : i < length l -> kept x (upd l i x) = true.
Proof. intros H. unfold kept. destruct (in_dec dec x (upd l i x)) as [|N]; [reflexivity|]. elim N. rewrite <- (nth_upd_eq l i x x H) at 1. apply nth_In. now rewrite upd_length. Qed.
Lemma kept_in x l : kept x l = true <-> In x l.
Proof. unfold kept. destruct (in_dec dec x l); split; auto; discriminate. Qed.
Lemma in_upd_old (l : list A) : NoDup l -> forall i x y, x <> y -> i < length l -> (In y (upd l i x) <-> In y l /\ nth i l x <> y).
Proof.
  intros N. induction N as [|z l Hz N IH]; intros i x y NE Hi; [cbn in Hi; lia|]. destruct i as [|i]; cbn [upd nth length In] in *.
  - split; [intros [E|H]; [congruence|]; split; [auto|]; intros ->; contradiction|]. intros [[E|H] E']; [contradiction|auto].
  - rewrite IH by (auto; lia). split; [intros [->|[H1 H2]]; split; auto|].
    + intros <-. apply Hz, nth_In. lia.
    + intros [[E|H] H2]; auto.
Qed.
Lemma kept_upd_old l i x y : NoDup l -> x <> y -> i < length l -> kept y (upd l i x) = kept y l && negb (if dec (nth i l x) y then true else false).
Proof.
  intros N NE Hi. apply eq_true_iff_eq. rewrite andb_true_iff, negb_true_iff, !kept_in, (in_upd_old l N i x y NE Hi). destruct (dec (nth i l x) y); split; intros [H1 H2]; split; auto; try discriminate; contradiction.
Qed.

(** the draws are fair: every position is chosen equally often, and the chance of
    being placed at step t is c / t *)
Definition fair (c t : nat) : Prop :=
  exists e, e * t = length (choices t) /\ (forall i, i < c -> count (fun w => match decide t w with Some j => Nat.eqb i j | None => false end) (choices t) = e) /\
    forall w j, In w (choices t) -> decide t w = Some j -> j < c.
Lemma count_any c t e : (forall i, i < c -> count (fun w => match decide t w with Some j => Nat.eqb i j | None => false end) (choices t) = e) ->
  (forall w j, In w (choices t) -> decide t w = Some j -> j < c) -> count (fun w => match decide t w with Some _ => true | None => false end) (choices t) = c * e.
Proof.
  generalize (choices t) as l. intros l H R.
  assert (G : forall c', c' <= c -> count (fun w => match decide t w with Some j => j <? c' | None => false end) l = c' * e).
  { induction c' as [|c' IH]; intros Hc; [apply count_false; intros w _; destruct (decide t w); reflexivity|]. cbn [Nat.mul]. rewrite <- (IH ltac:(lia)). rewrite <- (H c') by lia. clear.
    unfold count. induction l as [|w l IHl]; cbn [filter length]; [reflexivity|]. destruct (decide t w) as [j|]; [|exact IHl].
    destruct (Nat.ltb_spec j (S c')), (Nat.eqb_spec c' j), (Nat.ltb_spec j c'); try lia; cbn [length]; lia. }
  rewrite <- (G c) by lia. apply count_ext. intros w Hw. destruct (decide t w) as [j|] eqn:E; [|reflexivity]. symmetry. apply Nat.ltb_lt. eapply R; eassumption.
Qed.
Theorem replay_uniform c items xs : 1 <= c -> length items = c -> NoDup (items ++ xs) -> (forall t, c < t <= c + length xs -> fair c t) ->
  forall x, In x (items ++ xs) -> count (fun ws => kept x (replay (S c) items xs ws)) (sequences (S c) (length xs)) * (c + length xs) = length (sequences (S c) (length xs)) * c.
Proof.
  intros Hc Li. induction xs as [|y xs IH] using rev_ind; intros N F x Hx.
  - cbn [sequences length]. unfold count. cbn [filter replay]. rewrite app_nil_r in Hx. unfold kept. destruct (in_dec dec x items); [cbn; lia|contradiction].
  - rewrite app_assoc in N. pose proof (NoDup_remove_1 _ _ _ N) as N1. rewrite app_nil_r in N1. pose proof (NoDup_remove_2 _ _ _ N) as N2. rewrite app_nil_r in N2.
    rewrite app_length. cbn [length]. rewrite Nat.add_1_r. rewrite sequences_succ. destruct (F (S c + length xs)) as [e [E1 [E2 E3]]]; [rewrite app_length; cbn; lia|].
    destruct (dec x y) as [->|NE].
    + rewrite (count_sequences _ _ _ (c * e) (fun _ => true)).
      * rewrite (count_true (fun _ => true)) by auto. rewrite <- E1. nia.
      * intros ws Hw. apply in_sequences in Hw. destruct Hw as [Lw _]. cbv iota. rewrite <- (count_any c _ e E2 E3). apply count_ext. intros w Hw. rewrite replay_snoc by lia. unfold put.
        destruct (decide (S c + length xs) w) as [j|] eqn:Ed.
        -- apply kept_upd_new. rewrite replay_length. rewrite Li. eapply E3; eassumption.
        -- unfold kept. destruct (in_dec dec y (replay (S c) items xs ws)) as [C|C]; [|reflexivity]. apply replay_incl in C. contradiction.
    + assert (Hx' : In x (items ++ xs)). { rewrite app_assoc in Hx. apply in_app_iff in Hx. destruct Hx as [Hx|[Hx|[]]]; [exact Hx|congruence]. }
      rewrite (count_sequences _ _ _ (length (choices (S c + length xs)) - e) (fun ws => kept x (replay (S c) items xs ws))).
      * specialize (IH N1 (fun t Ht => F t ltac:(rewrite app_length; cbn; lia)) x Hx'). rewrite <- E1.
        replace (e * (S c + length xs) - e) with (e * (c + length xs)) by nia. nia.
      * intros ws Hw. apply in_sequences in Hw. destruct Hw as [Lw _]. set (l := replay (S c) items xs ws). assert (Ll : length l = c) by (unfold l; now rewrite replay_length). assert (Nl : NoDup l) by now apply replay_NoDup.
        assert (STEP : forall w, In w (choices (S c + length xs)) -> kept x (replay (S c) items (xs ++ [y]) (ws ++ [w])) = kept x l && negb (match decide (S c + length xs) w with Some j => if dec (nth j l y) x then true else false | None => false end)).
        { intros w Hw. rewrite replay_snoc by lia. fold l. unfold put. destruct (decide (S c + length xs) w) as [j|] eqn:Ed; [|now rewrite andb_true_r]. apply kept_upd_old; auto. rewrite Ll. eapply E3; eassumption. }
        rewrite (count_ext _ _ _ STEP). destruct (kept x l) eqn:K; cbn [andb]; [|now apply count_false].
        unfold kept in K. destruct (in_dec dec x l) as [I0|]; [|discriminate]. destruct (In_nth l x y I0) as [q [Hq Eq]].
        assert (ONE : count (fun w => match decide (S c + length xs) w with Some j => if dec (nth j l y) x then true else false | None => false end) (choices (S c + length xs)) = e).
        { rewrite <- (E2 q) by lia. apply count_ext. intros w Hw. destruct (decide (S c + length xs) w) as [j|] eqn:Ed; [|reflexivity]. pose proof (E3 _ _ Hw Ed) as Hj. destruct (dec (nth j l y) x) as [E|E], (Nat.eqb_spec q j) as [->|Nq]; try reflexivity; [|contradiction].
          elim Nq. apply (NoDup_nth l y); auto; [lia|]. congruence. }
        pose proof (count_not (fun w => match decide (S c + length xs) w with Some j => if dec (nth j l y) x then true else false | None => false end) (choices (S c + length xs))) as CN. lia.
Qed.
End Draws.
