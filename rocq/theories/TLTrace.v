(** TLTrace.v – closing up a diagram: trace_count counts the loops of the
    closure, and the trace of a product does not depend on the order. *)
From Verif Require Import Base ModelTL SpecTL GlueTheory GlueWalk ComposeTheory TLTheory TLAlg TLAlg2 TLBasis TLCells PropsTL.
From Coq Require Import Relations Permutation.
Local Arguments Nat.ltb : simpl never.
Local Arguments Nat.sub : simpl never.

(** ** Specification: the closure of a matching of N points joins point i also
    with the point N-1-i vertically opposite. *)
Inductive closure_touches (s : list nat) : nat -> nat -> Prop :=
| closure_arc i : i < length s -> closure_touches s i (nth i s 0)
| closure_opposite i : i < length s -> closure_touches s i (length s - 1 - i).
Definition closure_joined (s : list nat) : nat -> nat -> Prop := clos_refl_sym_trans nat (closure_touches s).
(** [l] contains exactly one point of every loop of the closure *)
Definition closure_loops (s : list nat) (l : list nat) : Prop :=
  (forall k, In k l -> k < length s) /\ ForallOrdPairs (fun k k' => ~ closure_joined s k k') l /\
  (forall k, k < length s -> exists k', In k' l /\ closure_joined s k k').

(** ** The code computes it *)
Lemma nested_id N m : N = 2 * m -> rev (seq 0 N) = id_seq m.
Proof.
  intros ->. unfold id_seq. apply (nth_ext_len _ _ (2 * m) 0); rewrite ?rev_length, ?map_length, ?seq_length; try reflexivity.
  intros i Hi. rewrite rev_nth by (rewrite seq_length; exact Hi). rewrite seq_length, seq_nth by lia.
  rewrite nth_map_seq by exact Hi. lia.
Qed.
Lemma nested_length N : length (rev (seq 0 N)) = N. Proof. now rewrite rev_length, seq_length. Qed.
Lemma nested_nth N i : i < N -> nth i (rev (seq 0 N)) 0 = N - 1 - i.
Proof. intros H. rewrite rev_nth by (rewrite seq_length; exact H). rewrite seq_length, seq_nth by lia. lia. Qed.
Section TC.
Context (s : list nat) (C : crossingless s).
Local Notation N := (length s).
Local Notation ne := (rev (seq 0 (length s))).
Definition drop_pt (p : point) : nat := match p with Up i => i | Lo i => N - 1 - i end.
Lemma joined_closure1 p q : joined s ne N p q -> closure_joined s (drop_pt p) (drop_pt q).
Proof.
  intros J. induction J as [p q T| | |]; [|apply rst_refl|now apply rst_sym|eapply rst_trans; eassumption].
  destruct T as [i H|i H|k H]; cbn [drop_pt].
  - rewrite nested_length in H. rewrite nested_nth by exact H. replace (N - 1 - (N - 1 - i)) with i by lia. apply rst_sym, rst_step. now constructor.
  - apply rst_step. now constructor.
  - rewrite nested_length. replace (N - 1 - (N - 1 - k)) with k by lia. apply rst_refl.
Qed.
Lemma joined_closure2 i j : closure_joined s i j -> joined s ne N (Up i) (Up j).
Proof.
  intros J. induction J as [p q T| | |]; [|apply rst_refl|now apply rst_sym|eapply rst_trans; eassumption].
  destruct T as [i H|i H].
  - apply rst_step. now constructor.
  - apply rst_trans with (Lo (N - 1 - i)).
    + apply rst_sym, rst_step. pose proof (same_dot s ne N i H) as K. now rewrite nested_length in K.
    + apply rst_trans with (Lo i).
      * apply rst_step. pose proof (arc_lower s ne N (N - 1 - i)) as K. rewrite nested_length, nested_nth in K by lia. replace (N - 1 - (N - 1 - i)) with i in K by lia. apply K. lia.
      * apply rst_step. pose proof (same_dot s ne N (N - 1 - i)) as K. rewrite nested_length in K. replace (N - 1 - (N - 1 - i)) with i in K by lia. apply K. lia.
Qed.
Lemma loops_closure l : loops s ne N l <-> closure_loops s l.
Proof.
  unfold loops, closure_loops. rewrite nested_length, Nat.sub_diag. cbn [Nat.add].
  assert (J : forall k k', joined s ne N (Up k) (Up k') <-> closure_joined s k k') by (intros k k'; split; [apply (joined_closure1 (Up k) (Up k'))|apply joined_closure2]).
  split; intros [A [B D]]; (split; [|split]).
  - intros k Hk. now apply A.
  - clear - B J. induction B as [|k l F B IH]; constructor; [|exact IH]. rewrite Forall_forall in *. intros k' Hk'. rewrite <- J. auto.
  - intros k Hk. destruct (D k) as [k' [I K]]; [split; [exact Hk|]; intros i Hi; lia|]. exists k'. split; [exact I|now apply J].
  - intros k Hk. split; [auto|intros i Hi; lia].
  - clear - B J. induction B as [|k l F B IH]; constructor; [|exact IH]. rewrite Forall_forall in *. intros k' Hk'. rewrite J. auto.
  - intros k [Hk _]. destruct (D k Hk) as [k' [I K]]. exists k'. split; [exact I|now apply J].
Qed.
Theorem trace_count_ok : exists n, trace_count s = Ok n /\ (exists l, closure_loops s l) /\ forall l, closure_loops s l -> length l = n.
Proof.
  destruct (crossingless_even s C) as [m Hm].
  assert (Cn : crossingless ne) by (rewrite (nested_id N m Hm); apply crossingless_id).
  destruct (C29_compose s ne N C Cn) as [r [n [E [_ [Lr [_ [[l Hl] U]]]]]]]; [rewrite nested_length; lia|lia|].
  rewrite nested_length, Nat.sub_diag in Lr. destruct r; [|discriminate]. exists n. unfold trace_count. rewrite E. cbn [bind assert_]. split; [reflexivity|].
  split; [exists l; now apply loops_closure|]. intros l' Hl'. apply U. now apply loops_closure.
Qed.

(** the same as a gluing *)
Definition cD (i : nat) : Prop := i < N.
Definition cf (i : nat) : nat := nth i s 0.
Definition cgs (m : nat) : list (nat * nat) := map (fun i => (i, N - 1 - i)) (seq 0 m).
Lemma in_cgs m x y : In (x, y) (cgs m) <-> x < m /\ y = N - 1 - x.
Proof. unfold cgs. rewrite in_map_iff. split; [intros [k [E H]]; apply in_seq in H; injection E as <- <-; lia|intros [H ->]; exists x; split; [reflexivity|apply in_seq; lia]]. Qed.
Lemma cD_matching : matching cD cf.
Proof. intros i H. exact (crossingless_matched _ C i H). Qed.
Lemma cgood m : N = 2 * m -> good cD (cgs m).
Proof.
  intros Hm. split.
  - unfold ends, cgs. rewrite !map_map. cbn [fst snd]. rewrite map_id. apply NoDup_app_intro.
    + apply seq_NoDup.
    + assert (K : forall k a, a + k <= N -> NoDup (map (fun x => N - 1 - x) (seq a k))).
      { induction k as [|k IH]; intros a Ha; cbn [seq map]; [constructor|]. constructor; [|apply IH; lia].
        intros I. apply in_map_iff in I. destruct I as [j [E I]]. apply in_seq in I. lia. }
      apply K. lia.
    + intros x H K. apply in_seq in H. apply in_map_iff in K. destruct K as [y [<- K]]. apply in_seq in K. lia.
  - intros x H. apply in_ends in H. destruct H as [y [H|H]]; apply in_cgs in H; unfold cD; lia.
Qed.
Lemma c_no_bd m : N = 2 * m -> forall x, ~ bd cD (cgs m) x.
Proof.
  intros Hm x [H K]. unfold cD in H. apply K. apply in_ends. exists (N - 1 - x). destruct (Nat.lt_ge_cases x m); [left|right]; apply in_cgs; lia.
Qed.
Lemma c_conn m : N = 2 * m -> forall x y, conn cD cf (cgs m) x y <-> closure_joined s x y.
Proof.
  intros Hm x y. split; intros J; (induction J as [p q T| | |]; [|apply rst_refl|now apply rst_sym|eapply rst_trans; eassumption]).
  - destruct T as [[H ->]|H]; [apply rst_step; now constructor|]. apply in_cgs in H. destruct H as [H ->]. apply rst_step. constructor. lia.
  - destruct T as [i H|i H]; [exact (conn_f cD cf (cgs m) i H)|]. destruct (Nat.lt_ge_cases i m); [apply conn_g; apply in_cgs; lia|].
    apply conn_sym, conn_g. apply in_cgs. lia.
Qed.
Lemma c_reps m : N = 2 * m -> forall l, reps cD cf (cgs m) l -> closure_loops s l.
Proof.
  intros Hm l [A [B D]]. split; [|split].
  - intros k Hk. apply (A k Hk).
  - clear - B Hm. induction B as [|k l F B IH]; constructor; [|exact IH]. rewrite Forall_forall in *. intros k' Hk'. rewrite <- (c_conn m Hm). auto.
  - intros k Hk. destruct (D k) as [k' [I K]]; [split; [exact Hk|]; intros y By; now apply (c_no_bd m Hm) in By|]. exists k'. split; [exact I|now apply (c_conn m Hm)].
Qed.
Lemma trace_glued m n : N = 2 * m -> trace_count s = Ok n -> exists f', glued cD cf (cgs m) f' n.
Proof.
  intros Hm E. destruct (glued_exists Nat.eq_dec cD cf (cgs m) cD_matching (cgood m Hm)) as [f' [n' G]].
  destruct trace_count_ok as [n0 [E0 [_ U]]]. rewrite E in E0. injection E0 as <-.
  pose proof G as G'. destruct (gl_reps _ _ _ _ _ G') as [l [L R]]. apply (c_reps m Hm) in R. apply U in R. subst. exists f'. congruence.
Qed.
End TC.

(** ** tr(x y) = tr(y x) *)
Section Cyclic.
Context (x y : list nat) (n m : nat) (Cx : crossingless x) (Cy : crossingless y) (Lx : length x = n + m) (Ly : length y = n + m).
(** y below x along m points, then the closure *)
Definition ogs : list (point * point) := map (fun i => (Lo i, Up (length x - 1 - i))) (seq 0 n).
Lemma half_glued r k t : compose x y m = Ok (r, k) -> trace_count r = Ok t -> exists R, glued (pD x y) (pf x y) (pgs (length y) m ++ ogs) R (k + t).
Proof.
  intros E T. destruct (compose_ok x y m Cx Cy ltac:(lia) ltac:(lia)) as [r' [k' [E' [Lr [Cr G]]]]]. rewrite E in E'. injection E' as <- <-.
  assert (Hn : length r = 2 * n) by lia. destruct (trace_glued r Cr n t Hn T) as [f' Gt].
  set (phi := outer n m). set (bk := code n m).
  assert (HD : forall p, bd (pD x y) (pgs (length y) m) p <-> exists i, cD r i /\ p = phi i).
  { intros p. rewrite pbd by lia. unfold cD, phi, outer. split.
    - destruct p as [i|i]; intros H.
      + exists i. split; [lia|]. destruct (Nat.ltb_spec i n); [reflexivity|lia].
      + exists (i - m + n). split; [lia|]. destruct (Nat.ltb_spec (i - m + n) n); [lia|]. f_equal. lia.
    - intros [i [Hi ->]]. destruct (Nat.ltb_spec i n); lia. }
  assert (Hphi : length y - m = n) by lia.
  assert (inj : forall i j, cD r i -> cD r j -> phi i = phi j -> i = j) by (intros i j _ _; apply outer_inj).
  assert (Hf : forall i, cD r i -> read y m r (phi i) = phi (cf r i)).
  { intros i Hi. unfold phi. rewrite <- Hphi. apply (read_outer y m (length x)); unfold cD in Hi; lia. }
  assert (Hg : map (fun p => (phi (fst p), phi (snd p))) (cgs r n) = ogs).
  { unfold cgs, ogs. rewrite map_map. apply map_ext_in. intros i Hi. apply in_seq in Hi. cbn [fst snd]. unfold phi, outer.
    destruct (Nat.ltb_spec i n); [|lia]. destruct (Nat.ltb_spec (length r - 1 - i) n); [lia|]. f_equal. f_equal. lia. }
  pose proof (cD_matching r Cr) as Mr. pose proof (cgood r n Hn) as Gr.
  exists (fun p => phi (f' (bk p))).
  pose proof (good_relabel phi (cD r) (cgs r n) (bd (pD x y) (pgs (length y) m)) inj HD Gr) as Go. rewrite Hg in Go.
  assert (G2 : glued (bd (pD x y) (pgs (length y) m)) (read y m r) ogs (fun p => phi (f' (bk p))) t).
  { rewrite <- Hg. apply (glued_relabel phi (cD r) (cf r) (cgs r n) f' t); auto. intros i Hi. now apply (c_no_bd r n Hn) in Hi. }
  eapply glued_app; eauto.
  - apply pD_matching; now apply crossingless_matched.
  - apply pgood; lia.
Qed.
End Cyclic.
Theorem trace_cyclic x y n m r k r' k' t t' : crossingless x -> crossingless y -> length x = n + m -> length y = n + m ->
  compose x y m = Ok (r, k) -> compose y x n = Ok (r', k') -> trace_count r = Ok t -> trace_count r' = Ok t' -> k + t = k' + t'.
Proof.
  intros Cx Cy Lx Ly E E' T T'.
  destruct (half_glued x y n m Cx Cy Lx Ly r k t E T) as [R G].
  destruct (half_glued y x m n Cy Cx ltac:(lia) ltac:(lia) r' k' t' E' T') as [R' G'].
  set (sw := fun p => match p with Lo i => Up i | Up i => Lo i end).
  set (g' := pgs (length x) n ++ ogs y m) in *.
  assert (HD : forall p, pD x y p <-> exists q, pD y x q /\ p = sw q).
  { intros [i|i]; cbn; (split; [intros H|intros [[j|j] [K Q]]; cbn in *; try discriminate; injection Q as ->; exact K]); [now exists (Up i)|now exists (Lo i)]. }
  assert (Gg : good (pD y x) g').
  { split.
    - unfold g', ends, pgs, ogs. rewrite !map_app, !map_map. cbn [fst snd]. 
      assert (K : forall (c : nat -> point) h a l, (forall i j, c i = c j -> i = j) -> (forall i j, a <= i < a + l -> a <= j < a + l -> h i = h j -> i = j) -> NoDup (map (fun k => c (h k)) (seq a l))).
      { intros c h a l Hc. revert a. induction l as [|l IH]; intros a Hh; cbn [seq map]; constructor.
        - intros I. apply in_map_iff in I. destruct I as [j [Q I]]. apply in_seq in I. apply Hc in Q. apply Hh in Q; lia.
        - apply IH. intros i j Hi Hj. apply Hh; lia. }
      repeat apply NoDup_app_intro.
      + apply (K Lo (fun k => length x - 1 - k)); [congruence|intros; lia].
      + apply (K Lo (fun k => k)); [congruence|auto].
      + intros p H1 H2. apply in_map_iff in H1, H2. destruct H1 as [a [<- Ha]], H2 as [b [Q Hb]]. apply in_seq in Ha, Hb. injection Q as Q. lia.
      + apply (K Up (fun k => k)); [congruence|auto].
      + apply (K Up (fun k => length y - 1 - k)); [congruence|intros; lia].
      + intros p H1 H2. apply in_map_iff in H1, H2. destruct H1 as [a [<- Ha]], H2 as [b [Q Hb]]. apply in_seq in Ha, Hb. injection Q as Q. lia.
      + intros p H1 H2. apply in_app_iff in H1, H2. destruct H1 as [H1|H1], H2 as [H2|H2]; apply in_map_iff in H1, H2; destruct H1 as [a [<- Ha]], H2 as [b [Q Hb]]; discriminate.
    - intros p H. apply in_ends in H. unfold g' in H. destruct H as [q [H|H]]; apply in_app_iff in H; destruct H as [H|H]; unfold pgs, ogs in H; apply in_map_iff in H; destruct H as [k0 [Q H]]; apply in_seq in H; injection Q as Q1 Q2; subst; cbn; lia. }
  assert (G2 : glued (pD x y) (pf x y) (map (fun p => (sw (fst p), sw (snd p))) g') (fun p => sw (R' (sw p))) (k' + t')).
  { apply (glued_relabel sw (pD y x) (pf y x) g' R' (k' + t')); auto.
    - intros [i|i] [j|j] _ _; cbn; congruence.
    - intros [i|i] _; reflexivity.
    - apply pD_matching; now apply crossingless_matched.
    - intros [i|i] _; reflexivity. }
  assert (Nb : forall p, ~ bd (pD x y) (map (fun p => (sw (fst p), sw (snd p))) g') p).
  { intros p [Hp K]. apply K. apply in_ends. unfold g'. rewrite map_app. destruct p as [i|i]; cbn [pD] in Hp.
    - destruct (Nat.lt_ge_cases i n).
      + exists (Up (length x - 1 - i)). right. apply in_app_iff. left. apply in_map_iff. exists (Lo (length x - 1 - i), Up i). split; [reflexivity|]. apply in_map_iff. exists i. split; [reflexivity|apply in_seq; lia].
      + exists (Up (length y - 1 - i)). right. apply in_app_iff. right. apply in_map_iff. exists (Lo (length y - 1 - i), Up i). split; [reflexivity|]. apply in_map_iff. exists (length y - 1 - i). split; [f_equal; f_equal; lia|apply in_seq; lia].
    - destruct (Nat.lt_ge_cases i m).
      + exists (Lo (length y - 1 - i)). left. apply in_app_iff. right. apply in_map_iff. exists (Lo i, Up (length y - 1 - i)). split; [reflexivity|]. apply in_map_iff. exists i. split; [reflexivity|apply in_seq; lia].
      + exists (Lo (length x - 1 - i)). left. apply in_app_iff. left. apply in_map_iff. exists (Lo i, Up (length x - 1 - i)). split; [reflexivity|]. apply in_map_iff. exists (length x - 1 - i). split; [f_equal; f_equal; lia|apply in_seq; lia]. }
  assert (G3 : glued (pD x y) (pf x y) (pgs (length y) m ++ ogs x n) R (k' + t')).
  { eapply glued_ext; [| | | | |exact G2]; auto; try tauto.
    - intros p q H. apply in_map_iff in H. destruct H as [[p' q'] [Q H]]. injection Q as <- <-. cbn [fst snd]. unfold g' in H. rewrite !in_app_iff. apply in_app_iff in H. destruct H as [H|H]; apply in_map_iff in H; destruct H as [i [Q Hi]]; injection Q as <- <-; cbn [sw].
      + right. right. apply in_map_iff. exists i. auto.
      + right. left. apply in_map_iff. exists i. auto.
    - intros p q H. unfold g'. rewrite map_app, !in_app_iff. apply in_app_iff in H. destruct H as [H|H]; apply in_map_iff in H; destruct H as [i [Q Hi]]; injection Q as <- <-.
      + right. right. apply in_map_iff. exists (Lo i, Up (length y - 1 - i)). split; [reflexivity|]. apply in_map_iff. exists i. auto.
      + right. left. apply in_map_iff. exists (Lo (length x - 1 - i), Up i). split; [reflexivity|]. apply in_map_iff. exists i. auto.
    - intros p Hp. now apply Nb in Hp. }
  destruct (glued_unique _ _ _ _ _ _ _ G G3) as [Q _]. exact Q.
Qed.
