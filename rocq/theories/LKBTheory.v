(** LKBTheory.v – the generators of LKBRep as linear operators, and their relations. *)
From Verif Require Import Base ModelPoly SpecPoly PolyTheory PolyDiv EvalTheory PropsPoly NumTheory ModelMatrix SpecMatrix MatrixTheory PropsMatrix ModelTL TLCells ModelTLMor PropsTLMor2 JonesTheory ModelRep SpecRep RepTheory RepCanon PropsRep ModelLKB.
From Coq Require Import Ring Setoid Morphisms.
Local Open Scope nat_scope.

Section Op.
Variables (q t : lpoly).
Definition qw (s i : nat) : lpoly := lpn q (s - i).
(** the image of the basis vector (i, j) under generator s, paired with F *)
Definition op (s : nat) (F : nat -> nat -> lpoly) (i j : nat) : lpoly :=
  if (i =? s) && (j =? s + 1) then lmul (lmul (lmul t q) q) (F i j)
  else if (i <? s) && (j =? s) then ladd (lmul (lsub (lint 1) q) (F i j)) (lmul q (F i (j + 1)))
  else if (i <? s) && (j =? s + 1) then ladd (F i (j - 1)) (lmul (lmul (lmul t (qw j i)) (lsub q (lint 1))) (F (j - 1) j))
  else if (i =? s) && (s + 1 <? j) then ladd (lmul (lmul (lmul t q) (lsub q (lint 1))) (F i (i + 1))) (lmul q (F (i + 1) j))
  else if (i =? s + 1) && (s + 1 <? j) then ladd (F (i - 1) j) (lmul (lsub (lint 1) q) (F i j))
  else if ((i <? j) && (j <? s)) || ((s + 1 <? i) && (i <? j)) then F i j
  else ladd (F i j) (lmul (lmul (lmul t (qw s i)) (lmul (lsub q (lint 1)) (lsub q (lint 1)))) (F s (s + 1))).
Local Arguments Nat.ltb : simpl never.
Ltac cs := unfold op; repeat match goal with
  | |- context [?a =? ?b] => destruct (Nat.eqb_spec a b); try lia
  | |- context [?a <? ?b] => destruct (Nat.ltb_spec a b); try lia
  end; cbn [andb orb].
Lemma op_in s F : op s F s (S s) = lmul (lmul (lmul t q) q) (F s (S s)). Proof. cs. reflexivity. Qed.
Lemma op_1 s F i : i < s -> op s F i s = ladd (lmul (lsub (lint 1) q) (F i s)) (lmul q (F i (S s))).
Proof. intros H. cs. now rewrite Nat.add_1_r. Qed.
Lemma op_2 s F i : i < s -> op s F i (S s) = ladd (F i s) (lmul (lmul (lmul t (qw (S s) i)) (lsub q (lint 1))) (F s (S s))).
Proof. intros H. cs. now replace (S s - 1) with s by lia. Qed.
Lemma op_3 s F j : S s < j -> op s F s j = ladd (lmul (lmul (lmul t q) (lsub q (lint 1))) (F s (S s))) (lmul q (F (S s) j)).
Proof. intros H. cs. now rewrite Nat.add_1_r. Qed.
Lemma op_4 s F j : S s < j -> op s F (S s) j = ladd (F s j) (lmul (lsub (lint 1) q) (F (S s) j)).
Proof. intros H. cs. now replace (S s - 1) with s by lia. Qed.
Lemma op_5 s F i j : i < j -> j < s \/ S s < i -> op s F i j = F i j.
Proof. intros H [K|K]; cs; reflexivity. Qed.
Lemma op_6 s F i j : i < s -> S s < j -> op s F i j = ladd (F i j) (lmul (lmul (lmul t (qw s i)) (lmul (lsub q (lint 1)) (lsub q (lint 1)))) (F s (S s))).
Proof. intros H K. cs. now rewrite Nat.add_1_r. Qed.
Lemma qw_S s i : i <= s -> leq (qw (S s) i) (lmul q (qw s i)).
Proof. intros H. unfold qw. replace (S s - i) with (S (s - i)) by lia. reflexivity. Qed.
Lemma qw_same s : leq (qw s s) (lint 1). Proof. unfold qw. rewrite Nat.sub_diag. reflexivity. Qed.
Ltac step := match goal with |- context [op ?s ?F ?i ?j] => first
  [ rewrite (op_in s F) | rewrite (op_1 s F i) by lia | rewrite (op_2 s F i) by lia | rewrite (op_3 s F j) by lia | rewrite (op_4 s F j) by lia | rewrite (op_5 s F i j) by lia | rewrite (op_6 s F i j) by lia ] end.
Lemma qw_I s i : i < s -> leq (qw s i) (lmul q (qw s (S i))).
Proof. intros H. unfold qw. replace (s - i) with (S (s - S i)) by lia. reflexivity. Qed.
Ltac fin := repeat step; repeat (rewrite qw_S by lia); rewrite ?qw_same; ring.
Ltac fin2 := subst; repeat step; repeat (rewrite qw_S by lia); rewrite ?qw_same; repeat match goal with |- context [qw ?u ?s] => match goal with |- context [qw u (S s)] => rewrite (qw_I u s) by lia end end; ring.
Ltac posi i s := destruct (lt_eq_lt_dec i s) as [[?|?]|?]; [| |destruct (Nat.eq_dec i (S s)) as [?|?]].
Lemma op_far s u F i j : S s < u -> i < j -> leq (op s (op u F) i j) (op u (op s F) i j).
Proof.
  intros Hu Hij. posi i s; posi j s; try lia; posi i u; try lia; posi j u; try lia; fin2.
Qed.
Lemma op_braid s F i j : i < j -> leq (op s (op (S s) (op s F)) i j) (op (S s) (op s (op (S s) F)) i j).
Proof.
  intros Hij. posi i s; posi j s; try lia; posi j (S s); try lia; posi i (S s); try lia; fin2.
Qed.
Lemma op_cubic s F i j : i < j -> leq (ladd (lsub (op s (op s (op s F)) i j) (lmul (ladd (lsub (lint 1) q) (lmul (lmul t q) q)) (op s (op s F) i j))) (lmul (lsub (lmul (lmul (lmul t q) q) (lsub (lint 1) q)) q) (op s F i j))) (lmul (lneg (lmul (lmul (lmul t q) q) q)) (F i j)).
Proof.
  intros Hij. posi i s; posi j s; try lia; posi j (S s); try lia; fin2.
Qed.
End Op.

(** ** the columns of the code *)
Definition lsum (l : list ((nat * nat) * num)) (F : nat -> nat -> lpoly) : lpoly :=
  fold_right (fun e acc => ladd (lmul (coerce (snd e)) (F (fst (fst e)) (snd (fst e)))) acc) (lint 0) l.
Definition pdelta (k : nat * nat) (i j : nat) : lpoly := if (fst k =? i) && (snd k =? j) then lint 1 else lint 0.
Definition good_col (n : nat) (l : list ((nat * nat) * num)) : Prop :=
  Forall (fun e => fst (fst e) < snd (fst e) /\ snd (fst e) < n /\ ncanon (snd e)) l /\
  ((exists a, l = [a]) \/ exists a b, l = [a; b] /\ fst a <> fst b).
Local Arguments Nat.ltb : simpl never.
Lemma get_sum n l k : good_col n l -> leq (coerce (dict_get l k)) (lsum l (pdelta k)) /\ ncanon (dict_get l k).
Proof.
  intros [F [[[[i j] x] ->]|[[[i j] x] [[[i' j'] y] [-> N]]]]]; unfold dict_get; cbn [rev List.app find fst snd lsum fold_right]; destruct k as [a b]; cbn [fst snd] in *; unfold pdelta; cbn [fst snd]; rewrite (Nat.eqb_sym a i), (Nat.eqb_sym b j).
  - inversion F as [|? ? [_ [_ C]] _]; subst. cbn [snd] in C. destruct ((i =? a) && (j =? b)); cbn [snd coerce]; (split; [ring|exact C || exact Logic.I]).
  - rewrite (Nat.eqb_sym a i'), (Nat.eqb_sym b j'). inversion F as [|? ? [_ [_ C1]] F']; subst. inversion F' as [|? ? [_ [_ C2]] _]; subst. cbn [snd] in C1, C2.
    destruct (Nat.eqb_spec i' a), (Nat.eqb_spec j' b), (Nat.eqb_spec i a), (Nat.eqb_spec j b); cbn [andb snd coerce]; subst; try (exfalso; now apply N); (split; [ring|first [exact C1|exact C2|exact Logic.I]]).
Qed.
Section Col.
Variables (n : nat) (q t : lpoly).
Hypothesis (Hq : lcanon q) (Ht : lcanon t).
Lemma canon_rsubi p c : lcanon (lrsubi p c). Proof. apply canon_make. Qed.
Lemma canon_subi p c : lcanon (lsubi p c). Proof. apply canon_make. Qed.
Lemma rsubi_eq p c : leq (lrsubi p c) (lsub (lint c) p).
Proof. unfold lrsubi, laddi. ring. Qed.
Lemma subi_eq p c : leq (lsubi p c) (lsub p (lint c)).
Proof. unfold lsubi, laddi. assert (E : leq (lint (- c)) (lneg (lint c))) by (apply leq_L; intros g; rewrite L_neg, !L_int; lia). rewrite E. ring. Qed.
Lemma col_ok s i j : s + 1 < n -> i < j -> j < n -> exists l, lkb_col q t s i j = Ok l /\ good_col n l /\ forall F, leq (lsum l F) (op q t s F i j).
Proof using Hq Ht.
  intros Hs Hij Hj. unfold lkb_col, op.
  assert (GC : forall a b x y, a < b -> b < n -> ncanon x -> forall a' b', a' < b' -> b' < n -> ncanon y -> (a, b) <> (a', b') -> good_col n [((a, b), x); ((a', b'), y)]).
  { intros a b x y H1 H2 H3 a' b' H4 H5 H6 N. split; [repeat constructor; auto|right; eauto]. }
  assert (GC1 : forall a b x, a < b -> b < n -> ncanon x -> good_col n [((a, b), x)]) by (intros; split; [repeat constructor; auto|left; eauto]).
  destruct ((i =? s) && (j =? s + 1)) eqn:E1; [|destruct ((i <? s) && (j =? s)) eqn:E2; [|destruct ((i <? s) && (j =? s + 1)) eqn:E3; [|destruct ((i =? s) && (s + 1 <? j)) eqn:E4; [|destruct ((i =? s + 1) && (s + 1 <? j)) eqn:E5; [|destruct (((i <? j) && (j <? s)) || ((s + 1 <? i) && (i <? j))) eqn:E6; [|]]]]]].
  - eexists. split; [reflexivity|]. split; [apply GC1; auto; apply canon_make|]. intros F. cbn [lsum fold_right fst snd coerce]. ring.
  - apply andb_true_iff in E2. rewrite Nat.ltb_lt, Nat.eqb_eq in E2. eexists. split; [reflexivity|]. split; [apply GC; auto; try lia; [apply canon_rsubi|intros [= ?]; lia]|]. intros F. cbn [lsum fold_right fst snd coerce]. rewrite rsubi_eq. ring.
  - apply andb_true_iff in E3. rewrite Nat.ltb_lt, Nat.eqb_eq in E3. rewrite lpow_pos by (auto; lia). cbn [bind]. rewrite Nat2Z.id. eexists. split; [reflexivity|]. split; [apply GC; auto; try lia; [exact Logic.I|apply canon_mul|intros [= ? ?]; lia]|].
    intros F. cbn [lsum fold_right fst snd coerce]. rewrite subi_eq. unfold qw. ring.
  - apply andb_true_iff in E4. rewrite Nat.ltb_lt, Nat.eqb_eq in E4. eexists. split; [reflexivity|]. split; [apply GC; auto; try lia; [apply canon_mul|intros [= ? ?]; lia]|]. intros F. cbn [lsum fold_right fst snd coerce]. rewrite subi_eq. ring.
  - apply andb_true_iff in E5. rewrite Nat.ltb_lt, Nat.eqb_eq in E5. eexists. split; [reflexivity|]. split; [apply GC; auto; try lia; [exact Logic.I|apply canon_rsubi|intros [= ?]; lia]|]. intros F. cbn [lsum fold_right fst snd coerce]. rewrite rsubi_eq. ring.
  - eexists. split; [reflexivity|]. split; [apply GC1; auto; exact Logic.I|]. intros F. cbn [lsum fold_right fst snd coerce]. ring.
  - assert (K : i < s /\ s + 1 < j).
    { rewrite !andb_false_iff in E1, E2, E3, E4, E5. rewrite orb_false_iff, !andb_false_iff in E6. rewrite !Nat.eqb_neq, !Nat.ltb_ge in *. lia. }
    destruct (Nat.ltb_spec i s); [|lia]. destruct (Nat.ltb_spec (s + 1) j); [|lia]. cbn [andb]. rewrite lpow_pos by (auto; lia). cbn [bind]. rewrite lpow_pos by (try apply canon_subi; lia). cbn [bind]. rewrite Nat2Z.id.
    eexists. split; [reflexivity|]. split; [apply GC; auto; try lia; [exact Logic.I|apply canon_mul|intros [= ? ?]; lia]|].
    intros F. cbn [lsum fold_right fst snd coerce]. change (lpn (lsubi q 1) (Z.to_nat 2)) with (lmul (lsubi q 1) (lmul (lsubi q 1) (lint 1))). rewrite subi_eq. unfold qw. ring.
Qed.
(** ** keys *)
Lemma in_keys i j : In (i, j) (lkb_keys n) <-> i < j /\ j < n.
Proof.
  unfold lkb_keys. rewrite in_flat_map. split.
  - intros [x [Hx Hy]]. apply in_seq in Hx. apply in_map_iff in Hy. destruct Hy as [y [[= <- <-] Hy]]. apply in_seq in Hy. lia.
  - intros [H K]. exists i. split; [apply in_seq; lia|]. apply in_map_iff. exists j. split; [reflexivity|]. apply in_seq. lia.
Qed.
Lemma keys_nodup : NoDup (lkb_keys n).
Proof.
  unfold lkb_keys. assert (K : forall l, NoDup l -> NoDup (flat_map (fun i => map (fun j => (i, j)) (seq (i + 1) (n - (i + 1)))) l)).
  { induction 1 as [|x l Hx Hl IH]; cbn [flat_map]; [constructor|]. apply NoDup_app_intro; [|exact IH|].
    - apply FinFun.Injective_map_NoDup; [intros a b [=]; auto|apply seq_NoDup].
    - intros e He Hf. apply in_map_iff in He. destruct He as [j [<- _]]. apply in_flat_map in Hf. destruct Hf as [y [Hy Hf]]. apply in_map_iff in Hf. destruct Hf as [z [[= -> _] _]]. contradiction. }
  apply K, seq_NoDup.
Qed.
Lemma keys_length : length (lkb_keys n) = comb n 2.
Proof.
  assert (A : 2 * comb n 2 = (n - 1) * n).
  { pose proof (comb_step n 1) as E1. pose proof (comb_step n 0) as E0. replace (comb n 0) with 1 in E0 by (destruct n; reflexivity). nia. }
  assert (B : forall a k, a + k = n -> 2 * length (flat_map (fun i => map (fun j => (i, j)) (seq (i + 1) (n - (i + 1)))) (seq a k)) = (k - 1) * k).
  { intros a k. revert a. induction k as [|k IH]; intros a H; [reflexivity|]. cbn [seq flat_map]. rewrite app_length, map_length, seq_length. specialize (IH (S a) ltac:(lia)). replace (n - (a + 1)) with k by lia. destruct k; nia. }
  specialize (B 0 n ltac:(lia)). unfold lkb_keys. lia.
Qed.
Let N := length (lkb_keys n).
Lemma N_pos s : s + 1 < n -> 0 < N.
Proof. intros Hs. unfold N. assert (K : In (0, 1) (lkb_keys n)) by (apply in_keys; lia). destruct (lkb_keys n); [contradiction|cbn; lia]. Qed.
Definition key (k : nat) : nat * nat := nth k (lkb_keys n) (0, 0).
Lemma key_ok k : k < N -> fst (key k) < snd (key k) /\ snd (key k) < n.
Proof. intros H. pose proof (nth_In (lkb_keys n) (0, 0) H) as K. fold (key k) in K. destruct (key k) as [i j]. now apply in_keys. Qed.
Lemma map_keys {A} (f : nat * nat -> A) : map f (lkb_keys n) = map (fun k => f (key k)) (seq 0 N).
Proof.
  unfold key, N. generalize (lkb_keys n) as l. intros l. induction l as [|x l IH]; [reflexivity|]. cbn [length seq map nth]. f_equal. rewrite <- seq_shift, map_map. exact IH.
Qed.
(** a matrix that acts as f: its (r, c) entry is f at the r-th and c-th keys *)
Definition rp (A : mat num) (f : nat * nat -> nat -> nat -> lpoly) : Prop :=
  sq N A /\ forall r c, r < N -> c < N -> leq (coerce (ent (NI 0) A r c)) (f (key r) (fst (key c)) (snd (key c))).
Lemma gen_ok s : s + 1 < n -> exists A, lkb_gen n q t s = Ok A /\ lentm A /\ rp A (fun r => op q t s (pdelta r)) /\ exists col, (forall c, c < N -> good_col n (col c) /\ forall F, leq (lsum (col c) F) (op q t s F (fst (key c)) (snd (key c)))) /\ forall r c, r < N -> c < N -> ent (NI 0) A r c = NL (coerce (dict_get (col c) (key r))).
Proof using Hq Ht.
  intros Hs. unfold lkb_gen.
  assert (HC : exists col, forall c, c < N -> lkb_col q t s (fst (key c)) (snd (key c)) = Ok (col c) /\ good_col n (col c) /\ forall F, leq (lsum (col c) F) (op q t s F (fst (key c)) (snd (key c)))).
  { exists (fun c => match lkb_col q t s (fst (key c)) (snd (key c)) with Ok l => l | Err _ => [] end). intros c Hc. destruct (key_ok c Hc) as [H1 H2]. destruct (col_ok s (fst (key c)) (snd (key c)) Hs H1 H2) as [l [E K]]. rewrite E. auto. }
  destruct HC as [col HC].
  assert (EM : mapM (fun '(i, j) => lkb_col q t s i j) (lkb_keys n) = Ok (map col (seq 0 N))).
  { replace (lkb_keys n) with (map key (seq 0 N)) by (rewrite <- (map_id (lkb_keys n)) at 1; now rewrite (map_keys (fun x => x))).
    assert (K : forall l, (forall c, In c l -> c < N) -> mapM (fun '(i, j) => lkb_col q t s i j) (map key l) = Ok (map col l)).
    { induction l as [|c l IH]; intros H; [reflexivity|]. cbn [map mapM]. destruct (HC c (H c (or_introl eq_refl))) as [E _]. destruct (key c) as [i j]. cbn [fst snd] in E. rewrite E. cbn [bind]. rewrite IH by (intros; apply H; now right). reflexivity. }
    apply K. intros c Hc. apply in_seq in Hc. lia. }
  rewrite EM. cbn [bind]. rewrite map_keys.
  rewrite (map_ext _ (fun k => map (fun c => NL (coerce (dict_get (col c) (key k)))) (seq 0 N))) by (intros k; now rewrite map_map).
  assert (HN : 0 < N). { unfold N. assert (In (0, 1) (lkb_keys n)) by (apply in_keys; lia). destruct (lkb_keys n); [contradiction|cbn; lia]. }
  destruct (from_rows_ent (NI 0) (fun k c => NL (coerce (dict_get (col c) (key k)))) N N HN) as [A [EA [W [R [C E]]]]]. exists A. split; [exact EA|].
  assert (SA : sq N A) by (repeat split; auto). split; [apply (lentm_ent N); [exact SA|]|split; [split; [exact SA|]|exists col; split; [intros c Hc; now apply HC|exact E]]].
  - intros i j Hi Hj. rewrite E by auto. eexists. split; [reflexivity|]. destruct (HC j Hj) as [_ [Gc _]]. destruct (get_sum n (col j) (key i) Gc) as [_ K]. destruct (dict_get (col j) (key i)); [apply canon_int|exact K].
  - intros r c Hr Hc. rewrite E by auto. cbn [coerce]. destruct (HC c Hc) as [_ [Gc Sc]]. destruct (get_sum n (col c) (key r) Gc) as [K _]. rewrite K. apply Sc.
Qed.
Lemma lsum_ext l F F' : Forall (fun e => leq (F (fst (fst e)) (snd (fst e))) (F' (fst (fst e)) (snd (fst e)))) l -> leq (lsum l F) (lsum l F').
Proof using Type. induction 1 as [|e l H _ IH]; cbn [lsum fold_right]; [reflexivity|]. fold (lsum l F). fold (lsum l F'). rewrite H, IH. reflexivity. Qed.
Lemma rp_mul A f B s : rp A f -> s + 1 < n -> lkb_gen n q t s = Ok B -> rp (MatrixTheory.prod (NI 0) nadd nmul A B) (fun r => op q t s (f r)).
Proof using Hq Ht.
  intros [SA HA] Hs EB. destruct (gen_ok s Hs) as [B' [EB' [_ [[SB HB] [col [HC HE]]]]]]. rewrite EB in EB'. injection EB' as <-.
  split; [now apply sq_pr|]. intros r c Hr Hc. destruct SA as [WA [RA CA]], SB as [WB [RB CB]]. rewrite (prod_e (NI 0) nadd nmul) by congruence. rewrite CA.
  destruct (HC c Hc) as [Gc Sc]. rewrite <- Sc.
  rewrite (PropsRep.coerce_rsum N _ (fun k => lmul (f (key r) (fst (key k)) (snd (key k))) (lsum (col c) (pdelta (key k))))).
  2: { intros k Hk. rewrite coerce_mul, (HA r k Hr Hk), (HE k c Hk Hc). cbn [coerce]. destruct (get_sum n (col c) (key k) Gc) as [K _]. now rewrite K. }
  destruct Gc as [Fc _]. clear Sc HC HE. induction Fc as [|e l [F1 [F2 _]] _ IH]; cbn [lsum fold_right].
  - apply (rsum_zero (lint 0) (lint 1) ladd lmul lsub lneg leq _ lring_ext lring). intros k _. ring.
  - fold (lsum l (f (key r))). rewrite <- IH. set (x := coerce (snd e)). destruct e as [[i j] y]. cbn [fst snd] in *.
    transitivity (rsum (lint 0) ladd N (fun k => ladd (lmul x (lmul (f (key r) (fst (key k)) (snd (key k))) (pdelta (key k) i j))) (lmul (f (key r) (fst (key k)) (snd (key k))) (lsum l (pdelta (key k)))))).
    { apply (rsum_ext (lint 0) ladd lmul lneg leq _ lring_ext). intros k _. fold (lsum l (pdelta (key k))). ring. }
    rewrite (rsum_add (lint 0) (lint 1) ladd lmul lsub lneg leq _ lring_ext lring), <- (rsum_mull (lint 0) (lint 1) ladd lmul lsub lneg leq _ lring_ext lring).
    assert (Q : leq (rsum (lint 0) ladd N (fun k => lmul (f (key r) (fst (key k)) (snd (key k))) (pdelta (key k) i j))) (f (key r) i j)); [|rewrite Q; reflexivity].
    assert (I : In (i, j) (lkb_keys n)) by (apply in_keys; auto). apply (In_nth _ _ (0, 0)) in I. destruct I as [m [Hm Em]]. fold (key m) in Em. fold N in Hm.
    transitivity (rsum (lint 0) ladd N (fun k => lmul (if m =? k then lint 1 else lint 0) (f (key r) (fst (key k)) (snd (key k))))).
    + apply (rsum_ext (lint 0) ladd lmul lneg leq _ lring_ext). intros k Hk. unfold pdelta. destruct (Nat.eqb_spec m k) as [<-|Nk].
      * rewrite Em. cbn [fst snd]. rewrite !Nat.eqb_refl. cbn [andb]. ring.
      * destruct (Nat.eqb_spec (fst (key k)) i) as [E1|]; [|cbn [andb]; ring]. destruct (Nat.eqb_spec (snd (key k)) j) as [E2|]; [|cbn [andb]; ring]. exfalso. apply Nk.
        apply (proj1 (NoDup_nth (lkb_keys n) (0, 0)) keys_nodup); auto. fold (key m) (key k). rewrite Em. destruct (key k). cbn [fst snd] in *. congruence.
    + rewrite (rsum_delta (lint 0) (lint 1) ladd lmul lsub lneg leq _ lring_ext lring N m) by exact Hm. rewrite Em. reflexivity.
Qed.
Lemma rp_ext A f g : rp A f -> (forall r i j, i < j -> leq (f r i j) (g r i j)) -> rp A g.
Proof. intros [SA HA] H. split; [exact SA|]. intros r c Hr Hc. rewrite HA by auto. apply H. now apply key_ok. Qed.
Lemma pdelta_key r c : r < N -> c < N -> pdelta (key r) (fst (key c)) (snd (key c)) = if r =? c then lint 1 else lint 0.
Proof.
  intros Hr Hc. unfold pdelta. destruct (Nat.eqb_spec r c) as [<-|Nk]; [now rewrite !Nat.eqb_refl|].
  destruct (Nat.eqb_spec (fst (key r)) (fst (key c))) as [E1|]; [|reflexivity]. destruct (Nat.eqb_spec (snd (key r)) (snd (key c))) as [E2|]; [|reflexivity]. exfalso. apply Nk.
  apply (proj1 (NoDup_nth (lkb_keys n) (0, 0)) keys_nodup); auto. fold (key r) (key c). destruct (key r), (key c). cbn [fst snd] in *. congruence.
Qed.
Lemma rp_eq A B f g : rp A f -> rp B g -> (forall r i j, i < j -> leq (f r i j) (g r i j)) -> pmeq 0 A B.
Proof.
  intros [SA HA] [SB HB] H. apply (PropsRep.pmeq_ent 0 N); auto. intros r c Hr Hc. apply neq_neqp. unfold neq. rewrite HA, HB by auto. apply H. now apply key_ok.
Qed.
Local Notation rs := (rsum (lint 0) ladd).
Lemma cubic_inv K (g gg ggg : nat -> nat -> lpoly) a b c ci :
  let dl := fun i j : nat => if i =? j then lint 1 else lint 0 in
  let h := fun i j => lmul ci (ladd (lsub (gg i j) (lmul a (g i j))) (lmul b (dl i j))) in
  (forall i j, i < K -> j < K -> leq (rs K (fun k => lmul (g i k) (g k j))) (gg i j)) ->
  (forall i j, i < K -> j < K -> leq (rs K (fun k => lmul (gg i k) (g k j))) (ggg i j)) ->
  (forall i j, i < K -> j < K -> leq (rs K (fun k => lmul (g i k) (gg k j))) (ggg i j)) ->
  (forall i j, i < K -> j < K -> leq (ladd (lsub (ggg i j) (lmul a (gg i j))) (lmul b (g i j))) (lmul c (dl i j))) -> leq (lmul ci c) (lint 1) ->
  (forall i j, i < K -> j < K -> leq (rs K (fun k => lmul (h i k) (g k j))) (dl i j)) /\ (forall i j, i < K -> j < K -> leq (rs K (fun k => lmul (g i k) (h k j))) (dl i j)).
Proof using Type.
  intros dl h H1 H2 H3 H4 H5.
  assert (Q : forall i j, i < K -> j < K -> leq (lmul ci (ladd (lsub (ggg i j) (lmul a (gg i j))) (lmul b (g i j)))) (dl i j)).
  { intros i j Hi Hj. rewrite H4 by auto. transitivity (lmul (lmul ci c) (dl i j)); [ring|]. rewrite H5. ring. }
  assert (SP : forall f1 f2 f3, leq (rs K (fun k => lmul ci (ladd (lsub (f1 k) (lmul a (f2 k))) (lmul b (f3 k))))) (lmul ci (ladd (lsub (rs K f1) (lmul a (rs K f2))) (lmul b (rs K f3))))).
  { intros f1 f2 f3. clear H1 H2 H3 H4 Q h. induction K as [|m IH]; cbn [rsum]; [ring|]. rewrite IH. ring. }
  split; intros i j Hi Hj; rewrite <- (Q i j Hi Hj).
  - transitivity (rs K (fun k => lmul ci (ladd (lsub (lmul (gg i k) (g k j)) (lmul a (lmul (g i k) (g k j)))) (lmul b (lmul (dl i k) (g k j)))))).
    + apply (rsum_ext (lint 0) ladd lmul lneg leq _ lring_ext). intros k Hk. unfold h. ring.
    + rewrite SP, (H2 i j), (H1 i j) by auto. unfold dl. rewrite (rsum_delta (lint 0) (lint 1) ladd lmul lsub lneg leq _ lring_ext lring K i (fun k => g k j)) by auto. reflexivity.
  - transitivity (rs K (fun k => lmul ci (ladd (lsub (lmul (g i k) (gg k j)) (lmul a (lmul (g i k) (g k j)))) (lmul b (lmul (if j =? k then lint 1 else lint 0) (g i k)))))).
    + apply (rsum_ext (lint 0) ladd lmul lneg leq _ lring_ext). intros k Hk. unfold h, dl. rewrite (Nat.eqb_sym k j). ring.
    + rewrite SP, (H3 i j), (H1 i j) by auto. rewrite (rsum_delta (lint 0) (lint 1) ladd lmul lsub lneg leq _ lring_ext lring K j (fun k => g i k)) by auto. reflexivity.
Qed.
Lemma ent_prod A B i j : sq N A -> sq N B -> i < N -> j < N -> leq (coerce (ent (NI 0) (MatrixTheory.prod (NI 0) nadd nmul A B) i j)) (rs N (fun k => lmul (coerce (ent (NI 0) A i k)) (coerce (ent (NI 0) B k j)))).
Proof using Type.
  intros [WA [RA CA]] [WB [RB CB]] Hi Hj. rewrite (prod_e (NI 0) nadd nmul) by congruence. rewrite CA. apply PropsRep.coerce_rsum. intros k Hk. now rewrite coerce_mul.
Qed.
Lemma gen_inverse s E ti qi : s + 1 < n -> leq (lmul t ti) (lint 1) -> leq (lmul q qi) (lint 1) -> MatrixTheory.is_identity (NI 0) (NI 1) N E ->
  forall A, lkb_gen n q t s = Ok A -> exists B, sq N B /\ lentm B /\ pmeq 0 (MatrixTheory.prod (NI 0) nadd nmul A B) E /\ pmeq 0 (MatrixTheory.prod (NI 0) nadd nmul B A) E.
Proof using Hq Ht.
  intros Hs Uti Uqi HE A EA. destruct (gen_ok s Hs) as [A' [EA' [_ [R1 _]]]]. rewrite EA in EA'. injection EA' as <-.
  set (P := MatrixTheory.prod (NI 0) nadd nmul). pose proof (rp_mul A _ A s R1 Hs EA) as R2. fold (P A A) in R2. pose proof (rp_mul (P A A) _ A s R2 Hs EA) as R3. fold (P (P A A) A) in R3.
  pose proof (proj1 R1) as S1. pose proof (proj1 R2) as S2. pose proof (proj1 R3) as S3.
  set (g := fun i j => coerce (ent (NI 0) A i j)). set (gg := fun i j => coerce (ent (NI 0) (P A A) i j)). set (ggg := fun i j => coerce (ent (NI 0) (P (P A A) A) i j)).
  set (a := ladd (lsub (lint 1) q) (lmul (lmul t q) q)). set (b := lsub (lmul (lmul (lmul t q) q) (lsub (lint 1) q)) q). set (c := lneg (lmul (lmul (lmul t q) q) q)). set (ci := lneg (lmul ti (lmul qi (lmul qi qi)))).
  assert (HN : 0 < N) by (now apply (N_pos s)).
  destruct (cubic_inv N g gg ggg a b c ci) as [Q1 Q2].
  - intros i j Hi Hj. unfold gg, P. now rewrite ent_prod.
  - intros i j Hi Hj. unfold ggg, P. now rewrite ent_prod.
  - intros i j Hi Hj. pose proof (pr_assoc 0 N A A A S1 S1 S1) as K. fold P in K.
    transitivity (coerce (ent (NI 0) (P A (P A A)) i j)); [unfold P at 1; now rewrite ent_prod|].
    unfold ggg. apply pmeq_congr in K. apply (proj2 (pmeq_congr 0 _ _)) in K. symmetry. destruct S3 as [W3 [r3 c3]]. assert (S4 : sq N (P A (P A A))) by (apply sq_pr; auto). destruct S4 as [W4 [r4 c4]].
    destruct (proj1 (meq_ent (NI 0) (neqp 0) (P (P A A) A) (P A (P A A)) W3 W4) K) as [_ [_ K3]]. destruct (K3 i j ltac:(congruence) ltac:(congruence)) as [x Kx]. rewrite Kx. ring_simplify. reflexivity.
  - intros i j Hi Hj. unfold ggg, gg, g. rewrite (proj2 R3), (proj2 R2), (proj2 R1) by auto. rewrite <- pdelta_key by auto. apply op_cubic. now apply key_ok.
  - unfold c, ci. transitivity (lmul (lmul t ti) (lmul (lmul q qi) (lmul (lmul q qi) (lmul q qi)))); [ring|]. rewrite Uti, Uqi. ring.
  - destruct (from_rows_ent (NI 0) (fun i j => NL (lmul ci (ladd (lsub (gg i j) (lmul a (g i j))) (lmul b (if i =? j then lint 1 else lint 0))))) N N HN) as [B [_ [WB [RB [CB EB]]]]].
    assert (SB : sq N B) by (repeat split; auto). exists B. split; [exact SB|]. split; [apply (lentm_ent N); [exact SB|]; intros i j Hi Hj; rewrite EB by auto; eexists; split; [reflexivity|apply canon_mul]|].
    pose proof HE as HE'. destruct HE' as [WE [RE [CE EE]]]. assert (SE : sq N E) by (repeat split; auto).
    split; apply (PropsRep.pmeq_ent 0 N); auto using sq_pr; intros i j Hi Hj; apply neq_neqp; unfold neq; rewrite EE by auto; unfold P; rewrite ent_prod by auto.
    + transitivity (if i =? j then lint 1 else lint 0); [|destruct (i =? j); reflexivity]. rewrite <- (Q2 i j Hi Hj). apply (rsum_ext (lint 0) ladd lmul lneg leq _ lring_ext). intros k Hk. rewrite (EB k j) by auto. reflexivity.
    + transitivity (if i =? j then lint 1 else lint 0); [|destruct (i =? j); reflexivity]. rewrite <- (Q1 i j Hi Hj). apply (rsum_ext (lint 0) ladd lmul lneg leq _ lring_ext). intros k Hk. rewrite (EB i k) by auto. reflexivity.
Qed.
End Col.
