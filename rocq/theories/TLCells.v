(** TLCells.v – cell_basis and cell_dimension. *)
From Verif Require Import Base ModelTL SpecTL ComposeTheory TLTheory TLAlg2 TLBasis.
From Coq Require Import Permutation Sorting.Sorted.
Local Arguments Nat.ltb : simpl never.
Local Arguments Nat.sub : simpl never.

Lemma tld_ok top bot s : crossingless s -> length s = top + bot -> tld top bot s = Ok (mkD top bot s).
Proof. intros C L. unfold tld. rewrite L, Nat.eqb_refl. cbn [assert_ bind]. rewrite is_cm_true by exact C. reflexivity. Qed.
Lemma tld_Ok top bot s d : tld top bot s = Ok d -> d = mkD top bot s /\ crossingless s /\ length s = top + bot.
Proof.
  unfold tld. destruct (Nat.eqb_spec (top + bot) (length s)) as [E|]; [|discriminate]. cbn [assert_ bind].
  destruct (is_cm_spec s) as [b [-> Hb]]. cbn [bind]. destruct b; [|discriminate]. cbn. intros [= <-]. split; [reflexivity|]. split; [now apply Hb|lia].
Qed.
Lemma tld_id_ok n : tld_id n = Ok (mkD n n (id_seq n)).
Proof. apply tld_ok; [apply crossingless_id|rewrite id_seq_length; lia]. Qed.

(** ** sorted *)
Section Sort.
Context {A : Type} (leb : A -> A -> bool).
Lemma insert_sorted_perm x l : Permutation (insert_sorted leb x l) (x :: l).
Proof. induction l as [|y l IH]; cbn; [reflexivity|]. destruct (leb x y); [reflexivity|]. rewrite IH. apply perm_swap. Qed.
Lemma sorted_by_perm l : Permutation (sorted_by leb l) l.
Proof. induction l as [|x l IH]; cbn; [reflexivity|]. rewrite insert_sorted_perm. now apply perm_skip. Qed.
Context (P : A -> Prop) (tot : forall x y, P x -> P y -> leb x y = true \/ leb y x = true)
  (tr : forall x y z, P x -> P y -> P z -> leb x y = true -> leb y z = true -> leb x z = true).
Lemma insert_sorted_sorted x l : P x -> Forall P l -> StronglySorted (fun x y => leb x y = true) l -> StronglySorted (fun x y => leb x y = true) (insert_sorted leb x l).
Proof.
  intros Px Pl S. induction S as [|y l S IH F]; cbn; [repeat constructor|]. inversion Pl as [|? ? Py Pl']; subst. destruct (leb x y) eqn:E.
  - constructor; [constructor; auto|]. constructor; [exact E|]. rewrite Forall_forall in *. intros z Hz. apply (tr x y z); auto.
  - constructor; [now apply IH|]. destruct (tot x y Px Py); [congruence|]. apply Forall_forall. intros z Hz.
    apply (Permutation_in _ (insert_sorted_perm x l)) in Hz. rewrite Forall_forall in F. destruct Hz as [<-|Hz]; auto.
Qed.
Lemma sorted_by_sorted l : Forall P l -> StronglySorted (fun x y => leb x y = true) (sorted_by leb l).
Proof.
  intros Pl. induction Pl as [|x l Px Pl IH]; cbn; [constructor|]. apply insert_sorted_sorted; auto.
  rewrite Forall_forall in *. intros z Hz. apply Pl. now apply (Permutation_in _ (sorted_by_perm l)).
Qed.
End Sort.

(** ** the order on sequences *)
Lemma lex_lt_irrefl a : ~ lex_lt a a.
Proof. intros [k [_ [_ [_ H]]]]. lia. Qed.
Lemma list_leb_spec a : forall b, length a = length b -> (list_leb a b = true <-> a = b \/ lex_lt a b).
Proof.
  induction a as [|x a IH]; intros [|y b] L; try discriminate; cbn.
  - tauto.
  - injection L as L. destruct (Nat.eqb_spec x y) as [<-|N].
    + rewrite (IH b L). split.
      * intros [->|[k [A [B [C D]]]]]; [now left|]. right. exists (S k). cbn. repeat split; try lia. now f_equal.
      * intros [[= ->]|[k [A [B [C D]]]]]; [now left|]. right. destruct k; [cbn in D; lia|]. exists k. cbn in *. repeat split; try lia. congruence.
    + rewrite Nat.ltb_lt. split.
      * intros H. right. exists 0. cbn. repeat split; lia.
      * intros [[= ? ?]|[k [A [B [C D]]]]]; [lia|]. destruct k; [exact D|]. cbn in C. congruence.
Qed.
Lemma list_leb_total a : forall b, list_leb a b = true \/ list_leb b a = true.
Proof. induction a as [|x a IH]; intros [|y b]; cbn; auto. rewrite (Nat.eqb_sym y x). destruct (Nat.eqb_spec x y); [apply IH|]. rewrite !Nat.ltb_lt. lia. Qed.
Lemma list_leb_trans a : forall b c, list_leb a b = true -> list_leb b c = true -> list_leb a c = true.
Proof.
  induction a as [|x a IH]; intros [|y b] [|z c]; cbn; auto; try discriminate.
  intros H1 H2. destruct (Nat.eqb_spec x y), (Nat.eqb_spec y z), (Nat.eqb_spec x z); rewrite ?Nat.ltb_lt in *; subst; try lia; eauto.
Qed.
Lemma diag_leb_seq top bot a b : diag_leb (mkD top bot a) (mkD top bot b) = list_leb a b.
Proof. unfold diag_leb. cbn. now rewrite !Nat.eqb_refl. Qed.
Lemma sorted_map top bot ss : exists ts, sorted_by diag_leb (map (mkD top bot) ss) = map (mkD top bot) ts /\ Permutation ts ss /\ StronglySorted (fun x y => list_leb x y = true) ts.
Proof.
  assert (E : sorted_by diag_leb (map (mkD top bot) ss) = map (mkD top bot) (sorted_by list_leb ss)).
  { induction ss as [|x ss IH]; [reflexivity|].
    change (sorted_by diag_leb (map (mkD top bot) (x :: ss))) with (insert_sorted diag_leb (mkD top bot x) (sorted_by diag_leb (map (mkD top bot) ss))).
    change (sorted_by list_leb (x :: ss)) with (insert_sorted list_leb x (sorted_by list_leb ss)). rewrite IH. generalize (sorted_by list_leb ss). intros l. induction l as [|y l IHl]; [reflexivity|].
    cbn [map insert_sorted]. rewrite diag_leb_seq. destruct (list_leb x y); [reflexivity|]. cbn [map]. now rewrite <- IHl. }
  exists (sorted_by list_leb ss). split; [exact E|]. split; [apply sorted_by_perm|]. apply (sorted_by_sorted list_leb (fun _ => True)); [intros; apply list_leb_total|intros x y z _ _ _; apply list_leb_trans|].
  apply Forall_forall. auto.
Qed.
Lemma sorted_strict N ts : (forall s, In s ts -> length s = N) -> NoDup ts -> StronglySorted (fun x y => list_leb x y = true) ts -> StronglySorted lex_lt ts.
Proof.
  intros L ND S. induction S as [|x l S IH F]; [constructor|]. inversion ND as [|? ? N1 N2]; subst. constructor; [apply IH; auto; intros s Hs; apply L; now right|].
  rewrite Forall_forall in *. intros y Hy. assert (E : length x = length y) by (rewrite !L; auto; [now right|now left]).
  destruct (proj1 (list_leb_spec x y E) (F y Hy)) as [->|K]; [contradiction|exact K].
Qed.

(** ** cells *)
Definition cell (n r : nat) (s : list nat) : Prop := crossingless s /\ length s = n + (n - 2 * r) /\ through_all (n - 2 * r) s.
Lemma cell_zero n s : cell n 0 s <-> s = id_seq n.
Proof.
  unfold cell, through_all. replace (n - 2 * 0) with n by lia. split.
  - intros [[M NC] [L T]].
    assert (Dec : forall i j, i < j -> j < n -> nth j s 0 < nth i s 0).
    { intros i j Hij Hj. pose proof (NC i j ltac:(lia)) as K. pose proof (T i ltac:(lia)) as Ti. pose proof (T j ltac:(lia)) as Tj.
      assert (nth i s 0 <> nth j s 0); [|lia]. intros E. destruct (M i ltac:(lia)) as [_ [_ A]], (M j ltac:(lia)) as [_ [_ B]]. rewrite E in A. lia. }
    assert (Low : forall k i, i + k < n -> nth i s 0 >= nth (i + k) s 0 + k).
    { induction k as [|k IH]; intros i Hi; [rewrite !Nat.add_0_r; lia|]. pose proof (IH i ltac:(lia)). pose proof (Dec (i + k) (i + S k) ltac:(lia) ltac:(lia)). lia. }
    assert (Val : forall i, i < n -> nth i s 0 = 2 * n - 1 - i).
    { intros i Hi. pose proof (Low (n - 1 - i) i ltac:(lia)) as K1. pose proof (T (n - 1) ltac:(lia)). replace (i + (n - 1 - i)) with (n - 1) in K1 by lia.
      pose proof (Low i 0 ltac:(lia)) as K2. cbn [Nat.add] in K2. destruct (M 0 ltac:(lia)) as [A _]. cbv beta in *. lia. }
    apply (nth_ext_len _ _ (2 * n) 0); [lia|apply id_seq_length|]. intros i Hi. rewrite nth_id by exact Hi.
    destruct (Nat.lt_ge_cases i n); [now apply Val|]. destruct (M (2 * n - 1 - i) ltac:(lia)) as [_ [_ A]]. rewrite (Val (2 * n - 1 - i)) in A by lia.
    replace (2 * n - 1 - (2 * n - 1 - i)) with i in A by lia. exact A.
  - intros ->. split; [apply crossingless_id|]. rewrite id_seq_length. split; [lia|]. intros i Hi. rewrite nth_id by lia. lia.
Qed.
(** a bar on the right *)
Lemma cell_bar_in n r s : 2 * r <= n -> cell n r s -> cell (S n) r (ins s [1; 0] (n - 2 * r)).
Proof.
  intros H [C [L T]]. assert (Hb : n - 2 * r <= length s) by lia. split; [apply crossingless_ins; auto using crossingless_cap|].
  rewrite ins_length by exact Hb. cbn [length]. split; [lia|]. intros i Hi. destruct (ins_cases s [1; 0] (n - 2 * r) Hb i) as [[j [Hj E]]|[j [Hj E]]].
  - cbn. lia.
  - rewrite E, ins_eo by auto. unfold eo in *. cbn [length] in *. destruct (Nat.ltb_spec j (n - 2 * r)); [|lia]. pose proof (T j ltac:(lia)).
    destruct (Nat.ltb_spec (nth j s 0) (n - 2 * r)); lia.
  - rewrite E, ins_ei by auto. cbn in Hj. assert (j = 0) by lia. subst j. cbn. lia.
Qed.
Lemma cell_cases n r s : 0 < r -> 2 * r <= S n -> cell (S n) r s <->
  (2 * r <= n /\ exists t, cell n r t /\ s = ins t [1; 0] (n - 2 * r)) \/ cell n (r - 1) s.
Proof.
  intros Hr Hn. set (b := S n - 2 * r). split.
  - intros [[M NC] [L T]]. fold b in L, T.
    destruct (Nat.eq_dec b 0) as [Eb|Eb].
    { right. split; [split; assumption|]. split; [lia|]. intros i Hi. assert (i = 0) by lia. subst i. destruct (M 0 ltac:(lia)) as [_ [A _]]. lia. }
    destruct (Nat.eq_dec (nth (b - 1) s 0) b) as [E|E].
    + left. split; [lia|]. destruct (M (b - 1) ltac:(lia)) as [_ [_ E']]. rewrite E in E'.
      set (sh := fun x => if x <? b - 1 then x else x - 2).
      set (t := map (fun i => sh (nth (eo (b - 1) 2 i) s 0)) (seq 0 (length s - 2))). assert (Lt : length t = length s - 2) by (unfold t; now rewrite map_length, seq_length).
      assert (Nt : forall i, i < length s - 2 -> nth i t 0 = sh (nth (eo (b - 1) 2 i) s 0)) by (intros i Hi; unfold t; now rewrite nth_map_seq).
      assert (Hne : forall i, i < length s - 2 -> eo (b - 1) 2 i < length s /\ nth (eo (b - 1) 2 i) s 0 <> b - 1 /\ nth (eo (b - 1) 2 i) s 0 <> b /\ eo (b - 1) 2 i <> b - 1 /\ eo (b - 1) 2 i <> b).
      { intros i Hi. assert (A : eo (b - 1) 2 i < length s /\ eo (b - 1) 2 i <> b - 1 /\ eo (b - 1) 2 i <> b) by (unfold eo; destruct (Nat.ltb_spec i (b - 1)); lia).
        destruct A as [A [B C]]. repeat split; auto; intros K; destruct (M _ A) as [_ [_ Q]]; rewrite K in Q; lia. }
      assert (She : forall x, x <> b - 1 -> x <> b -> eo (b - 1) 2 (sh x) = x) by (intros x A B; unfold sh; destruct (Nat.ltb_spec x (b - 1)); unfold eo; [destruct (Nat.ltb_spec x (b - 1))|destruct (Nat.ltb_spec (x - 2) (b - 1))]; lia).
      assert (Et : forall i, i < length s - 2 -> eo (b - 1) 2 (nth i t 0) = nth (eo (b - 1) 2 i) s 0).
      { intros i Hi. rewrite Nt by exact Hi. destruct (Hne i Hi) as [A [B [C _]]]. now apply She. }
      assert (Ct : crossingless t).
      { split; rewrite Lt.
        - intros i Hi. destruct (Hne i Hi) as [A [B [C [D F]]]]. destruct (M _ A) as [A1 [A2 A3]]. pose proof (Et i Hi) as Q.
          assert (K : nth i t 0 < length s - 2). { rewrite <- Q in A1. unfold eo in A1, Q. destruct (Nat.ltb_spec (nth i t 0) (b - 1)); lia. }
          split; [exact K|]. split; [intros K'; rewrite K' in Q; congruence|]. apply (eo_inj (b - 1) 2). rewrite Et by exact K. rewrite Q. exact A3.
        - intros i j Hj [H1 [H2 H3]]. apply (NC (eo (b - 1) 2 i) (eo (b - 1) 2 j)); [now apply Hne|]. rewrite <- !Et by lia. now rewrite !eo_mono. }
      assert (Eb' : n - 2 * r = b - 1) by lia. exists t. rewrite Eb'. split.
      * split; [exact Ct|]. rewrite Eb'. split; [lia|]. intros i Hi. pose proof (Et i ltac:(lia)) as Q. pose proof (Hne i ltac:(lia)) as [_ [_ [K _]]].
        assert (Q' : eo (b - 1) 2 i = i) by (unfold eo; destruct (Nat.ltb_spec i (b - 1)); lia). rewrite Q' in *. pose proof (T i ltac:(lia)).
        unfold eo in Q. destruct (Nat.ltb_spec (nth i t 0) (b - 1)); lia.
      * assert (Hb : b - 1 <= length t) by lia. apply (nth_ext_len _ _ (length s) 0); auto; [rewrite ins_length by exact Hb; cbn; lia|].
        intros x Hx. destruct (ins_cases t [1; 0] (b - 1) Hb x) as [[j [Hj Ex]]|[j [Hj Ex]]]; [cbn; lia| |].
        -- rewrite Ex, ins_eo by auto. symmetry. apply Et. lia.
        -- rewrite Ex, ins_ei by auto. cbn in Hj. destruct j as [|[|j]]; [| |lia]; cbn [nth].
           ++ cbn [Nat.add]. lia.
           ++ replace (1 + (b - 1)) with b by lia. cbn [Nat.add]. lia.
    + right. split; [split; assumption|]. replace (n - 2 * (r - 1)) with (b + 1) by lia. split; [lia|].
      assert (K : forall i, i < b -> nth i s 0 <> b).
      { intros i Hi Q. destruct (Nat.eq_dec i (b - 1)) as [->|Ni]; [contradiction|]. pose proof (NC i (b - 1) ltac:(lia)) as C. rewrite Q in C.
        pose proof (T (b - 1) ltac:(lia)). lia. }
      intros i Hi. destruct (Nat.eq_dec i b) as [->|Ni].
      * destruct (M b ltac:(lia)) as [A [B C]]. destruct (Nat.lt_ge_cases (nth b s 0) b) as [Q|Q]; [|lia]. exfalso. now apply (K _ Q).
      * pose proof (T i ltac:(lia)). pose proof (K i ltac:(lia)). lia.
  - intros [[H [t [Ct ->]]]|[C [L T]]].
    + now apply cell_bar_in.
    + split; [exact C|]. replace (n - 2 * (r - 1)) with (b + 1) in * by lia. fold b. split; [lia|]. intros i Hi. pose proof (T i ltac:(lia)). lia.
Qed.
Lemma cell_disjoint n r t : 0 < r -> 2 * r <= n -> cell n r t -> ~ cell n (r - 1) (ins t [1; 0] (n - 2 * r)).
Proof.
  intros Hr Hn [C [L _]] [_ [L' T]]. pose proof (ins_ei t [1; 0] (n - 2 * r) ltac:(lia) 0 ltac:(cbn; lia)) as Q. cbn [nth Nat.add] in Q.
  pose proof (T (n - 2 * r) ltac:(lia)). lia.
Qed.
Lemma ins_cap_inj t t' b : b <= length t -> b <= length t' -> ins t [1; 0] b = ins t' [1; 0] b -> t = t'.
Proof.
  intros H H' E. assert (L : length t = length t'). { pose proof (ins_length t [1; 0] b H) as A. pose proof (ins_length t' [1; 0] b H') as B. rewrite E in A. lia. }
  apply (nth_ext_len _ _ (length t) 0); auto. intros i Hi. apply (eo_inj b 2). pose proof (ins_eo t [1; 0] b H i Hi) as A. pose proof (ins_eo t' [1; 0] b H' i ltac:(lia)) as B.
  cbn [length] in *. congruence.
Qed.

(** ** binomials *)
Lemma comb_lt n : forall k, n < k -> comb n k = 0.
Proof. induction n as [|n IH]; intros [|k] H; try lia; cbn [comb]; [reflexivity|]. rewrite !IH by lia. reflexivity. Qed.
Lemma comb_sym a : forall b, comb (a + b) a = comb (a + b) b.
Proof.
  assert (K : forall m a b, a + b = m -> comb m a = comb m b).
  { induction m as [|m IH]; intros x y E; [replace x with 0 by lia; now replace y with 0 by lia|].
    destruct x as [|x], y as [|y]; try lia.
    - replace m with y in * by lia. cbn [comb]. clear - IH. rewrite (comb_lt y (S y)) by lia. rewrite <- (IH 0 y) by lia. destruct y; reflexivity.
    - replace m with x in * by lia. cbn [comb]. rewrite (comb_lt x (S x)) by lia. rewrite (IH x 0) by lia. destruct x; reflexivity.
    - cbn [comb]. rewrite (IH x (S y)) by lia. rewrite (IH (S x) y) by lia. lia. }
  intros b. now apply K.
Qed.
Definition dimZ (n r : nat) : Z := (Z.of_nat (comb n r) - (if (r =? 0)%nat then 0 else Z.of_nat (comb n (r - 1))))%Z.
Lemma dimZ_pascal n r : 0 < r -> dimZ (S n) r = (dimZ n r + dimZ n (r - 1))%Z.
Proof.
  intros H. destruct r as [|r]; [lia|]. unfold dimZ. replace (S r - 1) with r by lia. cbn [Nat.eqb].
  assert (E : comb (S n) (S r) = comb n r + comb n (S r)) by reflexivity. rewrite E. destruct r as [|r]; cbn [Nat.eqb].
  - assert (A : comb n 0 = 1) by (destruct n; reflexivity). assert (B : comb (S n) 0 = 1) by reflexivity. rewrite A, B. lia.
  - replace (S r - 1) with r by lia. assert (E' : comb (S n) (S r) = comb n r + comb n (S r)) by reflexivity. rewrite E'. lia.
Qed.
Lemma dimZ_zero n : dimZ n 0 = 1%Z.
Proof. unfold dimZ. cbn [Nat.eqb]. assert (A : comb n 0 = 1) by (destruct n; reflexivity). rewrite A. reflexivity. Qed.
Lemma dimZ_half n r : 0 < r -> S n = 2 * r -> dimZ n r = 0%Z.
Proof.
  intros H E. unfold dimZ. destruct (Nat.eqb_spec r 0); [lia|]. replace n with (r + (r - 1)) by lia. rewrite comb_sym. replace (r + (r - 1)) with ((r - 1) + r) by lia. lia.
Qed.

(** ** cell_basis *)
Theorem cell_basis_seqs n : forall r, exists ss, cell_basis n r = Ok (map (mkD n (n - 2 * r)) ss) /\
  (forall s, In s ss <-> 2 * r <= n /\ cell n r s) /\ StronglySorted lex_lt ss /\ NoDup ss /\ (2 * r <= S n -> Z.of_nat (length ss) = dimZ n r).
Proof.
  assert (Zero : forall n, exists ss, (d <- tld_id n ;; Ok [d]) = Ok (map (mkD n (n - 2 * 0)) ss) /\ (forall s, In s ss <-> 2 * 0 <= n /\ cell n 0 s) /\ StronglySorted lex_lt ss /\ NoDup ss /\ (2 * 0 <= S n -> Z.of_nat (length ss) = dimZ n 0)).
  { intros k. exists [id_seq k]. rewrite tld_id_ok. cbn [bind map]. replace (k - 2 * 0) with k by lia. split; [reflexivity|]. split; [|split; [|split]].
    - intros s. rewrite cell_zero. cbn. split; [intros [<-|[]]; split; [lia|reflexivity]|intros [_ ->]; now left].
    - repeat constructor.
    - repeat constructor. intros [].
    - intros _. now rewrite dimZ_zero. }
  induction n as [|n IH]; intros r.
  - cbn [cell_basis]. destruct (Nat.ltb_spec 0 (2 * r)) as [H|H].
    + exists []. cbn. split; [reflexivity|]. split; [intros s; split; [tauto|lia]|]. repeat split; try constructor. intros. lia.
    + replace r with 0 by lia. cbn [Nat.eqb]. apply Zero.
  - cbn [cell_basis]. destruct (Nat.ltb_spec (S n) (2 * r)) as [H|H].
    + exists []. cbn [map]. split; [reflexivity|]. split; [intros s; split; [intros []|lia]|]. repeat split; try constructor. intros. cbn [length].
      rewrite dimZ_half; lia.
    + destruct (Nat.eqb_spec r 0) as [->|Hr]; [apply Zero|].
      destruct (IH r) as [s1 [E1 [I1 [_ [N1 L1]]]]], (IH (r - 1)) as [s2 [E2 [I2 [_ [N2 L2]]]]].
      rewrite tld_id_ok, E1, E2. cbn [bind].
      set (b := n - 2 * r).
      assert (M1 : mapM (fun d => tld_tensor d (mkD 1 1 (id_seq 1))) (map (mkD n b) s1) = Ok (map (mkD (S n) (S n - 2 * r)) (map (fun s => ins s [1; 0] b) s1))).
      { change (id_seq 1) with [1; 0]. rewrite map_map. assert (K : forall s, In s s1 -> 2 * r <= n /\ cell n r s) by (intros; now apply I1). clear - K Hr H. induction s1 as [|s s1 IHs]; [reflexivity|].
        cbn [map mapM]. destruct (K s (or_introl eq_refl)) as [H' [C [L T]]]. unfold tld_tensor at 1. cbn [dseq dbot dtop]. rewrite insert_ins.
        fold b in L, T. destruct (Nat.leb_spec b (length s)); [|lia]. cbn [bind]. rewrite tld_ok.
        - cbn [bind]. rewrite IHs by (intros; apply K; now right). cbn [bind]. replace (n + 1) with (S n) by lia. now replace (b + 1) with (S n - 2 * r) by lia.
        - apply crossingless_ins; auto using crossingless_cap.
        - rewrite ins_length by lia. cbn. lia. }
      assert (M2 : mapM (fun d => tld (S n) (S n - 2 * r) (dseq d)) (map (mkD n (n - 2 * (r - 1))) s2) = Ok (map (mkD (S n) (S n - 2 * r)) s2)).
      { assert (K : forall s, In s s2 -> cell n (r - 1) s) by (intros s Hs; now apply I2). clear - K Hr H. induction s2 as [|s s2 IHs]; [reflexivity|].
        cbn [map mapM dseq]. destruct (K s (or_introl eq_refl)) as [C [L T]]. rewrite tld_ok by (auto; lia). cbn [bind]. rewrite IHs by (intros; apply K; now right). reflexivity. }
      rewrite M1. cbn [bind]. rewrite M2. cbn [bind]. rewrite <- map_app.
      destruct (sorted_map (S n) (S n - 2 * r) (map (fun s => ins s [1; 0] b) s1 ++ s2)) as [ts [Et [Pt St]]]. rewrite Et. exists ts. split; [reflexivity|].
      assert (It : forall s, In s ts <-> 2 * r <= S n /\ cell (S n) r s).
      { intros s. assert (Q : In s ts <-> In s (map (fun s => ins s [1; 0] b) s1 ++ s2)) by (split; apply Permutation_in; [exact Pt|now symmetry]).
        rewrite Q, in_app_iff, in_map_iff, cell_cases by lia. rewrite I2. split.
        - intros [[t [<- Ht]]|[_ K]]; (split; [lia|]); [left|right; exact K]. apply I1 in Ht. split; [lia|]. exists t. split; [apply Ht|reflexivity].
        - intros [_ [[K [t [Ct ->]]]|K]]; [left|right; split; [lia|exact K]]. exists t. split; [reflexivity|]. apply I1. auto. }
      assert (ND : NoDup ts).
      { apply (Permutation_NoDup (Permutation_sym Pt)). apply NoDup_app_intro; [|exact N2|].
        - assert (K : forall s, In s s1 -> b <= length s) by (intros s Hs; apply I1 in Hs; destruct Hs as [_ [_ [L _]]]; unfold b; lia). clear - K N1.
          induction N1 as [|s s1 N N1 IHs]; cbn [map]; constructor; [|apply IHs; intros; apply K; now right]. intros I. apply in_map_iff in I. destruct I as [t [E It]].
          apply ins_cap_inj in E; [subst; contradiction|apply K; now right|apply K; now left].
        - intros s I J. apply in_map_iff in I. destruct I as [t [<- It']]. apply I1 in It'. destruct It' as [Hn Ct]. apply I2 in J. apply (cell_disjoint n r t); auto; [lia|tauto]. }
      split; [exact It|]. split; [|split; [exact ND|]].
      * apply (sorted_strict (S n + (S n - 2 * r))); auto. intros s Hs. apply It in Hs. apply Hs.
      * intros _. rewrite (Permutation_length Pt), app_length, map_length, Nat2Z.inj_add, L1, L2 by lia. symmetry. apply dimZ_pascal. lia.
Qed.
Lemma cell_dimension_eq n r : cell_dimension n r = if 2 * r <=? n then Ok (dimZ n r) else Err AssertionError.
Proof. unfold cell_dimension. destruct (2 * r <=? n); reflexivity. Qed.

(** ** Catalan numbers *)
Lemma comb_step n : forall k, (S k) * comb n (S k) = (n - k) * comb n k.
Proof.
  induction n as [|n IH]; intros k; [cbn; lia|]. destruct (Nat.lt_ge_cases n k) as [H|H].
  - rewrite (comb_lt (S n) (S k)) by lia. replace (S n - k) with 0 by lia. lia.
  - cbn [comb]. pose proof (IH k) as A. destruct k as [|k].
    + assert (E : comb n 0 = 1) by (destruct n; reflexivity). rewrite E in *. replace (n - 0) with n in A by lia. replace (S n - 0) with (S n) by lia. nia.
    + pose proof (IH k) as B. replace (S n - S k) with (n - k) by lia. replace (n - k) with (S (n - S k)) in B by lia. replace (n - k) with (S (n - S k)) by lia. nia.
Qed.
Lemma dyck_catalan m : length (dyck (S m) m) * (m + 1) = comb (2 * m) m.
Proof.
  destruct (cell_basis_seqs (2 * m) m) as [ss [_ [I [_ [N L]]]]].
  assert (E : length (dyck (S m) m) = length ss).
  { apply Nat.le_antisymm; apply NoDup_incl_length; auto using dyck_NoDup; intros s Hs.
    - apply I. apply dyck_spec in Hs; [|lia]. split; [lia|]. unfold cell. replace (2 * m - 2 * m) with 0 by lia. split; [apply Hs|]. split; [lia|]. intros i Hi. lia.
    - apply dyck_spec; [lia|]. apply I in Hs. destruct Hs as [_ [C [K _]]]. split; [exact C|lia]. }
  rewrite E. specialize (L ltac:(lia)). unfold dimZ in L. destruct (Nat.eqb_spec m 0) as [->|H]; [cbn in L; cbn; lia|].
  pose proof (comb_step (2 * m) (m - 1)) as SS. replace (S (m - 1)) with m in SS by lia. replace (2 * m - (m - 1)) with (m + 1) in SS by lia. nia.
Qed.
