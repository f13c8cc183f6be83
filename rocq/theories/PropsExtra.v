(** PropsExtra.v – properties C84 (reflections) and C85 (substring). *)
From Verif Require Import Base ModelPerm PermTheory WeakOrder PermWords SpecBraid BraidTheory
  SpecPerm SpecPermTheory Germ GermNF GermAct GermBraid ModelBraid TableTheory PermGerm PermTable NFApi PropsGNF PropsGNF2.
From Coq Require Import Permutation FinFun.

(** ** C84.  [swaps n i j w]: w exchanges i and j and fixes every other point. *)
Definition swaps (n i j : nat) (w : list nat) : Prop :=
  length w = n /\ nth i w 0 = j /\ nth j w 0 = i /\ forall k, k < n -> k <> i -> k <> j -> nth k w 0 = k.
Definition pairs (n : nat) : list (nat * nat) :=
  flat_map (fun i => map (fun j => (i, j)) (seq (i + 1) (n - (i + 1)))) (seq 0 (n - 1)).
Lemma in_pairs n i j : In (i, j) (pairs n) <-> i < j /\ j < n.
Proof.
  unfold pairs. rewrite in_flat_map. split.
  - intros [x [Hx H]]. apply in_map_iff in H. destruct H as [y [[= -> ->] Hy]]. apply in_seq in Hy. lia.
  - intros [A B]. exists i. split; [apply in_seq; lia|]. apply in_map_iff. exists j. split; [reflexivity|]. apply in_seq. lia.
Qed.
Lemma nodup_pairs n : NoDup (pairs n).
Proof.
  unfold pairs. generalize (seq_NoDup (n - 1) 0). generalize (seq 0 (n - 1)). intros l. induction l as [|a l IH]; intros ND; [constructor|].
  inversion ND; subst. cbn [flat_map]. apply NoDup_app_intro.
  - apply FinFun.Injective_map_NoDup; [intros x y [= ->]; reflexivity|apply seq_NoDup].
  - now apply IH.
  - intros [x y] H1' H2'. apply in_map_iff in H1'. destruct H1' as [z [[= -> ->] _]].
    apply in_flat_map in H2'. destruct H2' as [b [Hb H]]. apply in_map_iff in H. destruct H as [z' [[= -> ->] _]]. contradiction.
Qed.
Lemma ptrans_swaps n i j : i < n -> j < n -> swaps n i j (ptrans n i j).
Proof.
  intros Hi Hj. split; [apply isperm_length, isperm_ptrans; assumption|].
  split; [|split]; [change (ap (ptrans n i j) i = j)|change (ap (ptrans n i j) j = i)|]; try (rewrite app_ptrans by lia).
  - now rewrite Nat.eqb_refl.
  - destruct (Nat.eqb_spec j i); [congruence|]. now rewrite Nat.eqb_refl.
  - intros k Hk N1 N2. change (ap (ptrans n i j) k = k). rewrite app_ptrans by lia.
    destruct (Nat.eqb_spec k i); [contradiction|]. now destruct (Nat.eqb_spec k j).
Qed.
Lemma swaps_unique n i j w w' : swaps n i j w -> swaps n i j w' -> w = w'.
Proof.
  intros [L [A [B C]]] [L' [A' [B' C']]]. apply (nth_ext _ _ 0 0); [congruence|]. intros k Hk. rewrite L in Hk.
  destruct (Nat.eq_dec k i) as [E|E]; [subst; congruence|]. destruct (Nat.eq_dec k j) as [E'|E']; [subst; congruence|].
  now rewrite C, C'.
Qed.
Lemma nth_default_eq (w : list nat) k d : k < length w -> nth k w d = nth k w 0.
Proof. intros. now apply nth_indep. Qed.
Lemma sum_lens n m : m <= n -> 2 * length (flat_map (fun i => map (fun j => (i, j)) (seq (i + 1) (n - (i + 1)))) (seq 0 m)) + m * (m + 1) = 2 * m * n.
Proof.
  induction m as [|m IH]; intros H; [reflexivity|]. rewrite seq_S, flat_map_app, app_length. cbn [flat_map]. rewrite app_nil_r, map_length, seq_length.
  specialize (IH ltac:(lia)). cbn [Nat.add]. nia.
Qed.
Theorem C84_reflections n : exists rs, reflections n = Ok rs /\ NoDup rs /\ 2 * length rs = n * (n - 1) /\
  (forall w, In w rs <-> exists i j, i < j /\ j < n /\ swaps n i j w) /\
  (forall w, In w rs -> is_perm_word n w).
Proof.
  exists (map (fun '(i, j) => ptrans n i j) (pairs n)). split; [|split; [|split; [|split]]].
  - unfold reflections. fold (pairs n). rewrite (mapM_ok _ (fun '(i, j) => ptrans n i j)); [reflexivity|].
    intros [i j] H. apply in_pairs in H. apply transposition_ok; lia.
  - assert (K : forall i j i' j', i < j -> j < n -> i' < j' -> j' < n -> ptrans n i j = ptrans n i' j' -> i = i' /\ j = j').
    { intros i j i' j' A B A' B' E.
      pose proof (ptrans_swaps n i j ltac:(lia) ltac:(lia)) as [_ [S1 [S2 S3]]].
      pose proof (ptrans_swaps n i' j' ltac:(lia) ltac:(lia)) as [_ [T1 [T2 T3]]]. rewrite <- E in T1, T2, T3.
      destruct (Nat.eq_dec i i') as [->|N]; [split; congruence|exfalso].
      destruct (Nat.eq_dec i j') as [->|N']; [|rewrite T3 in S1 by lia; lia]. rewrite T2 in S1. lia. }
    generalize (nodup_pairs n) (fun i j => proj1 (in_pairs n i j)). generalize (pairs n). intros l. induction l as [|[i j] l IH]; intros ND H; [constructor|].
    inversion ND as [|? ? N1 N2]; subst. cbn [map]. constructor; [|apply IH; [exact N2|intros; apply H; now right]].
    intros Q. apply in_map_iff in Q. destruct Q as [[i' j'] [E Q]]. destruct (H i j (or_introl eq_refl)), (H i' j' (or_intror Q)).
    destruct (K i' j' i j) as [-> ->]; auto.
  - rewrite map_length. pose proof (sum_lens n (n - 1) ltac:(lia)) as H. unfold pairs. destruct n as [|m]; [reflexivity|].
    replace (S m - 1) with m in * by lia. nia.
  - intros w. rewrite in_map_iff. split.
    + intros [[i j] [<- H]]. apply in_pairs in H. exists i, j. split; [lia|]. split; [lia|]. apply ptrans_swaps; lia.
    + intros [i [j [A [B C]]]]. exists (i, j). split; [|apply in_pairs; lia]. apply (swaps_unique n i j); [apply ptrans_swaps; lia|exact C].
  - intros w H. apply in_map_iff in H. destruct H as [[i j] [<- H]]. apply in_pairs in H. apply isperm_ptrans; lia.
Qed.
Example C84_case : reflections 3 = Ok [[1;0;2];[2;1;0];[0;2;1]] /\ swaps 3 0 2 [2;1;0].
Proof. split; [reflexivity|]. repeat split. intros [|[|[|k]]]; cbn; lia. Qed.

(** ** C85.  If b has the canonical decomposition (p, xs), then b.substring(i, j)
    is the braid with canonical decomposition (p, xs[i:j]). *)
Lemma chain_app_inv {A} (R : A -> A -> Prop) l1 : forall l2, chain R (l1 ++ l2) -> chain R l1 /\ chain R l2.
Proof.
  induction l1 as [|x l1 IH]; intros l2 H; [split; [exact I|exact H]|].
  destruct l1 as [|y l1]; [|].
  - split; [exact I|]. cbn in H. destruct l2; [exact I|]. now destruct H.
  - destruct H as [Hxy H]. change (chain R ((y :: l1) ++ l2)) in H. apply IH in H. destruct H as [H1' H2'].
    split; [split; assumption|assumption].
Qed.
Lemma slice_split {A} (l : list A) i j : i <= j -> l = firstn i l ++ firstn (j - i) (skipn i l) ++ skipn (j - i) (skipn i l).
Proof. intros. now rewrite firstn_skipn, firstn_skipn. Qed.
Theorem C85_substring n tb b i j : 2 <= n -> gnf_table n tb -> nf_value tb n b ->
  (i <= j /\ j <= length (o_factors b) ->
     exists c xs, substring tb b i j = Ok c /\ nf_value tb n c /\
       canonical_decomposition tb b = Ok (o_pow b, xs) /\
       canonical_decomposition tb c = Ok (o_pow b, firstn (j - i) (skipn i xs))) /\
  (~ (i <= j /\ j <= length (o_factors b)) -> substring tb b i j = Err AssertionError).
Proof.
  intros n2 Ht V. destruct (val_enc n tb n2 Ht b V) as [[d l] [Ho ->]].
  pose proof (gnf_table_ptab n tb Ht) as Etb. pose proof (ptab_ok n n2) as TK.
  assert (CD : forall m, canonical_decomposition tb (TableTheory.enc (PG n) n (idx n) (d, m)) = Ok (d, map (val n) m)).
  { intros m. unfold canonical_decomposition, canonical_factors. cbn [o_n TableTheory.enc]. rewrite Etb. cbn [bind o_factors snd].
    change (bind (bind (Ok (ptab n)) (fun t => mapM (pyget (t_divs t)) (map (idx n) m))) (fun fs => Ok (d, fs)) = Ok (d, map (val n) m)).
    cbn [bind]. rewrite divs_perms by exact n2. reflexivity. }
  unfold TableTheory.enc at 1 4. cbn [o_factors fst snd]. rewrite map_length. split.
  - intros [A B].
    assert (Ho' : ok (PG n) (peqd n) (d, firstn (j - i) (skipn i l))).
    { apply (ok_normal n n2 d). destruct (proj1 (ok_normal n n2 d l) Ho) as [F C].
      rewrite (slice_split l i j A), !map_app in F, C.
      rewrite !Forall_app in F. apply chain_app_inv in C. destruct C as [_ C]. apply chain_app_inv in C. split; tauto. }
    exists (TableTheory.enc (PG n) n (idx n) (d, firstn (j - i) (skipn i l))), (map (val n) l). split; [|split; [|split]].
    + unfold substring. unfold TableTheory.enc at 1 2. cbn [o_factors fst snd o_n o_pow]. rewrite map_length.
      rewrite (proj2 (Nat.leb_le i j) A), (proj2 (Nat.leb_le j (length l)) B). cbn [andb assert_ bind].
      cbn [o_pow o_factors TableTheory.enc fst snd]. rewrite skipn_map, firstn_map. apply (mkE n tb n2 Ht). exact Ho'.
    + now apply enc_val.
    + apply CD.
    + rewrite CD. cbn [o_pow TableTheory.enc fst]. rewrite <- firstn_map, <- skipn_map. reflexivity.
  - intros N. cbn [o_factors TableTheory.enc snd] in N. try rewrite map_length in N. unfold substring. cbn [o_factors TableTheory.enc snd]. rewrite map_length.
    destruct (Nat.leb_spec i j); [destruct (Nat.leb_spec j (length l)); [tauto|reflexivity]|reflexivity].
Qed.
Example C85_case : substring (gtb hdpick) (NFObj 3 1 [2; 3; 2]%Z) 1 2 = mk (gtb hdpick) 3 1 [3%Z] /\
  substring (gtb hdpick) (NFObj 3 1 [2; 2]%Z) 0 1 = Ok (NFObj 3 1 [2%Z]).
Proof. split; vm_compute; reflexivity. Qed.
