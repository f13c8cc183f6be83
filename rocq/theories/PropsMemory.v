(** PropsMemory.v – C133, continued: the memory that search.py needs. *)
From Verif Require Import Base ModelPoly SpecPoly PolyTheory PropsPoly ModelMatrix SpecMatrix MatrixTheory NumTheory ModelPolymat SpecPolymat PolymatTheory PropsPolymat PropsPolymat2 PropsPolymat3.
From Coq Require Import Permutation QArith_base.
From Verif Require Import ModelPerm Germ GermNF GermAct GermBraid PermTheory WeakOrder PermWords SpecBraid BraidTheory ModelBraid ModelTL ModelTLMor ModelRep SpecRep RepTheory PropsRep ModelPolyRep TableTheory NFApi PermGerm PermTable PropsGNF PropsGNF2 PolyRepTheory PolyRepSpan PropsPolyRep PropsPolyRep2 JSTheory PropsJS DescTheory ModelTracker DescTheory2 DescTheory3.
From Verif Require Import SpecTracker TrackerTheory TrackerRun PropsTracker TrackerRun2 PropsTracker2 PropsDesc PropsDesc2 ModelSql ModelSearch PropsSearch2 PropsDegree.
From Verif Require PropsSql PropsSearch PropsExtra PropsReflect PropsReflect2.
Local Open Scope nat_scope.
Local Notation ptv := PropsSearch.positive_value.

(** ** the search *)
Definition limit (n r k : nat) : nat := r * (n - r + 1) * k + 1.
Definition of_length (k : nat) (s : strk) : list (stag * sbucket) := filter (fun kv => fst (fst kv) =? k) (st_buckets s).
Lemma in_range_count (l : list Z) N : NoDup l -> (forall v, In v l -> (1 <= v <= Z.of_nat N)%Z) -> length l <= N.
Proof.
  intros ND H. rewrite <- (map_length Z.to_nat l), <- (seq_length N 1). apply NoDup_incl_length.
  - clear - ND H. induction ND as [|x l Nx ND IH]; cbn [map]; constructor; [|apply IH; intros; apply H; now right]. intros K. apply in_map_iff in K. destruct K as (y & E & Hy). apply Nx. pose proof (H x (or_introl eq_refl)). pose proof (H y (or_intror Hy)). now replace x with y by lia.
  - intros v Hv. apply in_map_iff in Hv. destruct Hv as (y & <- & Hy). specialize (H y Hy). apply in_seq. lia.
Qed.
Lemma dget_nodup {V} (l : list (stag * V)) k v : NoDup (map fst l) -> In (k, v) l -> dget stag_eqb l k = Some v.
Proof.
  induction l as [|[k' v'] l IH]; intros N H; [destruct H|]. cbn [map fst] in N. inversion N as [|? ? A B]; subst. cbn [dget]. destruct H as [H|H].
  - injection H as -> ->. now rewrite (proj2 (stag_eqb_iff k k) eq_refl).
  - destruct (stag_eqb k k') eqn:E; [|now apply IH]. apply stag_eqb_iff in E. subst k'. exfalso. apply A. apply in_map_iff. exists (k, v). auto.
Qed.
(** In every state of the search there are at most r(n-r+1)k + 1 buckets of braids of
    length k, so at most (r(n-r+1)k + 1) * size braids of length k are held. *)
Theorem C133_memory n r p S R d tb rint crit order size rand L first count use_best save_best step s0 saves s :
  jones_summand n r p = Ok S -> jones_rep n r p = Ok R -> 1 <= r -> rep_dimension R = Ok (Z.of_nat d) -> p <> 1%Z -> 2 <= n -> gnf_table n tb -> 1 <= size -> (0 <= step)%Z ->
  (p <> 0%Z -> (Z.of_nat d * (((step + 1) * Z.of_nat (n * (n - 1)) + 1) * ((p - 1) * (p - 1))) < 2 ^ 31)%Z) ->
  (p = 0%Z -> n <= 9 /\ forall x X, ptv tb n x -> (Z.of_nat (length (o_factors x)) <= Z.max L (first + Z.of_nat count - 1 + step))%Z -> rep_evaluate_nf tb R x = Ok X -> int64_matrix X) ->
  (forall k l, Permutation l (order k l)) ->
  st_bootstrap rint crit tb S (strk_init size rand) L = Ok s0 -> search_steps rint crit tb S order s0 first count use_best save_best step = Ok (saves, s) ->
  forall k, length (of_length k s) <= limit n r k /\ length (flat_map (fun kv => sb_braids (snd kv)) (of_length k s)) <= limit n r k * size.
Proof.
  intros ES EJ Hr ED Hp1 n2 Ht Hsz Hst BN HZ HO HB HS k.
  destruct (search_reach n r p S R d tb rint crit order size rand L first count use_best save_best step s0 saves s ES EJ Hr ED Hp1 n2 Ht Hsz Hst BN HZ HB HS) as (os & E & HOs).
  pose proof (C76_search n r p S R d tb rint crit order size rand L first count use_best save_best step s0 saves s ES EJ Hr ED Hp1 n2 Ht Hsz Hst BN HZ HB HS) as CS.
  assert (ESn : js_n S = n) by (rewrite (js_fields _ _ _ _ ES); reflexivity).
  destruct (PropsSearch.C77_reachable n tb rint crit S order size rand L first count use_best save_best step s0 saves s n2 Ht ESn HO HB HS) as (_ & ND & _).
  assert (F : Forall (sop_ok d d (if (0 <? p)%Z then I32 else I64)) os).
  { apply Forall_forall. intros [bs im|tg] Ho; [|exact Logic.I]. destruct (HOs bs im Ho) as [(W & I1 & E1 & E2 & E3 & K) _]. cbn. do 4 (split; [assumption|]). intros ix V. rewrite I1 in V. destruct (valid1 _ _ V) as [q [-> Hq]]. destruct (K q _ (nth_error_nth' bs (NFObj 0 0 []) Hq)) as (_ & _ & (i & j & Hi & Hj & NZ) & _). exists i, j, 0. rewrite E1, E2. auto. }
  destruct (C69_braidsearch rint crit size rand d d _ os s Hsz F E) as (h & _ & CAP).
  assert (G : forall tag bk, In (tag, bk) (of_length k s) -> fst tag = k /\ (1 <= snd tag <= Z.of_nat (limit n r k))%Z /\ length (sb_braids bk) <= size).
  { intros tag bk H. unfold of_length in H. apply filter_In in H. destruct H as [H Hk]. cbn [fst] in Hk. apply Nat.eqb_eq in Hk. assert (GD : dget stag_eqb (st_buckets s) tag = Some bk) by (apply dget_nodup; assumption).
    destruct (CAP tag bk GD) as (items & _ & EB & _ & Li). destruct (CS tag bk GD) as (_ & HC). split; [exact Hk|]. split; [|rewrite EB, map_length; lia].
    destruct (sb_braids bk) as [|b bs] eqn:EBs; [symmetry in EB; apply map_eq_nil in EB; subst items; cbn [length] in Li; lia|]. destruct (HC b (or_introl eq_refl)) as ([Vb _] & Lb & SP).
    destruct (api_word _ _ _ _ _ _ _ _ _ (ptab_ok n n2) tb (gnf_table_ptab n tb Ht) b Vb) as (u & Eu & Hu & _ & _). destruct (PropsReflect.entry_Y n r p R d EJ ED u Hu) as (X & EX & _). assert (EX' : rep_evaluate_nf tb R b = Ok X) by (unfold rep_evaluate_nf; now rewrite Eu).
    pose proof (C133_projlen n r p tb R d b X (snd tag) n2 Ht EJ ED Vb EX' (SP X EX')) as K. unfold canonical_length in K. rewrite Lb, Hk in K. unfold limit. clear - K. lia. }
  assert (N1 : length (of_length k s) <= limit n r k).
  { eapply Nat.le_trans; [apply Nat.eq_le_incl; symmetry; apply (map_length (fun kv : stag * sbucket => snd (fst kv)))|]. apply in_range_count; [|intros v Hv; apply in_map_iff in Hv; destruct Hv as ([tag bk] & <- & H); apply (G tag bk H)].
    assert (ND' : NoDup (map fst (of_length k s))). { unfold of_length. unfold PropsSearch.keys in ND. clear - ND. induction (st_buckets s) as [|x l IH]; [constructor|]. cbn [map] in ND. inversion ND as [|? ? A B]; subst. cbn [filter]. destruct (_ =? k); [|now apply IH]. cbn [map]. constructor; [|now apply IH]. intros H. apply A. apply in_map_iff in H. destruct H as (y & Ey & Hy). apply filter_In in Hy. rewrite <- Ey. apply in_map. apply Hy. }
    clear - ND' G. induction (of_length k s) as [|[tag bk] l IH]; [constructor|]. cbn [map] in *. inversion ND' as [|? ? A B]; subst. constructor; [|apply IH; auto; intros; apply G; now right]. intros H. apply A. apply in_map_iff in H. destruct H as ([t' b'] & Et & H'). apply in_map_iff. exists (t', b'). split; [|exact H']. cbn [fst snd] in *. destruct (G tag bk (or_introl eq_refl)) as (K1 & _). destruct (G t' b' (or_intror H')) as (K2 & _). destruct tag, t'. cbn [fst snd] in *. congruence. }
  split; [exact N1|]. apply Nat.le_trans with (length (of_length k s) * size); [|now apply Nat.mul_le_mono_r].
  clear - G. induction (of_length k s) as [|[tag bk] l IH]; [cbn; lia|]. cbn [flat_map length snd]. rewrite app_length. destruct (G tag bk (or_introl eq_refl)) as (_ & _ & K). assert (IH' := IH (fun t b H => G t b (or_intror H))). clear - IH' K. cbn [Nat.mul]. lia.
Qed.
(** the hypotheses are those of C76_search: in the search of its case, braids of length
    3 in B_3 are spread over at most 10 buckets *)
Example C133_memory_case : exists s0 saves s, PropsSearch.ex_tracker = Ok s0 /\ search_steps (fun _ => 0) every (gtb hdpick) PropsSearch.ex_js (fun _ l => rev l) s0 1 2 4 4 1 = Ok (saves, s) /\
  1 <= length (of_length 3 s) <= 10 /\ limit 3 1 3 = 10.
Proof.
  destruct C76_search_case_hyps as (R & s0 & saves & s & bk & ES & EJ & ED & GT & BN & E0 & E1 & G & _). exists s0, saves, s. split; [exact E0|]. split; [exact E1|]. split; [|reflexivity]. split.
  - assert (I : In (3, 7%Z) (map fst (st_buckets s))) by (apply PropsSearch.dget_in; eauto). apply in_map_iff in I. destruct I as ([t b] & Et & Hb). cbn [fst] in Et. subst t. assert (I : In ((3, 7%Z), b) (of_length 3 s)) by (apply filter_In; auto). destruct (of_length 3 s); [destruct I|]. cbn [length]. lia.
  - refine (proj1 (C133_memory 3 1 2 PropsSearch.ex_js R 2 (gtb hdpick) (fun _ => 0) every (fun _ l => rev l) _ _ _ 1%Z 2 4%Z 4%Z 1%Z s0 saves s ES EJ _ ED _ _ GT _ _ (fun _ => BN) _ _ E0 E1 3)); [auto|discriminate|auto|auto with arith|discriminate|discriminate|intros; apply Permutation_rev].
Qed.
