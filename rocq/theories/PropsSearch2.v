(** PropsSearch2.v – C78 (what the rows of the database say is true), C100 (the
    near-kernel elements that search.py prints) and C101 (search.py as a whole runs
    to its end). *)
From Verif Require Import Base ModelPoly SpecPoly PolyTheory PropsPoly ModelMatrix SpecMatrix MatrixTheory NumTheory ModelPolymat SpecPolymat PolymatTheory PropsPolymat PropsPolymat2 PropsPolymat3.
From Coq Require Import Permutation QArith_base.
From Verif Require Import ModelPerm Germ GermNF GermAct GermBraid PermTheory WeakOrder PermWords SpecBraid BraidTheory ModelBraid ModelTL ModelTLMor ModelRep SpecRep RepTheory PropsRep ModelPolyRep TableTheory NFApi PermGerm PermTable PropsGNF PropsGNF2 PolyRepTheory PolyRepSpan PropsPolyRep PropsPolyRep2 JSTheory PropsJS DescTheory ModelTracker DescTheory2 DescTheory3.
From Verif Require Import SpecTracker TrackerTheory TrackerRun PropsTracker TrackerRun2 PropsTracker2 PropsDesc PropsDesc2 ModelSql ModelSearch.
From Verif Require PropsSql PropsSearch PropsExtra.
Local Open Scope nat_scope.
Local Notation ptv := PropsSearch.positive_value.

Section Run.
Variables (rint : nat -> nat) (crit : list nfobj -> parr -> res (list bool)) (tb : nat -> res (nftable (list nat))) (S : jsum) (order : nat -> list (stag * nat) -> list (stag * nat)).
Variables (use_best save_best step : Z).
(** ** unrolling the loop *)
Definition one (s : strk) (k : Z) : res (list (stag * list nfobj) * strk) :=
  if (k <? 0)%Z then Ok ([], s) else '(_, saved, s') <- search_step rint crit tb S order s (Z.to_nat k) use_best save_best step ;; Ok (saved, s').
Let F first := (fun '(saves, s) i =>
      let k := (first + Z.of_nat i)%Z in
      if (k <? 0)%Z then Ok (saves ++ [[]], s)
      else '(_, saved, s) <- search_step rint crit tb S order s (Z.to_nat k) use_best save_best step ;; Ok (saves ++ [saved], s)) : list (list (stag * list nfobj)) * strk -> nat -> res (list (list (stag * list nfobj)) * strk).
Lemma fold_shift first c : forall i a s, foldM (F first) (seq i c) (a, s) = '(svs, s') <- search_steps rint crit tb S order s (first + Z.of_nat i) c use_best save_best step ;; Ok (a ++ svs, s').
Proof.
  assert (G : forall c i j a b s f g, (f + Z.of_nat i = g + Z.of_nat j)%Z -> foldM (F f) (seq i c) (a ++ b, s) = '(svs, s') <- foldM (F g) (seq j c) (b, s) ;; Ok (a ++ svs, s')).
  { clear. induction c as [|c IH]; intros i j a b s f g E; cbn [seq foldM]; [reflexivity|]. unfold F at 1 3. cbv zeta. rewrite E. destruct (_ <? 0)%Z.
    - cbn [bind]. rewrite <- app_assoc. apply IH. lia.
    - destruct (search_step _ _ _ _ _ _ _ _ _ _) as [[[sel sv] s1]|]; [|reflexivity]. cbn [bind]. rewrite <- app_assoc. apply IH. lia. }
  intros i a s. rewrite <- (app_nil_r a) at 1. rewrite (G c i 0 a [] s first (first + Z.of_nat i)%Z) by lia. reflexivity.
Qed.
Lemma steps_S s k c : search_steps rint crit tb S order s k (Datatypes.S c) use_best save_best step =
  '(sv, s1) <- one s k ;; '(svs, s2) <- search_steps rint crit tb S order s1 (k + 1) c use_best save_best step ;; Ok (sv :: svs, s2).
Proof.
  unfold search_steps at 1. change (foldM (F k) (seq 0 (Datatypes.S c)) ([], s) = '(sv, s1) <- one s k ;; '(svs, s2) <- search_steps rint crit tb S order s1 (k + 1) c use_best save_best step ;; Ok (sv :: svs, s2)).
  cbn [seq foldM]. unfold F at 1. cbv zeta. change (Z.of_nat 0) with 0%Z. rewrite Z.add_0_r. unfold one. destruct (k <? 0)%Z.
  - cbn [bind app]. rewrite fold_shift. reflexivity.
  - destruct (search_step _ _ _ _ _ _ _ _ _ _) as [[[sel sv] s1]|]; [|reflexivity]. cbn [bind app]. rewrite fold_shift. reflexivity.
Qed.
Lemma one_ok s k saved s' : save_selection order s k save_best = Ok saved -> advance rint crit tb S order s k use_best save_best step = Ok s' -> one s k = Ok (saved, s').
Proof.
  unfold save_selection, advance, one. destruct (k <? 0)%Z; [now intros [= <-] [= <-]|]. intros E. unfold search_step. cbv zeta. rewrite E. cbn [bind]. destruct (foldM _ _ s) as [q|]; [|discriminate]. cbn [bind]. intros [= <-]. reflexivity.
Qed.
Lemma one_inv s k saved s' : one s k = Ok (saved, s') -> save_selection order s k save_best = Ok saved /\ advance rint crit tb S order s k use_best save_best step = Ok s'.
Proof.
  unfold save_selection, advance, one. destruct (k <? 0)%Z; [now intros [= <- <-]|]. unfold search_step. cbv zeta. destruct (mapM _ _) as [sv|]; [|discriminate]. cbn [bind]. destruct (foldM _ _ s) as [q|]; [|discriminate]. cbn [bind]. now intros [= <- <-].
Qed.
(** every save of a run is made in a state reached by a number of whole iterations *)
Lemma saves_from count : forall s k saved, In saved (search_saves rint crit tb S order count s k use_best save_best step) ->
  exists c svs s', c < count /\ search_steps rint crit tb S order s k c use_best save_best step = Ok (svs, s') /\ save_selection order s' (k + Z.of_nat c) save_best = Ok saved.
Proof.
  induction count as [|count IH]; intros s k saved; cbn [search_saves]; [intros []|]. destruct (save_selection order s k save_best) as [sv|] eqn:E; [|intros []]. intros [->|H].
  - exists 0, [], s. split; [lia|]. split; [reflexivity|]. now rewrite Z.add_0_r.
  - destruct (advance _ _ _ _ _ _ _ _ _ _) as [s1|] eqn:A; [|destruct H]. destruct (IH s1 (k + 1)%Z saved H) as (c & svs & s' & Hc & ES & EV). exists (Datatypes.S c), (sv :: svs), s'. split; [lia|]. split.
    + rewrite steps_S, (one_ok s k sv s1 E A). cbn [bind]. now rewrite ES.
    + now replace (k + Z.of_nat (Datatypes.S c))%Z with (k + 1 + Z.of_nat c)%Z by lia.
Qed.
(** the iterations of the main loop, one by one *)
Lemma main_from count stop : forall s k prints saves s2, search_main rint crit tb S order count s k use_best save_best step stop = Ok (prints, saves, s2) ->
  length prints = length saves /\ length saves <= count /\ search_steps rint crit tb S order s k (length saves) use_best save_best step = Ok (saves, s2) /\
  (forall i, i < length saves -> exists svs s', search_steps rint crit tb S order s k i use_best save_best step = Ok (svs, s') /\ svs = firstn i saves /\
     near_kernel_report tb order s' (k + Z.of_nat i) = Ok (nth i prints []) /\
     (stop = true -> i + 1 < length saves -> near_kernel_rows order s' (k + Z.of_nat i) = []) /\
     (i + 1 = length saves -> length saves < count -> stop = true /\ near_kernel_rows order s' (k + Z.of_nat i) <> [])) /\
  (length saves = 0 -> count = 0).
Proof.
  induction count as [|count IH]; intros s k prints saves s2; cbn [search_main]; [intros [= <- <- <-]; cbn [length]; split; [reflexivity|]; split; [lia|]; split; [reflexivity|]; split; [intros; lia|auto]|].
  destruct (near_kernel_report tb order s k) as [pr|] eqn:EP; [|discriminate]. cbn [bind]. destruct (save_selection order s k save_best) as [sv|] eqn:E; [|discriminate]. cbn [bind]. destruct (advance _ _ _ _ _ _ _ _ _ _) as [s1|] eqn:A; [|discriminate]. cbn [bind].
  destruct (stop && _) eqn:H.
  - intros [= <- <- <-]. cbn [length]. apply andb_prop in H. destruct H as [-> H]. apply negb_true_iff, Nat.eqb_neq in H. split; [reflexivity|]. split; [lia|]. split; [rewrite steps_S, (one_ok s k sv s1 E A); reflexivity|]. split; [|discriminate].
    intros [|i] Hi; [|lia]. exists [], s. split; [reflexivity|]. split; [reflexivity|]. rewrite Z.add_0_r. split; [exact EP|]. split; [intros; lia|]. intros _ _. split; [reflexivity|]. intros Q. now rewrite Q in H.
  - destruct (search_main _ _ _ _ _ _ _ _ _ _ _ _) as [[[ps ss] q]|] eqn:M; [|discriminate]. cbn [bind]. intros [= <- <- <-]. destruct (IH s1 (k + 1)%Z ps ss q M) as (L1 & L2 & ST & K & L0). cbn [length]. split; [lia|]. split; [lia|]. split; [rewrite steps_S, (one_ok s k sv s1 E A); cbn [bind]; now rewrite ST|]. split; [|discriminate].
    intros [|i] Hi.
    + exists [], s. split; [reflexivity|]. split; [reflexivity|]. rewrite Z.add_0_r. split; [exact EP|]. split.
      * intros -> _. cbn [andb] in H. apply negb_false_iff, Nat.eqb_eq in H. now destruct (near_kernel_rows order s k).
      * intros Q1 Q2. assert (length ss = 0) by lia. specialize (L0 H0). lia.
    + destruct (K i ltac:(lia)) as (svs & s' & E1 & E2 & E3 & E4 & E5). exists (sv :: svs), s'. split; [rewrite steps_S, (one_ok s k sv s1 E A); cbn [bind]; now rewrite E1|]. split; [now rewrite E2|]. replace (k + Z.of_nat (Datatypes.S i))%Z with (k + 1 + Z.of_nat i)%Z by lia. cbn [nth]. split; [exact E3|]. split; [intros; apply E4; [assumption|lia]|]. intros; apply E5; lia.
Qed.
End Run.

(** ** what a search stores *)
Lemma js_fields n r p S : jones_summand n r p = Ok S -> S = mkJS n r p.
Proof. intros ES. unfold jones_summand in ES. destruct (assert_ (1 <=? n)); [|discriminate]. cbn [bind] in ES. destruct (assert_ (2 * r <=? n)); [|discriminate]. cbn [bind] in ES. destruct (assert_ (0 <=? p)%Z); [|discriminate]. cbn [bind] in ES. congruence. Qed.
Lemma literal_text n tb b : ptv tb n b -> literal_eval (saved_text b) = Ok (PTup [PInt (Z.of_nat n); PInt 0; PTup (map PInt (o_factors b))]).
Proof.
  intros [V P]. unfold saved_text. rewrite PropsSql.literal_eval_str. unfold astuple. rewrite P. destruct V as (t0 & p0 & f0 & _ & _ & M). unfold mk in M. destruct (tb n) as [t1|]; [|discriminate]. cbn [bind] in M. destruct (is_factors_normalised t1 f0) as [x|]; [|discriminate]. cbn [bind] in M. destruct x; [|discriminate]. cbn in M. injection M as <-. reflexivity.
Qed.
Lemma in_save_rows n r p saved x : In x (save_rows (mkJS n r p) saved) -> exists t bs b, In (t, bs) saved /\ In b bs /\ x = mkRow n r p (fst t) (snd t) (saved_text b).
Proof. unfold save_rows. intros H. apply in_flat_map in H. destruct H as ([t bs] & H1 & H2). apply in_map_iff in H2. destruct H2 as (b & <- & Hb). exists t, bs, b. auto. Qed.
Lemma in_saved order s k sb saved t bs : save_selection order s k sb = Ok saved -> In (t, bs) saved -> Z.of_nat (fst t) = k /\ exists bk, dget stag_eqb (st_buckets s) t = Some bk /\ bs = sb_braids bk.
Proof.
  unfold save_selection. destruct (Z.ltb_spec k 0); [intros [= <-] []|]. intros E H1. destruct (PropsSearch.mapM_in _ _ _ _ E H1) as (t' & Ht & K). unfold dgetE in K. destruct (dget _ _ t') as [b|] eqn:G; [|discriminate]. cbn [bind] in K. injection K as -> <-. split; [|eauto].
  apply in_map_iff in Ht. destruct Ht as (y & <- & Hy). rewrite (in_selection _ _ _ _ Hy). lia.
Qed.

(** C78.  At every crash point of a search (any prefix of its database events, also
    when the search ends by an exception), every row of the file is about a braid:
    the row records n, r and p; its text reads back as the tuple of a positive
    normal form b of B_n; its length is the number of factors of b, one of the
    lengths processed; and its projlen is the number of degrees spanned, modulo p,
    by the matrix of b in the Jones representation. *)
Theorem C78_true_rows n r p S R d tb rint crit order size rand L first count use_best save_best step s0 m x :
  jones_summand n r p = Ok S -> jones_rep n r p = Ok R -> 1 <= r -> rep_dimension R = Ok (Z.of_nat d) -> p <> 1%Z -> 2 <= n -> gnf_table n tb -> 1 <= size -> (0 <= step)%Z ->
  (p <> 0%Z -> (Z.of_nat d * (((step + 1) * Z.of_nat (n * (n - 1)) + 1) * ((p - 1) * (p - 1))) < 2 ^ 31)%Z) ->
  (p = 0%Z -> n <= 9 /\ forall x X, ptv tb n x -> (Z.of_nat (length (o_factors x)) <= Z.max L (first + Z.of_nat count - 1 + step))%Z -> rep_evaluate_nf tb R x = Ok X -> int64_matrix X) ->
  st_bootstrap rint crit tb S (strk_init size rand) L = Ok s0 ->
  In x (db_crash (db_run (mkDB [] None) (firstn m (search_events rint crit tb S order count s0 first use_best save_best step)))) ->
  row_n x = n /\ row_r x = r /\ row_p x = p /\ (first <= Z.of_nat (row_length x) < first + Z.of_nat count)%Z /\
  exists b X, ptv tb n b /\ length (o_factors b) = row_length x /\
    literal_eval (row_gnf x) = Ok (PTup [PInt (Z.of_nat n); PInt 0; PTup (map PInt (o_factors b))]) /\
    rep_evaluate_nf tb R b = Ok X /\ rep_span p d X (row_projlen x).
Proof.
  intros ES EJ Hr ED Hp1 n2 Ht Hsz Hst BN HZ HB Hx. rewrite (js_fields _ _ _ _ ES) in *. clear ES.
  destruct (PropsSearch.C78_atomic rint crit tb (mkJS n r p) order count s0 first use_best save_best step [] m) as [j E]. rewrite E in Hx. cbn [app] in Hx. clear E m.
  apply in_flat_map in Hx. destruct Hx as (saved & Hs & Hx). assert (Hs' : In saved (search_saves rint crit tb (mkJS n r p) order count s0 first use_best save_best step)) by (rewrite <- (firstn_skipn j); apply in_or_app; now left). clear Hs j.
  destruct (in_save_rows _ _ _ _ _ Hx) as (t & bs & b & H1 & Hb & ->). cbn [row_n row_r row_p row_length row_projlen row_gnf]. do 3 (split; [reflexivity|]).
  destruct (saves_from _ _ _ _ _ _ _ _ count s0 first saved Hs') as (c & svs & s' & Hc & ST & SV). destruct (in_saved _ _ _ _ _ _ _ SV H1) as [Lt (bk & G & ->)]. split; [lia|].
  assert (ES : jones_summand n r p = Ok (mkJS n r p)). { destruct (jones_all n r p R EJ) as (_ & _ & _ & _ & _ & _ & Hp & _). destruct (jones_rep_ok n r p R EJ) as (Hn & Hrn & _). unfold jones_summand. rewrite (proj2 (Nat.leb_le 1 n)), (proj2 (Nat.leb_le (2 * r) n)), (proj2 (Z.leb_le 0 p)) by lia. reflexivity. }
  destruct (C76_search n r p (mkJS n r p) R d tb rint crit order size rand L first c use_best save_best step s0 svs s' ES EJ Hr ED Hp1 n2 Ht Hsz Hst BN) with (tag := t) (bk := bk) as [HI K]; auto.
  { intros P0. destruct (HZ P0) as [H9 HX]. split; [exact H9|]. intros y X Vy Ly. apply HX; [exact Vy|lia]. }
  destruct (K b Hb) as (Vb & Lb & SP). apply In_nth_error in Hb. destruct Hb as [q Hq]. destruct HI as (_ & _ & _ & _ & _ & HI). destruct (HI q b Hq) as (_ & (X & EX & _) & _). exists b, X. split; [exact Vb|]. split; [exact Lb|]. split; [exact (literal_text n tb b Vb)|]. split; [exact EX|]. now apply SP.
Qed.

(** ** C100: the near-kernel elements *)
(** the powers of v that occur determine the span *)
Lemma rep_span_unique p d X u v : rep_span p d X u -> rep_span p d X v -> u = v.
Proof.
  intros (s & A1 & (i1 & j1 & Hi1 & Hj1 & N1) & (i2 & j2 & Hi2 & Hj2 & N2)) (t & B1 & (k1 & l1 & Hk1 & Hl1 & M1) & (k2 & l2 & Hk2 & Hl2 & M2)).
  pose proof (A1 _ _ _ Hk1 Hl1 M1). pose proof (A1 _ _ _ Hk2 Hl2 M2). pose proof (B1 _ _ _ Hi1 Hj1 N1). pose proof (B1 _ _ _ Hi2 Hj2 N2). lia.
Qed.
(** modulo p the matrix X is v^e times a non-zero matrix of constants *)
Definition near_kernel (p : Z) (d : nat) (X : mat num) : Prop :=
  exists e, (forall i j k, i < d -> j < d -> k <> e -> (p | numcoef (mentry X i j) k)%Z) /\ exists i j, i < d /\ j < d /\ ~ (p | numcoef (mentry X i j) e)%Z.
Lemma near_kernel_span p d X : near_kernel p d X <-> rep_span p d X 1.
Proof.
  split.
  - intros (e & A & i & j & Hi & Hj & N). exists e. split; [|split; exists i, j; replace (e + 1 - 1)%Z with e by lia; auto]. intros i' j' k Hi' Hj' Nk. destruct (Z.eq_dec k e); [lia|]. exfalso. apply Nk. now apply A.
  - intros (s & A & (i & j & Hi & Hj & N) & _). exists s. split; [|eauto]. intros i' j' k Hi' Hj' Nk. destruct (Znumtheory.Zdivide_dec p (numcoef (mentry X i' j') k)) as [Y|Y]; [exact Y|]. specialize (A i' j' k Hi' Hj' Y). lia.
Qed.
Lemma in_rows order s k row : (forall k l, Permutation l (order k l)) -> In row (near_kernel_rows order s k) <-> In row (stats_rows s) /\ snd (fst row) = 1%Z.
Proof. intros HO. unfold near_kernel_rows. rewrite filter_In, Z.eqb_eq. split; intros [A B]; split; auto; [apply (Permutation_in _ (Permutation_sym (HO _ _)) A)|apply (Permutation_in _ (HO _ _) A)]. Qed.
Lemma stats_bucket s t : (exists c, In (t, c) (stats_rows s)) <-> exists bk, dget stag_eqb (st_buckets s) t = Some bk.
Proof.
  rewrite PropsSearch.dget_in. unfold stats_rows. rewrite in_map_iff. split.
  - intros [c H]. apply in_map_iff in H. destruct H as ([t' bk] & E & H). injection E as -> _. exists (t, bk). auto.
  - intros ([t' bk] & E & H). cbn in E. subst t'. exists (length (sb_braids bk)). apply in_map_iff. exists (t, bk). auto.
Qed.
Lemma images_sop n p R tb d t bs im : images_of n p R tb d t bs im -> sop_ok d d t (SAdd bs im).
Proof. intros (W & I1 & E1 & E2 & E3 & K). cbn. do 4 (split; [assumption|]). intros ix V. rewrite I1 in V. destruct (valid1 _ _ V) as [k [-> Hk]]. destruct (K k _ (nth_error_nth' bs (NFObj 0 0 []) Hk)) as (_ & _ & (i & j & Hi & Hj & NZ) & _). exists i, j, 0. rewrite E1, E2. auto. Qed.
Lemma reach_sop n p R tb d t os : (forall bs im, In (SAdd bs im) os -> images_of n p R tb d t bs im /\ Forall (ptv tb n) bs) -> Forall (sop_ok d d t) os.
Proof. intros HO. apply Forall_forall. intros [bs im|tg] Ho; [|exact Logic.I]. apply (images_sop n p R tb). now apply HO. Qed.

(** C100.  In each iteration of a search (with or without --stop-at-projlen-1) the
    near-kernel elements that are printed are exactly the canonical decompositions
    of the braids that are stored at that time and whose matrix is, modulo p, a
    power of v times a matrix of constants; the printed pair gives back the
    braid.  Without the flag the search goes on for all the lengths; with
    the flag it stops at the end of the first iteration that prints one. *)
Theorem C100_near_kernel n r p S R d tb rint crit order size rand L first count use_best save_best step s0 stop prints saves s :
  jones_summand n r p = Ok S -> jones_rep n r p = Ok R -> 1 <= r -> rep_dimension R = Ok (Z.of_nat d) -> p <> 1%Z -> 2 <= n -> gnf_table n tb -> 1 <= size -> (0 <= step)%Z ->
  (p <> 0%Z -> (Z.of_nat d * (((step + 1) * Z.of_nat (n * (n - 1)) + 1) * ((p - 1) * (p - 1))) < 2 ^ 31)%Z) ->
  (p = 0%Z -> n <= 9 /\ forall x X, ptv tb n x -> (Z.of_nat (length (o_factors x)) <= Z.max L (first + Z.of_nat count - 1 + step))%Z -> rep_evaluate_nf tb R x = Ok X -> int64_matrix X) ->
  (forall k l, Permutation l (order k l)) ->
  st_bootstrap rint crit tb S (strk_init size rand) L = Ok s0 -> search_main rint crit tb S order count s0 first use_best save_best step stop = Ok (prints, saves, s) ->
  length saves = length prints /\ (stop = false -> length prints = count) /\ length prints <= count /\ search_steps rint crit tb S order s0 first (length prints) use_best save_best step = Ok (saves, s) /\
  forall i, i < length prints -> exists si, search_steps rint crit tb S order s0 first i use_best save_best step = Ok (firstn i saves, si) /\
    (forall e ws, In (e, ws) (nth i prints []) <-> exists tag bk b X, dget stag_eqb (st_buckets si) tag = Some bk /\ In b (sb_braids bk) /\ rep_evaluate_nf tb R b = Ok X /\ near_kernel p d X /\ canonical_decomposition tb b = Ok (e, ws)) /\
    (forall e ws, In (e, ws) (nth i prints []) -> e = 0%Z /\ exists b, ptv tb n b /\ from_gnf_pair tb n e ws = Ok b /\ forall X, rep_evaluate_nf tb R b = Ok X -> near_kernel p d X) /\
    (stop = true -> i + 1 < length prints -> nth i prints [] = []) /\ (i + 1 = length prints -> length prints < count -> stop = true /\ nth i prints [] <> []).
Proof.
  intros ES EJ Hr ED Hp1 n2 Ht Hsz Hst BN HZ HO HB HM. destruct (jones_all n r p R EJ) as (_ & _ & _ & _ & _ & _ & Hp & _).
  destruct (main_from _ _ _ _ _ _ _ _ _ _ _ _ _ _ _ HM) as (L1 & L2 & ST & K & L0). rewrite L1. split; [reflexivity|].
  split. { intros ->. destruct (Nat.eq_dec (length saves) 0) as [Q|Q]; [specialize (L0 Q); lia|]. destruct (Nat.eq_dec (length saves) count); [assumption|]. destruct (K (length saves - 1) ltac:(lia)) as (? & ? & _ & _ & _ & _ & K5). destruct (K5 ltac:(lia) ltac:(lia)). discriminate. }
  split; [exact L2|]. split; [exact ST|]. intros i Hi. destruct (K i Hi) as (svs & si & E1 & -> & E3 & E4 & E5). exists si. split; [exact E1|].
  assert (BZ : p = 0%Z -> n <= 9 /\ forall x X, ptv tb n x -> (Z.of_nat (length (o_factors x)) <= Z.max L (first + Z.of_nat i - 1 + step))%Z -> rep_evaluate_nf tb R x = Ok X -> int64_matrix X) by (intros P0; destruct (HZ P0) as [H9 HX]; split; [exact H9|]; intros y X Vy Ly; apply HX; [exact Vy|lia]).
  pose proof (C76_search n r p S R d tb rint crit order size rand L first i use_best save_best step s0 _ si ES EJ Hr ED Hp1 n2 Ht Hsz Hst BN BZ HB E1) as HS.
  destruct (search_reach n r p S R d tb rint crit order size rand L first i use_best save_best step s0 _ si ES EJ Hr ED Hp1 n2 Ht Hsz Hst BN BZ HB E1) as (os & EO & HOS).
  assert (NEB : forall tag bk, dget stag_eqb (st_buckets si) tag = Some bk -> sb_braids bk <> []).
  { intros tag bk G. destruct (C69_braidsearch rint crit size rand d d _ os si Hsz (reach_sop n p R tb d _ os HOS) EO) as (h & _ & KK). destruct (KK tag bk G) as (items & _ & -> & _ & LI). destruct items; [cbn in LI; lia|discriminate]. }
  unfold near_kernel_report in E3. destruct (mapM _ _) as [ls|] eqn:ML; [|discriminate]. cbn [bind] in E3. injection E3 as E3. rewrite <- E3.
  assert (IN : forall e ws, In (e, ws) (concat ls) <-> exists tag bk b X, dget stag_eqb (st_buckets si) tag = Some bk /\ In b (sb_braids bk) /\ rep_evaluate_nf tb R b = Ok X /\ near_kernel p d X /\ canonical_decomposition tb b = Ok (e, ws)).
  { intros e ws. rewrite in_concat. split.
    - intros (l & Hl & H). destruct (PropsSearch.mapM_in _ _ _ _ ML Hl) as (row & Hrow & El). unfold dgetE in El. destruct (dget stag_eqb (st_buckets si) (fst row)) as [bk|] eqn:G; [|discriminate]. cbn [bind] in El. destruct (PropsSearch.mapM_in _ _ _ _ El H) as (b & Hb & Eb).
      destruct (HS _ _ G) as [(_ & _ & _ & _ & _ & HI) HK]. destruct (HK b Hb) as (_ & _ & SP). destruct (In_nth_error _ _ Hb) as [q Hq]. destruct (HI q b Hq) as (_ & (X & EX & _) & _). exists (fst row), bk, b, X. split; [exact G|]. split; [exact Hb|]. split; [exact EX|]. split; [|exact Eb]. apply near_kernel_span. apply (in_rows _ _ _ _ HO) in Hrow. rewrite <- (proj2 Hrow). now apply SP.
    - intros (tag & bk & b & X & G & Hb & EX & NK & Eb). apply near_kernel_span in NK. destruct (HS _ _ G) as [_ HK]. destruct (HK b Hb) as (_ & _ & SP). pose proof (rep_span_unique _ _ _ _ _ (SP X EX) NK) as S1.
      destruct (proj2 (stats_bucket si tag) (ex_intro _ bk G)) as [c Hc]. assert (Hrow : In (tag, c) (near_kernel_rows order si (first + Z.of_nat i))) by (apply (in_rows _ _ _ _ HO); auto). destruct (PropsSearch.mapM_in' _ _ _ _ ML Hrow) as (l & Hl & El). exists l. split; [exact Hl|]. cbn [fst] in El. unfold dgetE in El. rewrite G in El. cbn [bind] in El. destruct (PropsSearch.mapM_in' _ _ _ _ El Hb) as (y & Hy & Ey). rewrite Eb in Ey. injection Ey as <-. exact Hy. }
  split; [exact IN|]. split; [|split].
  - intros e ws H. apply IN in H. destruct H as (tag & bk & b & X & G & Hb & EX & NK & Eb). destruct (HS _ _ G) as [_ HK]. destruct (HK b Hb) as ([Vb Pb] & _ & _). destruct (C48_from_gnf_pair_inverts n tb b n2 Ht Vb) as (xs & EC & _ & EG). rewrite Eb in EC. injection EC as -> ->. split; [exact Pb|]. exists b. split; [split; assumption|]. split; [exact EG|]. intros X' EX'. rewrite EX in EX'. now injection EX' as <-.
  - intros T Hlt. rewrite (E4 T Hlt) in ML. cbn in ML. injection ML as <-. reflexivity.
  - intros Q1 Q2. destruct (E5 Q1 Q2) as [T NR]. split; [exact T|]. destruct (near_kernel_rows order si (first + Z.of_nat i)) as [|[tag c] rows] eqn:ER; [contradiction|].
    assert (Hrow : In (tag, c) (near_kernel_rows order si (first + Z.of_nat i))) by (rewrite ER; now left). apply (in_rows _ _ _ _ HO) in Hrow. destruct Hrow as [Hrow T1]. destruct (proj1 (stats_bucket si tag) (ex_intro _ c Hrow)) as [bk G]. pose proof (NEB tag bk G) as NB. destruct (sb_braids bk) as [|b bs] eqn:EB; [contradiction|].
    destruct (HS _ _ G) as [(_ & _ & _ & _ & _ & HI) HK]. rewrite EB in HI, HK. destruct (HK b (or_introl eq_refl)) as ([Vb _] & _ & SP). destruct (HI 0 b eq_refl) as (_ & (X & EX & _) & _). destruct (C48_from_gnf_pair_inverts n tb b n2 Ht Vb) as (xs & EC & _).
    assert (H : In (inf b, xs) (concat ls)). { apply IN. exists tag, bk, b, X. split; [exact G|]. split; [rewrite EB; now left|]. split; [exact EX|]. split; [|exact EC]. apply near_kernel_span. rewrite <- T1. now apply SP. } intros Z0. rewrite Z0 in H. destruct H.
Qed.

(** ** C101: search.py runs to its end *)
Section Total.
Variables (n r : nat) (p : Z) (S : jsum) (R : rep) (d : nat) (tb : nat -> res (nftable (list nat))) (rint : nat -> nat) (crit : list nfobj -> parr -> res (list bool)).
Variables (order : nat -> list (stag * nat) -> list (stag * nat)) (size : nat) (rand : bool) (use_best save_best step : Z).
Hypothesis (ES : jones_summand n r p = Ok S) (EJ : jones_rep n r p = Ok R) (Hr : 1 <= r) (ED : rep_dimension R = Ok (Z.of_nat d)) (Hp2 : (2 <= p)%Z) (n2 : 2 <= n) (Ht : gnf_table n tb) (Hsz : 1 <= size) (Hst : (0 <= step)%Z).
Hypothesis (BN : (Z.of_nat d * (((step + 1) * Z.of_nat (n * (n - 1)) + 1) * ((p - 1) * (p - 1))) < 2 ^ 31)%Z).
Hypothesis (HC : forall bs im, exists keep, crit bs im = Ok keep /\ length keep <= length bs).
Hypothesis (HO : forall k l, Permutation l (order k l)).
Local Notation t := (if (0 <? p)%Z then I32 else I64).
Definition reach (s : strk) : Prop := exists os, st_run rint crit (strk_init size rand) os = Ok s /\ forall bs im, In (SAdd bs im) os -> images_of n p R tb d t bs im /\ Forall (ptv tb n) bs.
Lemma add_reach s bs im : reach s -> images_of n p R tb d t bs im -> Forall (ptv tb n) bs -> bs <> [] -> exists s', st_add rint crit s bs im = Ok s' /\ reach s'.
Proof using All.
  intros (os & EO & HOS) HI HV NE. destruct (st_new_run rint crit size rand d d t Hsz os s (reach_sop n p R tb d t os HOS) EO) as (h & _ & SO).
  destruct (st_add_total rint crit size rand d d t Hsz s h bs im (images_sop _ _ _ _ _ _ _ _ HI)) as (s1 & es & E1 & _ & _); [|exact SO|].
  - pose proof HI as (W & J1 & E1 & E2 & E3 & K). split; [exact J1|]. split; [|split; [|apply HC]].
    + destruct bs as [|b bs']; [contradiction|]. destruct (K 0 b eq_refl) as (_ & _ & (i & j & Hi & Hj & NZ) & _). intros Z0. unfold acoef in NZ. rewrite Z0 in NZ. cbn in NZ. contradiction.
    + intros i Hi. destruct (K i _ (nth_error_nth' bs (NFObj 0 0 []) Hi)) as (_ & _ & NZ & _). rewrite E1, E2. split; [exact NZ|intros; lia].
  - exists s1. split; [exact E1|]. exists (os ++ [SAdd bs im]). split; [rewrite PropsSearch.st_run_app, EO; cbn [bind]; unfold st_run; cbn [foldM st_apply]; now rewrite E1|]. intros bs' im' H. apply in_app_or in H. destruct H as [H|[H|[]]]; [now apply HOS|]. injection H as <- <-. auto.
Qed.
Lemma bootstrap_total L : exists s0, st_bootstrap rint crit tb S (strk_init size rand) L = Ok s0 /\ reach s0.
Proof using All.
  unfold st_bootstrap. assert (ESn : js_n S = n) by (rewrite (js_fields _ _ _ _ ES); reflexivity). rewrite ESn.
  assert (R0 : reach (strk_init size rand)) by (exists []; split; [reflexivity|intros ? ? []]).
  revert R0. generalize (strk_init size rand) as s. induction (seq 1 (Z.to_nat L)) as [|len ls IH]; intros s Rs; cbn [foldM]; [eauto|].
  destruct (C51_all_of_length_partial n tb (Z.of_nat len) 0 n2 Ht ltac:(lia)) as (bs & EB & _ & HB & EG & _). rewrite EG, EB. cbn [bind]. destruct (proj2 (C75_batched bs 10000) ltac:(lia)) as (cs & EC & CC & CN & _). rewrite EC. cbn [bind].
  assert (G : exists s1, foldM (fun s braids => images <- js_evaluate_same_length tb S braids ;; st_add rint crit s braids images) cs s = Ok s1 /\ reach s1).
  { assert (HV : forall c b, In c cs -> In b c -> nf_value tb n b /\ o_pow b = 0%Z /\ length (o_factors b) = len) by (intros c b Hc Hb; destruct (proj1 (HB b)) as (V & P0 & Lb); [rewrite <- CC; apply in_concat; eauto|]; rewrite Nat2Z.id in Lb; auto). assert (CN' : forall c, In c cs -> c <> []) by (intros c Hc; apply (CN c Hc)). clear EC CC CN HB EG EB bs IH.
    revert s Rs. induction cs as [|c cs IHc]; intros s Rs; cbn [foldM]; [eauto|].
    destruct (C61_summand n r p S R tb c d len ES EJ Hr Ht ltac:(lia) ED) as (P & EP & W & I1 & I2 & I3 & I4 & KP).
    - apply CN'. now left.
    - intros b Hb. destruct (HV c b (or_introl eq_refl) Hb) as (V & _ & Lb). auto.
    - intros _. eapply Z.le_lt_trans; [|exact BN]. apply Z.mul_le_mono_nonneg_l; [lia|]. apply Z.mul_le_mono_nonneg_r; [nia|]. nia.
    - intros P0. lia.
    - rewrite EP. cbn [bind]. destruct (add_reach s c P) as (s1 & E1 & R1); [exact Rs| | |apply CN'; now left|].
      + split; [exact W|]. do 4 (split; [assumption|]). intros k b Hk. destruct (KP k b Hk) as (K1 & K2 & K3). split; [apply (HV c b (or_introl eq_refl)); now apply nth_error_In in Hk|]. auto.
      + apply Forall_forall. intros b Hb. destruct (HV c b (or_introl eq_refl) Hb) as (V & P0 & _). split; assumption.
      + rewrite E1. cbn [bind]. apply IHc; [intros; eapply HV; [right; eassumption|assumption]|intros; apply CN'; now right|exact R1]. }
  destruct G as (s1 & E1 & R1). rewrite E1. cbn [bind]. apply IH. exact R1.
Qed.
Lemma desc_total s tag : reach s -> In tag (PropsSearch.keys s) -> exists s', st_nf_descendants rint crit tb S s tag step = Ok s' /\ reach s' /\ forall t', In t' (PropsSearch.keys s) -> In t' (PropsSearch.keys s').
Proof using All.
  intros (os & EO & HOS) Hk. apply PropsSearch.stats_in in Hk. destruct Hk as [bk G].
  destruct (C76_total_braidsearch n r p S R d tb rint crit size rand os s tag bk step ES EJ Hr ED ltac:(lia) n2 Ht Hsz Hst) as [s' E]; auto; [intros; lia|]. exists s'. split; [exact E|].
  destruct (C76_stored_braidsearch n p R tb d t rint crit size rand os s (ptv tb n) Hsz ltac:(lia) HOS EO tag bk G) as (PA & HI & HB).
  destruct (C76_braidsearch n r p S R d tb rint crit s tag bk step size) as (ads & EA & IA & dss & ED' & PD); auto; try lia.
  { intros b Hb. destruct (HB b Hb) as ([_ P0] & Lb & _). auto. }
  rewrite EA in E. split.
  - exists (os ++ PropsSearch.adds ads). split; [rewrite PropsSearch.st_run_app, EO; exact E|]. intros bs im Hin. apply in_app_iff in Hin. destruct Hin as [Hin|Hin]; [now apply HOS|].
    unfold PropsSearch.adds in Hin. apply in_map_iff in Hin. destruct Hin as ([bs1 im1] & Q & Hin). injection Q as -> ->. rewrite Forall_forall in IA. split; [exact (proj1 (IA _ Hin))|]. apply Forall_forall. intros c Hc.
    assert (Hd : In c (concat dss)) by (apply (Permutation_in _ PD), in_concat; exists bs; split; [apply in_map_iff; exists (bs, im); auto|exact Hc]). apply in_concat in Hd. destruct Hd as (ds & Hds & Hcd). destruct (PropsSearch.mapM_in _ _ _ _ ED' Hds) as (b & Hb & Eb). destruct (HB b Hb) as ([Vb Pb] & _ & _).
    destruct (proj1 (C76_prefix_descendants n tb b step ds n2 Ht Vb Pb Hst Eb c) Hcd) as (Vc & Pc & _). split; assumption.
  - clear - E. revert s E. induction ads as [|[bs im] ads IH]; intros s E; [injection E as <-; auto|]. unfold st_run, PropsSearch.adds in E. cbn [map foldM st_apply] in E. destruct (st_add rint crit s bs im) as [s1|] eqn:E1; [|discriminate]. cbn [bind] in E. destruct (PropsSearch.st_add_effect _ _ _ _ _ _ E1) as (bs' & _ & ((_ & K) & _)). intros t' H. apply (IH s1 E). now apply K.
Qed.
Lemma keys_stats s x : In x (stats_rows s) -> In (fst x) (PropsSearch.keys s).
Proof. destruct x as [tg c]. intros H. apply PropsSearch.stats_in, stats_bucket. eauto. Qed.
Lemma keys_selection s k limit tg : In tg (map fst (selection (order k (stats_rows s)) k limit)) -> In tg (PropsSearch.keys s).
Proof using All.
  intros H. apply in_map_iff in H. destruct H as (x & <- & H). apply keys_stats. unfold selection in H. apply in_cumsum in H. apply (Permutation_in _ (PropsSearch.sort_perm _)) in H. apply filter_In in H. apply (Permutation_in _ (Permutation_sym (HO k _))), H.
Qed.
Lemma one_total s k : reach s -> exists sv s', one rint crit tb S order use_best save_best step s k = Ok (sv, s') /\ reach s'.
Proof using All.
  intros Rs. unfold one. destruct (k <? 0)%Z; [eauto|]. unfold search_step. cbv zeta. set (q := Z.to_nat k).
  assert (SV : exists sv, mapM (fun t => b <- dgetE stag_eqb (st_buckets s) t ;; Ok (t, sb_braids b)) (map fst (selection (order q (stats_rows s)) q save_best)) = Ok sv).
  { pose proof (keys_selection s q save_best) as KS. revert KS. generalize (map fst (selection (order q (stats_rows s)) q save_best)) as l. induction l as [|tg l IH]; intros KS; [exists []; reflexivity|]. cbn [mapM]. destruct (proj1 (PropsSearch.stats_in s tg) (KS tg (or_introl eq_refl))) as [bk G]. unfold dgetE. rewrite G. cbn [bind]. destruct IH as [sv E]; [intros; apply KS; now right|]. unfold dgetE in E. rewrite E. cbn [bind]. eauto. }
  destruct SV as [sv ->]. cbn [bind].
  assert (FO : exists s', foldM (fun s t => st_nf_descendants rint crit tb S s t step) (map fst (selection (order q (stats_rows s)) q use_best)) s = Ok s' /\ reach s').
  { pose proof (keys_selection s q use_best) as KS. revert KS. generalize (map fst (selection (order q (stats_rows s)) q use_best)) as l. intros l. revert s Rs. induction l as [|tg l IH]; intros s Rs KS; cbn [foldM]; [eauto|].
    destruct (desc_total s tg Rs (KS tg (or_introl eq_refl))) as (s1 & E1 & R1 & K1). rewrite E1. cbn [bind]. apply IH; [exact R1|]. intros t' Ht'. apply K1, KS. now right. }
  destruct FO as (s' & E' & os & EO & HOS). rewrite E'. cbn [bind]. eexists _, _. split; [reflexivity|].
  set (rows := map fst _). exists (os ++ map SDiscard rows). split; [rewrite PropsSearch.st_run_app, EO; cbn [bind]; apply discard_run|]. intros bs im Hin. apply in_app_iff in Hin. destruct Hin as [Hin|Hin]; [now apply HOS|]. apply in_map_iff in Hin. destruct Hin as (? & ? & _). discriminate.
Qed.
Lemma report_total s k : reach s -> exists pr, near_kernel_report tb order s k = Ok pr.
Proof using All.
  intros (os & EO & HOS). unfold near_kernel_report. assert (HR : forall x, In x (near_kernel_rows order s k) -> In (fst x) (PropsSearch.keys s)) by (intros x Hx; apply keys_stats; exact (proj1 (proj1 (in_rows _ _ _ _ HO) Hx))).
  assert (G : exists ls, mapM (fun r => b <- dgetE stag_eqb (st_buckets s) (fst r) ;; mapM (canonical_decomposition tb) (sb_braids b)) (near_kernel_rows order s k) = Ok ls).
  { revert HR. generalize (near_kernel_rows order s k) as l. induction l as [|x l IH]; intros HR; [exists []; reflexivity|]. cbn [mapM]. destruct (proj1 (PropsSearch.stats_in s (fst x)) (HR x (or_introl eq_refl))) as [bk G]. unfold dgetE at 1. rewrite G. cbn [bind].
    destruct (C76_stored_braidsearch n p R tb d t rint crit size rand os s (ptv tb n) Hsz ltac:(lia) HOS EO _ bk G) as (_ & _ & HB).
    assert (D : exists ds, mapM (canonical_decomposition tb) (sb_braids bk) = Ok ds). { revert HB. generalize (sb_braids bk) as bs. induction bs as [|b bs IHb]; intros HB; [exists []; reflexivity|]. cbn [mapM]. destruct (HB b (or_introl eq_refl)) as ([Vb _] & _). destruct (C48_from_gnf_pair_inverts n tb b n2 Ht Vb) as (xs & EC & _). rewrite EC. cbn [bind]. destruct IHb as [ds ->]; [intros; apply HB; now right|]. cbn [bind]. eauto. }
    destruct D as [ds ->]. cbn [bind]. destruct IH as [ls E]; [intros; apply HR; now right|]. rewrite E. cbn [bind]. eauto. }
  destruct G as [ls ->]. cbn [bind]. eauto.
Qed.
Lemma main_total stop count : forall s k, reach s -> exists res, search_main rint crit tb S order count s k use_best save_best step stop = Ok res.
Proof using All.
  induction count as [|count IH]; intros s k Rs; cbn [search_main]; [eauto|]. destruct (report_total s k Rs) as [pr ->]. cbn [bind]. destruct (one_total s k Rs) as (sv & s' & E1 & R1). destruct (one_inv _ _ _ _ _ _ _ _ _ _ _ _ E1) as [-> ->]. cbn [bind]. destruct (stop && _); [eauto|]. destruct (IH s' (k + 1)%Z R1) as [[[ps ss] q] ->]. cbn [bind]. eauto.
Qed.
End Total.
Lemma criterion_total bs im : exists keep, search_criterion bs im = Ok keep /\ length keep <= length bs.
Proof. eexists. split; [reflexivity|]. now rewrite map_length. Qed.

(** C101.  With arguments that the argument checks accept (and n <= 6, r >= 1, and
    coefficients within int32), search.py raises no error: it bootstraps, and then
    goes through all the lengths up to 499, or up to the first near-kernel element;
    what it prints is right (C100). *)
Theorem C101_total rint tb order n r p L size use_best save_best step stop : 3 <= n <= 7 -> gnf_table n tb -> 1 <= r -> 2 * r <= n -> (2 <= p)%Z -> (0 <= L)%Z -> 1 <= size -> (0 <= step)%Z ->
  ((Z.of_nat (comb n r) - Z.of_nat (comb n (r - 1))) * (((step + 1) * Z.of_nat (n * (n - 1)) + 1) * ((p - 1) * (p - 1))) < 2 ^ 31)%Z -> (forall k l, Permutation l (order k l)) ->
  exists R d prints saves s, jones_rep n r p = Ok R /\ rep_dimension R = Ok (Z.of_nat d) /\ search_program rint tb order n r p L size use_best save_best step stop = Ok (prints, saves, s) /\
    (forall it e ws, In it prints -> In (e, ws) it -> e = 0%Z /\ exists b, ptv tb n b /\ from_gnf_pair tb n e ws = Ok b /\ forall X, rep_evaluate_nf tb R b = Ok X -> near_kernel p d X) /\
    (stop = false -> length prints = Z.to_nat (500 - (L - step + 1))) /\
    (stop = true -> length prints < Z.to_nat (500 - (L - step + 1)) -> forall i, i + 1 < length prints -> nth i prints [] = []) /\
    (length prints < Z.to_nat (500 - (L - step + 1)) -> last prints [] <> []).
Proof.
  intros Hn Ht Hr Hrn Hp HL Hsz Hst BN HO.
  assert (ES : jones_summand n r p = Ok (mkJS n r p)) by (unfold jones_summand; rewrite (proj2 (Nat.leb_le 1 n)), (proj2 (Nat.leb_le (2 * r) n)), (proj2 (Z.leb_le 0 p)) by lia; reflexivity).
  destruct (C63_dimension n r p _ ES Hr) as (R & B & d & EJ & _ & _ & Hd & EDJ & ED & _).
  assert (Dd : Z.of_nat d = (Z.of_nat (comb n r) - Z.of_nat (comb n (r - 1)))%Z). { unfold js_dimension, math_comb in EDJ. cbn [js_n js_r] in EDJ. destruct (Z.ltb_spec (Z.of_nat r) 0); [lia|]. destruct (Z.ltb_spec (Z.of_nat r - 1) 0); [lia|]. cbn [bind] in EDJ. injection EDJ as EDJ. rewrite Nat2Z.id in EDJ. replace (Z.to_nat (Z.of_nat r - 1)) with (r - 1) in EDJ by lia. now symmetry. }
  rewrite <- Dd in BN. exists R, d.
  destruct (bootstrap_total n r p _ R d tb rint search_criterion order size true use_best save_best step ES EJ Hr ED Hp ltac:(lia) Ht Hsz Hst BN criterion_total HO L) as (s0 & E0 & R0).
  set (first := (L - step + 1)%Z). set (count := Z.to_nat (500 - first)).
  destruct (main_total n r p _ R d tb rint search_criterion order size true use_best save_best step ES EJ Hr ED Hp ltac:(lia) Ht Hsz Hst BN criterion_total HO stop count s0 first R0) as [[[prints saves] s] EM].
  exists prints, saves, s. split; [exact EJ|]. split; [exact ED|]. split.
  { unfold search_program. rewrite (proj2 (Nat.leb_le 3 n)), (proj2 (Nat.leb_le n 7)), (proj2 (Nat.leb_le (2 * r) n)), (proj2 (Z.ltb_lt 0 p)) by lia. cbn [andb assert_ bind]. rewrite ES. cbn [bind]. destruct (C51_all_of_length_partial n tb L 0 ltac:(lia) Ht HL) as (bs & _ & _ & _ & _ & ->). cbn [bind]. rewrite E0. cbn [bind]. exact EM. }
  destruct (C100_near_kernel n r p _ R d tb rint search_criterion order size true L first count use_best save_best step s0 stop prints saves s ES EJ Hr ED ltac:(lia) ltac:(lia) Ht Hsz Hst ltac:(auto) ltac:(intros; lia) HO E0 EM) as (LS & K1 & K2 & _ & K).
  assert (L0 : length prints = 0 -> count = 0). { intros Q. destruct (main_from _ _ _ _ _ _ _ _ _ _ _ _ _ _ _ EM) as (_ & _ & _ & _ & L0). apply L0. lia. }
  split; [|split; [exact K1|split]].
  - intros it e ws Hit Hin. destruct (In_nth _ _ [] Hit) as (i & Hi & E). destruct (K i Hi) as (si & _ & _ & KB & _). rewrite E in KB. now apply KB.
  - intros T _ i Hi. destruct (K i ltac:(lia)) as (si & _ & _ & _ & KC & _). now apply KC.
  - intros Hlt. assert (length prints <> 0) by (intros Q; specialize (L0 Q); lia). destruct (K (length prints - 1) ltac:(lia)) as (si & _ & _ & _ & _ & KD). destruct (KD ltac:(lia) Hlt) as [_ N]. assert (NP : prints <> []) by (intros Q; rewrite Q in H; now apply H). destruct (exists_last NP) as (l & x & EL). rewrite EL, last_last. rewrite EL, app_length in N. cbn [length] in N. replace (length l + 1 - 1) with (length l) in N by lia. rewrite app_nth2, Nat.sub_diag in N by lia. exact N.
Qed.
(** the argument checks accept n = 7 and r = 0, but these searches raise ValueError *)
Theorem C101_n7_refuted rint pick order r p L size use_best save_best step stop : 2 * r <= 7 -> (0 < p)%Z ->
  search_program rint (gtb pick) order 7 r p L size use_best save_best step stop = Err ValueError.
Proof.
  intros Hr Hp. unfold search_program. rewrite (proj2 (Nat.leb_le (2 * r) 7)), (proj2 (Z.ltb_lt 0 p)) by lia. cbn [Nat.leb andb assert_ bind]. unfold jones_summand. rewrite (proj2 (Nat.leb_le (2 * r) 7)), (proj2 (Z.leb_le 0 p)) by lia. cbn [Nat.leb andb assert_ bind]. reflexivity.
Qed.
Theorem C101_r0_refuted : search_program (fun _ => 0) (gtb hdpick) (fun _ l => l) 3 0 5 1 10 100 100 1 false = Err ValueError.
Proof. vm_compute. reflexivity. Qed.
(** the hypotheses are met by the defaults of search.py with n = 4, r = 1, p = 2 *)
Example C101_case : 3 <= 4 <= 7 /\ gnf_table 4 (gtb hdpick) /\ 2 * 1 <= 4 /\ ((Z.of_nat (comb 4 1) - Z.of_nat (comb 4 (1 - 1))) * (((1 + 1) * Z.of_nat (4 * (4 - 1)) + 1) * ((2 - 1) * (2 - 1))) < 2 ^ 31)%Z.
Proof. split; [lia|]. split; [apply gtb_is_table; [apply hdpick_ok|lia]|]. split; [lia|]. cbn. lia. Qed.
(** the search finds near-kernel elements of the representation of B_4 with r = 2,
    and the flag stops it there *)
Definition T4 : res (nftable (list nat)) := Eval vm_compute in gtb hdpick 4.
Definition tb4 (n : nat) : res (nftable (list nat)) := if n =? 4 then T4 else gtb hdpick n.
Example C100_case_table : gnf_table 4 tb4.
Proof. assert (E : tb4 4 = gtb hdpick 4) by (vm_compute; reflexivity). pose proof (gtb_is_table hdpick 4 hdpick_ok ltac:(lia)) as G. unfold gnf_table in *. now rewrite E. Qed.
Example C100_case : match search_program (fun _ => 0) tb4 (fun _ l => rev l) 4 2 3 1 2 100 100 1 true with
  | Ok (prints, saves, _) => length saves = 1 /\ prints = [[(0%Z, [[3; 0; 1; 2]]); (0%Z, [[1; 2; 3; 0]])]]
  | Err _ => False end.
Proof. vm_compute. split; reflexivity. Qed.
