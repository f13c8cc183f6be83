(** PropsExhaust.v – C130: with large enough limits search.py is exhaustive. *)
From Verif Require Import Base ModelPoly SpecPoly PolyTheory PropsPoly ModelMatrix SpecMatrix MatrixTheory NumTheory ModelPolymat SpecPolymat PolymatTheory PropsPolymat PropsPolymat2 PropsPolymat3.
From Coq Require Import Permutation QArith_base.
From Verif Require Import ModelPerm Germ GermNF GermAct GermBraid PermTheory WeakOrder PermWords SpecBraid BraidTheory ModelBraid ModelTL ModelTLMor ModelRep SpecRep RepTheory PropsRep ModelPolyRep TableTheory NFApi PermGerm PermTable PropsGNF PropsGNF2 PolyRepTheory PolyRepSpan PropsPolyRep PropsPolyRep2 JSTheory PropsJS DescTheory ModelTracker DescTheory2 DescTheory3.
From Verif Require Import SpecTracker TrackerTheory TrackerRun PropsTracker TrackerRun2 PropsTracker2 PropsDesc PropsDesc2 ModelSql ModelSearch PropsSearch2.
From Verif Require PropsSql PropsSearch PropsExtra PropsReflect2.
Local Open Scope nat_scope.
Local Notation ptv := PropsSearch.positive_value.

(** the braid b is in a bucket of the tracker *)
Definition stored (s : strk) (b : nfobj) : Prop := exists tag bk, dget stag_eqb (st_buckets s) tag = Some bk /\ In b (sb_braids bk).

Section Exhaust.
Variables (n r : nat) (p : Z) (S : jsum) (R : rep) (d : nat) (tb : nat -> res (nftable (list nat))) (rint : nat -> nat).
Variables (order : nat -> list (stag * nat) -> list (stag * nat)) (size : nat) (rand : bool) (use_best save_best step : Z).
Local Notation crit := search_criterion.
Hypothesis (ES : jones_summand n r p = Ok S) (EJ : jones_rep n r p = Ok R) (Hr : 1 <= r) (ED : rep_dimension R = Ok (Z.of_nat d)) (Hp2 : (2 <= p)%Z) (n2 : 2 <= n) (Ht : gnf_table n tb) (Hsz : 1 <= size) (Hst : (0 <= step)%Z).
Hypothesis (BN : (Z.of_nat d * (((step + 1) * Z.of_nat (n * (n - 1)) + 1) * ((p - 1) * (p - 1))) < 2 ^ 31)%Z).
Hypothesis (HO : forall k l, Permutation l (order k l)).
(** the lengths 1..K for which there are few enough braids *)
Variable K : nat.
Hypothesis few : forall l, 1 <= l <= K -> exists al, (forall b, ptv tb n b -> length (o_factors b) = l -> In b al) /\ length al < size /\ (Z.of_nat (length al) <= use_best)%Z.
Definition short (b : nfobj) : Prop := 1 <= length (o_factors b) <= K.
(** the buckets of these lengths hold no braid twice *)
Definition fair (s : strk) : Prop := st_size s = size /\ PropsSearch.search_state tb n s /\
  forall tag bk, 1 <= fst tag <= K -> dget stag_eqb (st_buckets s) tag = Some bk -> NoDup (sb_braids bk) /\ forall x, In x (sb_set bk) <-> In x (sb_braids bk).
Definition grows (s s' : strk) : Prop := forall x, short x -> stored s x -> stored s' x.
Lemma grows_refl s : grows s s. Proof using. intros x _ H. exact H. Qed.
Lemma grows_trans a b c : grows a b -> grows b c -> grows a c. Proof using. intros H1 H2 x Hx H. apply H2, H1; auto. Qed.

Lemma not_full s tag bk : fair s -> 1 <= fst tag <= K -> dget stag_eqb (st_buckets s) tag = Some bk -> length (sb_braids bk) < size.
Proof using All.
  intros (_ & (_ & HS) & HF) Hk G. destruct (few _ Hk) as (al & A & B & _). apply Nat.le_lt_trans with (length al); [|exact B]. apply NoDup_incl_length; [apply (HF tag bk Hk G)|]. intros x Hx. destruct (HS tag bk x G Hx) as [V L]. now apply A.
Qed.
Lemma offer_ok s b im tag s' : fair s -> ptv tb n b -> length (o_factors b) = fst tag -> st_offer rint s b im tag = Ok s' -> fair s' /\ grows s s' /\ (short b -> stored s' b).
Proof using All.
  intros Fs Vb Lb E. pose proof Fs as (Sz & SS & HF). destruct (PropsSearch.st_offer_effect rint s b im tag s' E) as (O1 & O2 & O3).
  assert (SS' : PropsSearch.search_state tb n s').
  { split; [apply O1, SS|]. intros tg bk x G Hx. destruct (stagdec tg tag) as [->|N]; [|rewrite O2 in G by exact N; now apply (proj2 SS tg bk x)]. destruct (O3 bk x G Hx) as [->|(d0 & G0 & H0)]; [auto|now apply (proj2 SS tag d0 x)]. }
  assert (GO : forall x tg bk, tg <> tag -> dget stag_eqb (st_buckets s) tg = Some bk -> In x (sb_braids bk) -> stored s' x) by (intros x tg bk N G Hx; exists tg, bk; rewrite O2 by exact N; auto).
  assert (HF' : forall tg bk, tg <> tag -> 1 <= fst tg <= K -> dget stag_eqb (st_buckets s') tg = Some bk -> NoDup (sb_braids bk) /\ forall x, In x (sb_set bk) <-> In x (sb_braids bk)) by (intros tg bk N Hk G; rewrite O2 in G by exact N; now apply (HF tg bk)).
  (* a tag out of range: nothing to show about it *)
  assert (OUT : ~ (1 <= fst tag <= K) -> st_size s' = size -> fair s' /\ grows s s' /\ (short b -> stored s' b)).
  { intros NK Z1. split; [|split].
    - split; [exact Z1|]. split; [exact SS'|]. intros tg bk Hk G. apply (HF' tg bk); auto. intros ->. contradiction.
    - intros x Hx (tg & bk & G & H). apply (GO x tg bk); auto. intros ->. destruct (proj2 SS tag bk x G H) as [_ L]. unfold short in Hx. rewrite L in Hx. contradiction.
    - unfold short. rewrite Lb. contradiction. }
  (* a bucket that is set *)
  assert (SET : st_size s' = size -> forall bs ims st cn dr, s' = mkST (st_size s) (st_rand s) (dset stag_eqb (st_buckets s) tag (mkSB bs ims st)) cn dr -> NoDup bs -> (forall x, In x st <-> In x bs) -> In b bs ->
    (forall bk x, dget stag_eqb (st_buckets s) tag = Some bk -> In x (sb_braids bk) -> In x bs) -> fair s' /\ grows s s' /\ (short b -> stored s' b)).
  { intros Z1 bs ims st cn dr E' ND ST IB MO. assert (G' : dget stag_eqb (st_buckets s') tag = Some (mkSB bs ims st)) by (rewrite E'; cbn [st_buckets]; rewrite PropsSearch.DS; destruct (stagdec tag tag); [reflexivity|congruence]). split; [|split].
    - split; [exact Z1|]. split; [exact SS'|]. intros tg bk Hk G. destruct (stagdec tg tag) as [->|N]; [|now apply (HF' tg bk)]. rewrite G' in G. injection G as <-. cbn [sb_braids sb_set]. auto.
    - intros x _ (tg & bk & G & H). destruct (stagdec tg tag) as [->|N]; [|now apply (GO x tg bk)]. exists tag, (mkSB bs ims st). split; [exact G'|]. cbn [sb_braids]. now apply (MO bk).
    - intros _. exists tag, (mkSB bs ims st). split; [exact G'|exact IB]. }
  destruct (le_dec 1 (fst tag)) as [K1|K1]; [destruct (le_dec (fst tag) K) as [K2|K2]|].
  2,3: apply OUT; [lia|]; clear - E Sz; unfold st_offer in E; destruct (dget stag_eqb (st_buckets s) tag) as [d0|];
    [destruct (dgetE stag_eqb (st_counts s) tag) as [c|]; [|discriminate]; cbn [bind] in E; destruct (length (sb_braids d0) =? st_size s);
      [destruct (st_rand s); [|now injection E as <-]; cbv zeta in E; destruct (_ <=? _); [|now injection E as <-]; destruct (set_ (sb_braids d0) _ b) as [bs|]; [|discriminate]; cbn [bind] in E; destruct (projectivise im) as [x|]; [|discriminate]; cbn [bind] in E; destruct (set_item _ _ _) as [y|]; [|discriminate]; cbn [bind] in E; now injection E as <-
      |destruct (existsb _ _); [now injection E as <-|]; destruct (projectivise im) as [x|]; [|discriminate]; cbn [bind] in E; destruct (set_item _ _ _) as [y|]; [|discriminate]; cbn [bind] in E; now injection E as <-]
    |destruct (projectivise im) as [x|]; [|discriminate]; cbn [bind] in E; destruct (set_item _ _ _) as [y|]; [|discriminate]; cbn [bind] in E; now injection E as <-].
  unfold st_offer in E. destruct (dget stag_eqb (st_buckets s) tag) as [d0|] eqn:G.
  - pose proof (not_full s tag d0 Fs (Logic.conj K1 K2) G) as NF. destruct (HF tag d0 (Logic.conj K1 K2) G) as [ND ST]. destruct (dgetE stag_eqb (st_counts s) tag) as [c|]; [|discriminate]. cbn [bind] in E. rewrite Sz in E. rewrite (proj2 (Nat.eqb_neq _ _)) in E by lia. rewrite existsb_nf in E. destruct (in_dec nfdec b (sb_set d0)) as [Hin|Nin].
    + injection E as <-. split; [|split; [intros x _ H; exact H|]].
      * split; [reflexivity|]. split; [exact SS'|]. intros tg bk Hk G'. exact (HF tg bk Hk G').
      * intros _. exists tag, d0. split; [exact G|]. now apply ST.
    + destruct (projectivise im) as [x|]; [|discriminate]. cbn [bind] in E. destruct (set_item _ _ _) as [y|]; [|discriminate]. cbn [bind] in E. injection E as <-. eapply SET; [reflexivity|rewrite Sz; reflexivity| | | |].
      * apply NoDup_app_intro; [exact ND|constructor; [intros []|constructor]|]. intros z Hz [<-|[]]. apply Nin, ST, Hz.
      * intros z. rewrite !in_app_iff, ST. reflexivity.
      * apply in_or_app. right. now left.
      * intros bk z [= <-] Hz. apply in_or_app. now left.
  - destruct (projectivise im) as [x|]; [|discriminate]. cbn [bind] in E. destruct (set_item _ _ _) as [y|]; [|discriminate]. cbn [bind] in E. injection E as <-. eapply SET; [exact Sz|reflexivity| | | |].
    * constructor; [intros []|constructor].
    * reflexivity.
    * now left.
    * intros bk z [=].
Qed.
Lemma add_ok s bs im s' : fair s -> (forall b, In b bs -> ptv tb n b) -> st_add rint crit s bs im = Ok s' -> fair s' /\ grows s s' /\ forall b, In b bs -> short b -> stored s' b.
Proof using All.
  intros Fs HV. unfold st_add. destruct (image_stats_check bs im); [|discriminate]. cbn [bind search_criterion]. destruct (projlen im) as [pls|]; [|discriminate]. cbn [bind]. set (keep := map _ bs). set (l := filter _ _). intros E.
  assert (G : fair s' /\ grows s s' /\ forall i b, In i l -> nth_error bs i = Some b -> short b -> stored s' b).
  { clearbody l keep. revert s Fs E. induction l as [|i l IH]; intros s Fs; cbn [foldM]; [intros [= <-]; split; [exact Fs|]; split; [apply grows_refl|]; intros i b []|].
    destruct (Base.get bs i) as [b|] eqn:GB; [|discriminate]. cbn [bind]. destruct (arr_item im (Z.of_nat i)) as [x|]; [|discriminate]. cbn [bind]. destruct (Base.get pls i) as [pl|]; [|discriminate]. cbn [bind].
    destruct (st_offer rint s b x (canonical_length b, pl)) as [s1|] eqn:E1; [|discriminate]. cbn [bind]. intros E. unfold Base.get in GB. destruct (nth_error bs i) as [b'|] eqn:NB; [|discriminate]. injection GB as ->.
    destruct (offer_ok s b x (canonical_length b, pl) s1 Fs (HV b (nth_error_In _ _ NB)) eq_refl E1) as (F1 & G1 & S1). destruct (IH s1 F1 E) as (F2 & G2 & S2). split; [exact F2|]. split; [now apply (grows_trans _ s1)|]. intros j c [<-|Hj] Hc Sc; [|now apply (S2 j)]. rewrite NB in Hc. injection Hc as <-. apply G2; auto. }
  destruct G as (G1 & G2 & G3). split; [exact G1|]. split; [exact G2|]. intros b Hb Sb. destruct (In_nth_error _ _ Hb) as [i Hi]. apply (G3 i b); auto. assert (Li : i < length bs) by (apply nth_error_Some; congruence). unfold l, keep. apply filter_In. split; [apply in_seq; rewrite map_length; lia|].
  transitivity (1 <=? length (o_factors b)); [|apply Nat.leb_le, Sb]. apply nth_error_nth. rewrite nth_error_map, Hi. reflexivity.
Qed.
Lemma adds_ok ads : forall s s', fair s -> (forall b, In b (concat (map fst ads)) -> ptv tb n b) -> st_run rint crit s (PropsSearch.adds ads) = Ok s' ->
  fair s' /\ grows s s' /\ forall b, In b (concat (map fst ads)) -> short b -> stored s' b.
Proof using All.
  induction ads as [|[bs im] ads IH]; intros s s' Fs HV; unfold st_run, PropsSearch.adds; cbn [map foldM st_apply]; [intros [= <-]; split; [exact Fs|]; split; [apply grows_refl|intros b []]|].
  destruct (st_add rint crit s bs im) as [s1|] eqn:E1; [|discriminate]. cbn [bind]. intros E. cbn [map fst concat] in *. destruct (add_ok s bs im s1 Fs) as (F1 & G1 & S1); [intros; apply HV, in_or_app; now left|exact E1|].
  destruct (IH s1 s' F1) as (F2 & G2 & S2); [intros; apply HV, in_or_app; now right|exact E|]. split; [exact F2|]. split; [now apply (grows_trans _ s1)|]. intros b Hb Sb. apply in_app_or in Hb. destruct Hb as [Hb|Hb]; [apply G2; auto|auto].
Qed.
Lemma bootstrap_ok L s0 : st_bootstrap rint crit tb S (strk_init size rand) L = Ok s0 -> fair s0 /\ forall b, ptv tb n b -> short b -> (Z.of_nat (length (o_factors b)) <= L)%Z -> stored s0 b.
Proof using All.
  intros E. assert (ESn : js_n S = n) by (rewrite (js_fields _ _ _ _ ES); reflexivity). destruct (PropsSearch.C79_braidsearch n tb rint crit S _ L s0 n2 Ht ESn E) as (ops & ER & _ & _ & IN & _). rewrite flat_map_concat_map in IN.
  destruct (adds_ok ops (strk_init size rand) s0) as (F & _ & ST); [|intros b Hb; apply IN in Hb; destruct Hb as (V & P & _); split; assumption|exact ER|].
  - split; [reflexivity|]. split; [apply PropsSearch.init_state|]. intros tag bk _ [=].
  - split; [exact F|]. intros b [V P] Sb Lb. apply ST; [|exact Sb]. apply IN. split; [exact V|]. split; [exact P|]. unfold short in Sb. lia.
Qed.
Local Notation reach := (reach n p R d tb rint crit size rand).
Lemma desc_ok q tag q' : fair q -> reach q -> st_nf_descendants rint crit tb S q tag step = Ok q' ->
  fair q' /\ reach q' /\ grows q q' /\ (forall tg, fst tg <= fst tag -> dget stag_eqb (st_buckets q') tg = dget stag_eqb (st_buckets q) tg) /\
  forall bk b c w, dget stag_eqb (st_buckets q) tag = Some bk -> In b (sb_braids bk) -> ptv tb n c -> o_factors c = o_factors b ++ w -> 1 <= length w <= Z.to_nat step -> short c -> stored q' c.
Proof using All.
  intros Fq Rq E. destruct (dget stag_eqb (st_buckets q) tag) as [bk|] eqn:G; [|unfold st_nf_descendants, dgetE in E; rewrite G in E; discriminate].
  assert (TK : In tag (PropsSearch.keys q)) by (apply PropsSearch.stats_in; eauto).
  destruct (desc_total n r p S R d tb rint crit order size rand use_best save_best step ES EJ Hr ED Hp2 n2 Ht Hsz Hst BN criterion_total HO q tag Rq TK) as (q1 & E1 & R1 & _). rewrite E in E1. injection E1 as <-.
  pose proof (PropsSearch.st_nf_descendants_run n tb n2 Ht rint crit S q tag step q' (proj1 (proj2 Fq)) E) as (_ & FR & _).
  destruct Rq as (os & EO & HOS). destruct (C76_stored_braidsearch n p R tb d _ rint crit size rand os q (ptv tb n) Hsz ltac:(lia) HOS EO tag bk G) as (PA & HI & HB).
  destruct (C76_braidsearch n r p S R d tb rint crit q tag bk step size) as (ads & EA & IA & dss & ED' & PD); auto; try lia.
  { intros b Hb. destruct (HB b Hb) as ([_ P0] & Lb & _). auto. }
  rewrite EA in E. destruct (adds_ok ads q q' Fq) as (F1 & G1 & S1); [|exact E|].
  - intros c Hc. apply (Permutation_in _ PD), in_concat in Hc. destruct Hc as (ds & Hds & Hcd). destruct (PropsSearch.mapM_in _ _ _ _ ED' Hds) as (b & Hb & Eb). destruct (HB b Hb) as ([Vb Pb] & _ & _). destruct (proj1 (C76_prefix_descendants n tb b step ds n2 Ht Vb Pb Hst Eb c) Hcd) as (Vc & Pc & _). split; assumption.
  - split; [exact F1|]. split; [exact R1|]. split; [exact G1|]. split; [exact FR|]. intros bk' b c w [= <-] Hb [Vc Pc] Ec Hw Sc. apply S1; [|exact Sc]. apply (Permutation_in _ (Permutation_sym PD)). destruct (PropsSearch.mapM_in' _ _ _ _ ED' Hb) as (ds & Hds & Eb). apply in_concat. exists ds. split; [exact Hds|]. destruct (HB b Hb) as ([Vb Pb] & _ & _). apply (C76_prefix_descendants n tb b step ds n2 Ht Vb Pb Hst Eb c). eauto.
Qed.
Lemma descs_ok k l : (forall tag, In tag l -> fst tag = k) -> forall q q', fair q -> reach q -> foldM (fun s t => st_nf_descendants rint crit tb S s t step) l q = Ok q' ->
  fair q' /\ grows q q' /\ forall tag bk b c w, In tag l -> dget stag_eqb (st_buckets q) tag = Some bk -> In b (sb_braids bk) -> ptv tb n c -> o_factors c = o_factors b ++ w -> 1 <= length w <= Z.to_nat step -> short c -> stored q' c.
Proof using All.
  induction l as [|tg l IH]; intros HL q q' Fq Rq; cbn [foldM]; [intros [= <-]; split; [exact Fq|]; split; [apply grows_refl|]; intros ? ? ? ? ? []|].
  destruct (st_nf_descendants rint crit tb S q tg step) as [q1|] eqn:E1; [|discriminate]. cbn [bind]. intros E. destruct (desc_ok q tg q1 Fq Rq E1) as (F1 & R1 & G1 & K1 & S1).
  destruct (IH ltac:(intros; apply HL; now right) q1 q' F1 R1 E) as (F2 & G2 & S2). split; [exact F2|]. split; [now apply (grows_trans _ q1)|]. intros tag bk b c w [<-|Ht'] G Hb Vc Ec Hw Sc.
  - apply G2; [exact Sc|]. now apply (S1 bk b c w).
  - apply (S2 tag bk b c w); auto. rewrite K1; [exact G|]. rewrite (HL tag (or_intror Ht')), (HL tg (or_introl eq_refl)). lia.
Qed.
(** the braids of one length that are in the buckets are at most the limit *)
Lemma mass_small q k z : fair q -> reach q -> 1 <= k <= K -> (Z.of_nat (PropsSearch.mass q k z) <= use_best)%Z.
Proof using All.
  intros (_ & (NK & HS) & HF) (os & EO & HOS) Hk. destruct (few k Hk) as (al & A & _ & B). eapply Z.le_trans; [|exact B]. apply inj_le. unfold PropsSearch.mass. set (ts := filter _ _).
  assert (TN : NoDup ts) by (now apply NoDup_filter). assert (TK : forall t, In t ts -> fst t = k) by (intros t H; unfold ts in H; apply filter_In in H; destruct H as [_ H]; apply andb_prop in H; now apply Nat.eqb_eq).
  set (bs := fun t => match dget stag_eqb (st_buckets q) t with Some b => sb_braids b | None => [] end).
  assert (U : forall t1 t2 x, In x (bs t1) -> In x (bs t2) -> t1 = t2).
  { unfold bs. intros t1 t2 x H1 H2. destruct (dget stag_eqb (st_buckets q) t1) as [b1|] eqn:G1; [|destruct H1]. destruct (dget stag_eqb (st_buckets q) t2) as [b2|] eqn:G2; [|destruct H2].
    destruct (C76_stored_braidsearch n p R tb d _ rint crit size rand os q (ptv tb n) Hsz ltac:(lia) HOS EO t1 b1 G1) as (_ & (_ & _ & _ & _ & _ & HI) & HB1). destruct (C76_stored_braidsearch n p R tb d _ rint crit size rand os q (ptv tb n) Hsz ltac:(lia) HOS EO t2 b2 G2) as (_ & _ & HB2).
    destruct (In_nth_error _ _ H1) as [i Hi]. destruct (HI i x Hi) as (_ & (X & EX & _) & _). destruct (HB1 x H1) as (_ & L1 & S1), (HB2 x H2) as (_ & L2 & S2). pose proof (rep_span_unique _ _ _ _ _ (S1 X EX) (S2 X EX)). destruct t1, t2. cbn [fst snd] in *. congruence. }
  assert (ND : forall t, In t ts -> NoDup (bs t)). { intros t H. unfold bs. destruct (dget stag_eqb (st_buckets q) t) as [b|] eqn:G; [|constructor]. apply (HF t b); [rewrite (TK t H); exact Hk|exact G]. }
  assert (IA : incl (concat (map bs ts)) al). { intros x Hx. apply in_concat in Hx. destruct Hx as (l & Hl & Hx). apply in_map_iff in Hl. destruct Hl as (t & <- & H). unfold bs in Hx. destruct (dget stag_eqb (st_buckets q) t) as [b|] eqn:G; [|destruct Hx]. destruct (HS t b x G Hx) as [V L]. apply A; [exact V|]. rewrite L. now apply TK. }
  assert (NC : NoDup (concat (map bs ts))).
  { clear - TN ND U. induction TN as [|t ts H TN IH]; [constructor|]. cbn [map concat]. apply NoDup_app_intro; [apply ND; now left|apply IH; intros; apply ND; now right|]. intros x H1 H2. apply in_concat in H2. destruct H2 as (l & Hl & H2). apply in_map_iff in Hl. destruct Hl as (t' & <- & Ht'). rewrite (U t t' x H1 H2) in H. contradiction. }
  apply NoDup_incl_length in IA; [|exact NC]. eapply Nat.le_trans; [|exact IA]. apply Nat.eq_le_incl. clear. induction ts as [|t ts IH]; [reflexivity|]. cbn [map concat PropsSearch.sum_of fold_right]. rewrite app_length, <- IH. unfold PropsSearch.bucket_count, bs, PropsSearch.sum_of. destruct (dget stag_eqb (st_buckets q) t); reflexivity.
Qed.
Lemma prefix_value c k : ptv tb n c -> k <= length (o_factors c) -> exists b, ptv tb n b /\ length (o_factors b) = k /\ o_factors c = o_factors b ++ skipn k (o_factors c).
Proof using All.
  intros [V P] Hk. destruct (val_enc n tb n2 Ht c V) as [[e l] [Ho ->]]. cbn [TableTheory.enc o_pow o_factors fst snd] in *. subst e. exists (TableTheory.enc (PG n) n (idx n) (0%Z, firstn k l)).
  split; [split; [|reflexivity]; apply (enc_val n tb n2 Ht (0%Z, firstn k l)); exact (PropsSearch.ok_prefix n n2 [] l k Ho)|]. cbn [TableTheory.enc o_factors snd]. rewrite map_length, firstn_length. rewrite map_length in Hk. split; [lia|]. rewrite skipn_map, <- map_app, firstn_skipn. reflexivity.
Qed.
(** ** an iteration *)
Definition complete (L k : Z) (s : strk) : Prop := forall b, ptv tb n b -> short b -> (k <= Z.of_nat (length (o_factors b)) <= Z.max k L)%Z -> stored s b.
Lemma one_complete L q k sv q' : (1 <= step)%Z -> (1 <= L)%Z -> (k <= Z.of_nat K)%Z -> fair q -> reach q -> complete L k q -> one rint crit tb S order use_best save_best step q k = Ok (sv, q') -> fair q' /\ reach q' /\ complete L (k + 1) q'.
Proof using All.
  intros Hs HL HK Fq Rq Cq E. destruct (one_total n r p S R d tb rint crit order size rand use_best save_best step ES EJ Hr ED Hp2 n2 Ht Hsz Hst BN criterion_total HO q k Rq) as (sv' & q1 & E' & R'). rewrite E in E'. injection E' as <- <-.
  assert (RES : fair q' /\ complete L (k + 1) q'); [|tauto]. unfold one in E. destruct (Z.ltb_spec k 0) as [Nk|Nk].
  - injection E as <- <-. split; [exact Fq|]. intros b V Sb Hb. apply Cq; auto. unfold short in Sb. lia.
  - set (m := Z.to_nat k) in *. destruct (search_step rint crit tb S order q m use_best save_best step) as [[[sel sv0] q2]|] eqn:ESt; [|discriminate]. cbn [bind] in E. injection E as <- <-.
    destruct (PropsSearch.C77_step _ _ _ _ _ _ _ _ _ _ _ _ _ _ n2 Ht HO (proj1 (proj2 Fq)) ESt) as ((_ & SEL & _) & _ & SS & _). unfold search_step in ESt. set (rows := order m (stats_rows q)) in *. destruct (mapM _ _) as [sv1|]; [|discriminate]. cbn [bind] in ESt. destruct (foldM _ _ q) as [q1|] eqn:EF; [|discriminate]. cbn [bind] in ESt. injection ESt as Esel _ E2. rewrite <- Esel in SEL.
    destruct (descs_ok m (map fst (selection rows m use_best)) ltac:(intros tg H; now apply SEL in H) q q1 Fq Rq EF) as (F1 & G1 & S1).
    set (ts := map fst (filter (fun r0 => fst (fst r0) <=? m) rows)) in *. assert (TS : forall t, In t ts -> fst t <= m) by (intros t H; unfold ts in H; apply in_map_iff in H; destruct H as (x & <- & H); apply filter_In in H; now apply Nat.leb_le).
    destruct (PropsSearch.discards n rint q1 ts) as [_ DG]. rewrite E2 in DG. split.
    + split; [|split; [exact SS|]].
      * destruct F1 as [Z1 _]. rewrite <- E2, <- Z1. clear. generalize q1 as s. induction ts as [|t ts IH]; intros s; [reflexivity|]. cbn [fold_left]. now rewrite IH.
      * intros tag bk Hk G. rewrite DG in G. destruct (in_dec stagdec tag ts); [discriminate|]. now apply (proj2 (proj2 F1) tag bk).
    + assert (KEEP : forall b, m < length (o_factors b) -> stored q1 b -> stored q2 b).
      { intros b Hb (tag & bk & G & H). exists tag, bk. split; [|exact H]. rewrite DG. destruct (in_dec stagdec tag ts) as [I1|I1]; [|exact G]. apply TS in I1. destruct (proj2 (proj1 (proj2 F1)) tag bk b G H) as [_ L1]. lia. }
      intros b V Sb Hb. pose proof Sb as [Sb1 Sb2]. apply KEEP; [unfold m; lia|]. destruct (Z.le_gt_cases (Z.of_nat (length (o_factors b))) (Z.max k L)) as [C|C]; [apply G1; [exact Sb|]; apply Cq; auto; lia|].
      assert (Lb : length (o_factors b) = m + 1) by (unfold m; lia). assert (M1 : 1 <= m <= K) by (unfold m; lia). destruct (prefix_value b m V ltac:(lia)) as (a & Va & La & Ea).
      destruct (Cq a Va) as (tag & bk & G & H); [unfold short; lia|rewrite La; unfold m; lia|]. destruct (proj2 (proj1 (proj2 Fq)) tag bk a G H) as [_ Lt].
      apply (S1 tag bk a b (skipn m (o_factors b))); auto; [|rewrite skipn_length; lia]. apply SEL. split; [apply PropsSearch.stats_in; eauto|]. split; [lia|]. apply mass_small; auto.
Qed.
Lemma steps_complete L count : (1 <= step)%Z -> (1 <= L)%Z -> forall q k saves q', (k + Z.of_nat count <= Z.of_nat K)%Z -> fair q -> reach q -> complete L k q ->
  search_steps rint crit tb S order q k count use_best save_best step = Ok (saves, q') -> fair q' /\ reach q' /\ complete L (k + Z.of_nat count) q'.
Proof using All.
  intros Hs HL. induction count as [|count IH]; intros q k saves q' HK Fq Rq Cq E; [injection E as <- <-; rewrite Z.add_0_r; auto|].
  rewrite steps_S in E. destruct (one rint crit tb S order use_best save_best step q k) as [[sv q1]|] eqn:E1; [|discriminate]. cbn [bind] in E. destruct (search_steps rint crit tb S order q1 (k + 1) count use_best save_best step) as [[svs q2]|] eqn:E2; [|discriminate]. cbn [bind] in E. injection E as <- <-.
  destruct (one_complete L q k sv q1 Hs HL ltac:(lia) Fq Rq Cq E1) as (F1 & R1 & C1). destruct (IH q1 (k + 1)%Z svs q2 ltac:(lia) F1 R1 C1 E2) as (F2 & R2 & C2). split; [exact F2|]. split; [exact R2|]. now replace (k + Z.of_nat (Datatypes.S count))%Z with (k + 1 + Z.of_nat count)%Z by lia.
Qed.
End Exhaust.

(** there are fewer than [size] positive normal forms of each length 1..K, and at most
    [limit] of them *)
Definition limits_suffice (tb : nat -> res (nftable (list nat))) (n K size : nat) (limit : Z) : Prop :=
  forall l c, 1 <= l <= K -> count_all_of_garside_length tb n (Z.of_nat l) = Ok c -> (c < Z.of_nat size)%Z /\ (c <= limit)%Z.
Lemma suffice_few tb n K size limit : 2 <= n -> gnf_table n tb -> limits_suffice tb n K size limit ->
  forall l, 1 <= l <= K -> exists al, (forall b, ptv tb n b -> length (o_factors b) = l -> In b al) /\ length al < size /\ (Z.of_nat (length al) <= limit)%Z.
Proof.
  intros n2 Ht H l Hl. destruct (C51_all_of_length_partial n tb (Z.of_nat l) 0 n2 Ht ltac:(lia)) as (bs & _ & _ & IB & _ & EC). exists bs. destruct (H l _ Hl EC). split; [|lia]. intros b [V P] Lb. apply IB. rewrite Nat2Z.id. auto.
Qed.

(** C130.  When the bucket size exceeds, and use_best reaches, the number of positive
    normal forms of each length up to K, then in the iteration of the search with the
    length k <= K the buckets hold every positive normal form of length k (and those
    of the lengths up to L that are not yet done). *)
Theorem C130_stored n r p S R d tb rint order size rand L first count use_best save_best step K s0 saves s :
  jones_summand n r p = Ok S -> jones_rep n r p = Ok R -> 1 <= r -> rep_dimension R = Ok (Z.of_nat d) -> (2 <= p)%Z -> 2 <= n -> gnf_table n tb -> 1 <= size -> (1 <= step)%Z -> (1 <= L)%Z -> (first <= L)%Z ->
  (Z.of_nat d * (((step + 1) * Z.of_nat (n * (n - 1)) + 1) * ((p - 1) * (p - 1))) < 2 ^ 31)%Z -> (forall k l, Permutation l (order k l)) -> limits_suffice tb n K size use_best ->
  st_bootstrap rint search_criterion tb S (strk_init size rand) L = Ok s0 -> search_steps rint search_criterion tb S order s0 first count use_best save_best step = Ok (saves, s) -> (first + Z.of_nat count <= Z.of_nat K)%Z ->
  forall b, nf_value tb n b -> o_pow b = 0%Z -> 1 <= length (o_factors b) <= K -> (first + Z.of_nat count <= Z.of_nat (length (o_factors b)) <= Z.max (first + Z.of_nat count) L)%Z -> stored s b.
Proof.
  intros ES EJ Hr ED Hp n2 Ht Hsz Hst HL HF BN HO LS HB HS HK b V P Hb Hl. assert (Hst0 : (0 <= step)%Z) by lia. pose proof (suffice_few _ _ _ _ _ n2 Ht LS) as few.
  destruct (bootstrap_ok n r p S R d tb rint order size rand use_best save_best step ES EJ Hr ED Hp n2 Ht Hsz Hst0 BN HO K few L s0 HB) as [F0 C0].
  destruct (bootstrap_total n r p S R d tb rint search_criterion order size rand use_best save_best step ES EJ Hr ED Hp n2 Ht Hsz Hst0 BN criterion_total HO L) as (s0' & E0 & R0). rewrite HB in E0. injection E0 as <-.
  destruct (steps_complete n r p S R d tb rint order size rand use_best save_best step ES EJ Hr ED Hp n2 Ht Hsz Hst0 BN HO K few L count Hst HL s0 first saves s HK F0 R0) as (_ & _ & C); [|exact HS|].
  - intros c Vc Sc Hc. apply C0; auto. lia.
  - apply C; [split; assumption|exact Hb|exact Hl].
Qed.

Lemma step_saves rint crit tb S order use_best save_best step c : forall s k svs s', search_steps rint crit tb S order s k c use_best save_best step = Ok (svs, s') ->
  forall i, i < c -> exists si, search_steps rint crit tb S order s k i use_best save_best step = Ok (firstn i svs, si) /\ save_selection order si (k + Z.of_nat i) save_best = Ok (nth i svs []).
Proof.
  induction c as [|c IH]; intros s k svs s'; [intros _ i Hi; lia|]. rewrite steps_S. destruct (one rint crit tb S order use_best save_best step s k) as [[sv s1]|] eqn:E1; [|discriminate]. cbn [bind]. destruct (search_steps rint crit tb S order s1 (k + 1) c use_best save_best step) as [[svs2 s2]|] eqn:E2; [|discriminate]. cbn [bind]. intros [= <- <-] [|i] Hi.
  - exists s. split; [reflexivity|]. rewrite Z.add_0_r. exact (proj1 (one_inv _ _ _ _ _ _ _ _ _ _ _ _ E1)).
  - destruct (IH s1 (k + 1)%Z svs2 s2 E2 i ltac:(lia)) as (si & A & B). exists si. split; [rewrite steps_S, E1; cbn [bind firstn]; now rewrite A|]. cbn [nth]. now replace (k + Z.of_nat (Datatypes.S i))%Z with (k + 1 + Z.of_nat i)%Z by lia.
Qed.

(** the braid with the same canonical factors and inf = 0 *)
Lemma drop_power n tb b : 2 <= n -> gnf_table n tb -> nf_value tb n b -> ptv tb n (NFObj n 0 (o_factors b)).
Proof.
  intros n2 Ht V. destruct (val_enc n tb n2 Ht b V) as [[e l] [Ho ->]]. split; [|reflexivity]. cbn [TableTheory.enc o_factors snd]. apply (enc_val n tb n2 Ht (0%Z, l)). exact Ho.
Qed.

(** C130, the program.  With such limits search.py prints, in the iteration with length k,
    the canonical factors of every braid of canonical length k whose matrix is modulo p
    a power of v times a matrix of constants, whatever its infimum; and if
    save_best is large enough too, every positive normal form of length k is saved. *)
Theorem C130_program rint tb order n r p L size use_best save_best step stop K prints saves s : 3 <= n <= 7 -> gnf_table n tb -> 1 <= r -> 2 * r <= n -> (2 <= p)%Z -> (1 <= L)%Z -> 1 <= size -> (1 <= step)%Z ->
  ((Z.of_nat (comb n r) - Z.of_nat (comb n (r - 1))) * (((step + 1) * Z.of_nat (n * (n - 1)) + 1) * ((p - 1) * (p - 1))) < 2 ^ 31)%Z -> (forall k l, Permutation l (order k l)) ->
  limits_suffice tb n K size use_best -> search_program rint tb order n r p L size use_best save_best step stop = Ok (prints, saves, s) ->
  exists R d, jones_rep n r p = Ok R /\ rep_dimension R = Ok (Z.of_nat d) /\
  forall i, i < length prints -> let k := (L - step + 1 + Z.of_nat i)%Z in (1 <= k <= Z.of_nat K)%Z ->
    (forall b X, nf_value tb n b -> Z.of_nat (length (o_factors b)) = k -> rep_evaluate_nf tb R b = Ok X -> near_kernel p d X ->
       exists ws, canonical_decomposition tb b = Ok (inf b, ws) /\ In (0%Z, ws) (nth i prints [])) /\
    (limits_suffice tb n K size save_best -> forall b, nf_value tb n b -> o_pow b = 0%Z -> Z.of_nat (length (o_factors b)) = k -> exists tag bs, In (tag, bs) (nth i saves []) /\ In b bs).
Proof.
  intros Hn Ht Hr Hrn Hp HL Hsz Hst BN HO LS EP.
  assert (ES : jones_summand n r p = Ok (mkJS n r p)) by (unfold jones_summand; rewrite (proj2 (Nat.leb_le 1 n)), (proj2 (Nat.leb_le (2 * r) n)), (proj2 (Z.leb_le 0 p)) by lia; reflexivity).
  destruct (C63_dimension n r p _ ES Hr) as (R & B & d & EJ & _ & _ & Hd & EDJ & ED & _).
  assert (Dd : Z.of_nat d = (Z.of_nat (comb n r) - Z.of_nat (comb n (r - 1)))%Z). { unfold js_dimension, math_comb in EDJ. cbn [js_n js_r] in EDJ. destruct (Z.ltb_spec (Z.of_nat r) 0); [lia|]. destruct (Z.ltb_spec (Z.of_nat r - 1) 0); [lia|]. cbn [bind] in EDJ. injection EDJ as EDJ. rewrite Nat2Z.id in EDJ. replace (Z.to_nat (Z.of_nat r - 1)) with (r - 1) in EDJ by lia. now symmetry. }
  rewrite <- Dd in BN. exists R, d. split; [exact EJ|]. split; [exact ED|]. assert (n2 : 2 <= n) by lia.
  unfold search_program in EP. rewrite (proj2 (Nat.leb_le 3 n)), (proj2 (Nat.leb_le n 7)), (proj2 (Nat.leb_le (2 * r) n)), (proj2 (Z.ltb_lt 0 p)) in EP by lia. cbn [andb assert_ bind] in EP. rewrite ES in EP. cbn [bind] in EP. destruct (count_all_of_garside_length tb n L); [|discriminate]. cbn [bind] in EP.
  destruct (st_bootstrap rint search_criterion tb (mkJS n r p) (strk_init size true) L) as [s0|] eqn:E0; [|discriminate]. cbn [bind] in EP. cbv zeta in EP.
  destruct (C100_near_kernel n r p _ R d tb rint search_criterion order size true L _ _ use_best save_best step s0 stop prints saves s ES EJ Hr ED ltac:(lia) n2 Ht Hsz ltac:(lia) ltac:(auto) ltac:(intros; lia) HO E0 EP) as (LSV & _ & _ & SST & KK).
  intros i Hi k Hk. destruct (KK i Hi) as (si & Esi & IFF & _).
  assert (ST : forall b, nf_value tb n b -> o_pow b = 0%Z -> Z.of_nat (length (o_factors b)) = k -> stored si b).
  { intros b V P Lb. apply (C130_stored n r p _ R d tb rint order size true L (L - step + 1) i use_best save_best step K s0 _ si ES EJ Hr ED Hp n2 Ht Hsz Hst HL ltac:(lia) BN HO LS E0 Esi ltac:(unfold k in Hk; lia) b V P); unfold k in Lb, Hk; lia. }
  split.
  - intros b X V Lb EX NK. destruct (C48_from_gnf_pair_inverts n tb b n2 Ht V) as (ws & EC & _). exists ws. split; [exact EC|]. set (c := NFObj n 0 (o_factors b)). destruct (drop_power n tb b n2 Ht V) as [Vc Pc]. fold c in Vc, Pc.
    destruct (ST c Vc Pc Lb) as (tag & bk & G & H). assert (EY : exists Y, rep_evaluate_nf tb R c = Ok Y).
    { assert (BZ : p = 0%Z -> n <= 9 /\ forall x X, ptv tb n x -> (Z.of_nat (length (o_factors x)) <= Z.max L (L - step + 1 + Z.of_nat i - 1 + step))%Z -> rep_evaluate_nf tb R x = Ok X -> int64_matrix X) by (intros; lia).
      destruct (C76_search n r p _ R d tb rint search_criterion order size true L (L - step + 1) i use_best save_best step s0 _ si ES EJ Hr ED ltac:(lia) n2 Ht Hsz ltac:(lia) ltac:(auto) BZ E0 Esi tag bk G) as [(_ & _ & _ & _ & _ & HI) _]. destruct (In_nth_error _ _ H) as [q Hq]. destruct (HI q c Hq) as (_ & (Y & EY & _) & _). eauto. }
    destruct EY as [Y EY]. apply IFF. exists tag, bk, c, Y. split; [exact G|]. split; [exact H|]. split; [exact EY|]. split.
    + apply near_kernel_span. apply near_kernel_span in NK. exact (proj1 (PropsReflect2.C129_factors n r p tb R d b c X Y 1 n2 Ht EJ ED V Vc eq_refl EX EY) NK).
    + assert (On : o_n b = n) by (destruct (val_enc n tb n2 Ht b V) as [? [_ ->]]; reflexivity). unfold canonical_decomposition, canonical_factors in EC |- *. cbn [o_n o_factors c]. rewrite On in EC. destruct (bind (tb n) (fun t => mapM (pyget (t_divs t)) (o_factors b))) as [z|z]; cbn [bind] in *; [|discriminate]. injection EC as EC. rewrite EC. reflexivity.
  - intros LS2 b V P Lb. destruct (ST b V P Lb) as (tag & bk & G & H). destruct (step_saves _ _ _ _ _ _ _ _ _ _ _ _ _ SST i Hi) as (si' & E1 & E2). rewrite Esi in E1. injection E1 as <-.
    pose proof (suffice_few _ _ _ _ _ n2 Ht LS) as few. pose proof (suffice_few _ _ _ _ _ n2 Ht LS2) as few2. assert (Hst0 : (0 <= step)%Z) by lia.
    destruct (bootstrap_ok n r p _ R d tb rint order size true use_best save_best step ES EJ Hr ED Hp n2 Ht Hsz Hst0 BN HO K few L s0 E0) as [F0 C0].
    destruct (bootstrap_total n r p _ R d tb rint search_criterion order size true use_best save_best step ES EJ Hr ED Hp n2 Ht Hsz Hst0 BN criterion_total HO L) as (s0' & E0' & R0). rewrite E0 in E0'. injection E0' as <-.
    destruct (steps_complete n r p _ R d tb rint order size true use_best save_best step ES EJ Hr ED Hp n2 Ht Hsz Hst0 BN HO K few L i Hst HL s0 (L - step + 1)%Z (firstn i saves) si ltac:(unfold k in Hk; lia) F0 R0) as (Fi & Ri & _); [intros c Vc Sc Hc; apply C0; auto; lia|exact Esi|].
    unfold save_selection in E2. fold k in E2. destruct (Z.ltb_spec k 0); [lia|]. destruct (proj2 (proj1 (proj2 Fi)) tag bk b G H) as [_ Lt]. assert (Lm : fst tag = Z.to_nat k) by lia.
    assert (IS : In tag (map fst (selection (order (Z.to_nat k) (stats_rows si)) (Z.to_nat k) save_best))).
    { apply (proj1 (proj2 (PropsSearch.selection_spec si (order (Z.to_nat k) (stats_rows si)) (Z.to_nat k) save_best (proj1 (proj1 (proj2 Fi))) (HO _ _))) tag). split; [apply PropsSearch.stats_in; eauto|]. split; [exact Lm|].
      apply (mass_small n r p _ R d tb rint order size true save_best save_best step ES EJ Hr ED Hp n2 Ht Hsz Hst0 BN HO K few2); auto. lia. }
    destruct (PropsSearch.mapM_in' _ _ _ _ E2 IS) as ([tg bs] & Hy & Ey). unfold dgetE in Ey. rewrite G in Ey. cbn [bind] in Ey. injection Ey as <- <-. eauto.
Qed.
(** so an iteration that prints nothing shows that no braid of that canonical length,
    whatever its infimum, is near the kernel *)
Theorem C130_none rint tb order n r p L size use_best save_best step stop K prints saves s : 3 <= n <= 7 -> gnf_table n tb -> 1 <= r -> 2 * r <= n -> (2 <= p)%Z -> (1 <= L)%Z -> 1 <= size -> (1 <= step)%Z ->
  ((Z.of_nat (comb n r) - Z.of_nat (comb n (r - 1))) * (((step + 1) * Z.of_nat (n * (n - 1)) + 1) * ((p - 1) * (p - 1))) < 2 ^ 31)%Z -> (forall k l, Permutation l (order k l)) ->
  limits_suffice tb n K size use_best -> search_program rint tb order n r p L size use_best save_best step stop = Ok (prints, saves, s) ->
  exists R d, jones_rep n r p = Ok R /\ rep_dimension R = Ok (Z.of_nat d) /\
  forall i, i < length prints -> (1 <= L - step + 1 + Z.of_nat i <= Z.of_nat K)%Z -> nth i prints [] = [] ->
    forall b X, nf_value tb n b -> Z.of_nat (length (o_factors b)) = (L - step + 1 + Z.of_nat i)%Z -> rep_evaluate_nf tb R b = Ok X -> ~ near_kernel p d X.
Proof.
  intros Hn Ht Hr Hrn Hp HL Hsz Hst BN HO LS EP. destruct (C130_program rint tb order n r p L size use_best save_best step stop K prints saves s Hn Ht Hr Hrn Hp HL Hsz Hst BN HO LS EP) as (R & d & EJ & ED & KK). exists R, d. split; [exact EJ|]. split; [exact ED|].
  intros i Hi Hk EN b X V Lb EX NK. destruct (KK i Hi Hk) as [K1 _]. destruct (K1 b X V Lb EX NK) as (ws & _ & H). rewrite EN in H. destruct H.
Qed.

(** the bucket size must exceed the number of braids: with buckets of 8, the number of positive
    normal forms of length 2 in B_3 (all of the same projlen), and step size 2, the bucket
    of length 2 is full when braids that it holds are offered again, and these replace others *)
Definition T3 : res (nftable (list nat)) := Eval vm_compute in gtb hdpick 3.
Definition tb3 (n : nat) : res (nftable (list nat)) := if n =? 3 then T3 else gtb hdpick n.
Theorem C130_equal_size_refuted : exists rint b, count_all_of_garside_length tb3 3 2 = Ok 8%Z /\ nf_value tb3 3 b /\ o_pow b = 0%Z /\ length (o_factors b) = 2 /\
  match s0 <- st_bootstrap rint search_criterion tb3 (mkJS 3 1 2) (strk_init 8 true) 1 ;; search_steps rint search_criterion tb3 (mkJS 3 1 2) (fun _ l => l) s0 0 2 100 100 2 with
  | Ok (_, s) => map (fun '(t, bk) => (t, length (sb_braids bk))) (st_buckets s) = [((2, 5%Z), 8); ((3, 7%Z), 8)] /\ ~ stored s b
  | Err _ => False end.
Proof.
  assert (G : gnf_table 3 tb3) by (assert (E : tb3 3 = gtb hdpick 3) by (vm_compute; reflexivity); pose proof (gtb_is_table hdpick 3 hdpick_ok ltac:(lia)) as H; unfold gnf_table in *; now rewrite E).
  exists (fun _ => 0), (NFObj 3 0 [1; 1]%Z). split; [vm_compute; reflexivity|]. split.
  { destruct (C51_all_of_length_partial 3 tb3 2 0 ltac:(lia) G ltac:(lia)) as (bs & EB & _ & IB & _). apply IB. assert (E : match all_of_length tb3 3 2 0 with Ok (b :: _) => b = NFObj 3 0 [1; 1]%Z | _ => False end) by (vm_compute; reflexivity). rewrite EB in E. destruct bs as [|b bs]; [destruct E|]. rewrite <- E. now left. }
  split; [reflexivity|]. split; [reflexivity|].
  set (run := s0 <- st_bootstrap _ _ _ _ _ _ ;; _).
  assert (E : match run with Ok (_, s) => map (fun '(t, bk) => (t, length (sb_braids bk))) (st_buckets s) = [((2, 5%Z), 8); ((3, 7%Z), 8)] /\ forallb (fun tb => negb (existsb (nf_eqb (NFObj 3 0 [1; 1]%Z)) (sb_braids (snd tb)))) (st_buckets s) = true | Err _ => False end) by (vm_compute; split; reflexivity).
  destruct run as [[sv s]|]; [|exact E]. destruct E as [E1 E2]. split; [exact E1|]. intros (tag & bk & G1 & H). apply PropsSearch.in_dget in G1. rewrite forallb_forall in E2. specialize (E2 _ G1). cbn [snd] in E2. rewrite existsb_nf in E2. destruct (in_dec nfdec _ (sb_braids bk)) as [I1|I1]; [discriminate|contradiction].
Qed.

(** a case: there are 22 positive normal forms of length 1 in B_4; with buckets of 30 the search
    for r = 2, p = 3 finds the four near-kernel elements of length 1 and stops *)
Example C130_case_limits : limits_suffice tb4 4 1 30 100.
Proof. intros l c Hl. assert (l = 1) as -> by lia. assert (E : count_all_of_garside_length tb4 4 (Z.of_nat 1) = Ok 22%Z) by (vm_compute; reflexivity). rewrite E. intros [= <-]. lia. Qed.
Example C130_case_run : match search_program (fun _ => 0) tb4 (fun _ l => rev l) 4 2 3 1 30 100 100 1 true with
  | Ok (prints, saves, _) => prints = [[(0%Z, [[0; 3; 2; 1]]); (0%Z, [[1; 2; 3; 0]]); (0%Z, [[2; 1; 0; 3]]); (0%Z, [[3; 0; 1; 2]])]] /\ map (fun sv => list_sum (map (fun x => length (snd x)) sv)) saves = [22]
  | Err _ => False end.
Proof. vm_compute. split; reflexivity. Qed.
