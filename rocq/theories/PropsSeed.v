(** PropsSeed.v – C131: what search.py finds and saves is determined by its arguments and
    its random generator; the order in which Python iterates over the set of buckets has
    no influence. *)
From Verif Require Import Base ModelPerm ModelPoly ModelMatrix ModelTL ModelTLMor ModelRep ModelPolymat ModelPolyRep NFApi PermGerm PermTable PropsGNF ModelBraid ModelTracker ModelSql ModelSearch TrackerRun2.
From Coq Require Import Permutation Sorted.
From Verif Require PropsSearch PropsSearch2.
Local Open Scope nat_scope.

Lemma sorted_unique (l1 : list (stag * nat)) : forall l2, StronglySorted (fun a b => (PropsSearch.proj a < PropsSearch.proj b)%Z) l1 -> StronglySorted (fun a b => (PropsSearch.proj a < PropsSearch.proj b)%Z) l2 -> Permutation l1 l2 -> l1 = l2.
Proof.
  induction l1 as [|a l1 IH]; intros l2 S1 S2 P; [now apply Permutation_nil in P|]. destruct l2 as [|b l2]; [now apply Permutation_sym, Permutation_nil in P|].
  inversion S1 as [|? ? S1' F1]; subst. inversion S2 as [|? ? S2' F2]; subst. rewrite Forall_forall in F1, F2. assert (E : a = b).
  { destruct (Permutation_in a P (or_introl eq_refl)) as [->|Ha]; [reflexivity|]. destruct (Permutation_in b (Permutation_sym P) (or_introl eq_refl)) as [->|Hb]; [reflexivity|]. specialize (F1 b Hb). specialize (F2 a Ha). lia. }
  subst b. f_equal. apply IH; auto. now apply Permutation_cons_inv in P.
Qed.
Lemma filter_perm {X} (f : X -> bool) l l' : Permutation l l' -> Permutation (filter f l) (filter f l').
Proof.
  induction 1 as [|x l l' P IH|x y l|l l1 l2 P IH P2 IH2]; cbn [filter]; [reflexivity| | |now rewrite IH].
  - destruct (f x); [now constructor|exact IH].
  - destruct (f x), (f y); try reflexivity. apply perm_swap.
Qed.
Lemma selection_order rows rows' k limit : NoDup (map fst rows) -> Permutation rows rows' -> selection rows k limit = selection rows' k limit.
Proof.
  intros NR P. unfold selection. f_equal. assert (G : forall l, NoDup (map fst l) -> NoDup (map PropsSearch.proj (filter (fun r => fst (fst r) =? k) l))).
  { clear. induction l as [|r l IH]; intros N; [constructor|]. cbn [map] in N. inversion N as [|? ? A B]; subst. cbn [filter]. destruct (Nat.eqb_spec (fst (fst r)) k) as [E|E]; [|auto]. cbn [map]. constructor; [|auto]. intros H. apply A. apply in_map_iff in H. destruct H as (x & Ex & Hx). apply filter_In in Hx. destruct Hx as [Hx Kx]. apply Nat.eqb_eq in Kx. apply in_map_iff. exists x. split; [|exact Hx]. unfold PropsSearch.proj in Ex. destruct x as [[? ?] ?], r as [[? ?] ?]. cbn in *. congruence. }
  apply sorted_unique.
  - apply PropsSearch.sort_sorted. now apply G.
  - apply PropsSearch.sort_sorted. apply G. exact (Permutation_NoDup (Permutation_map fst P) NR).
  - rewrite !PropsSearch.sort_perm. now apply filter_perm.
Qed.
Lemma discard_order ts : forall s, fold_left st_discard ts s = mkST (st_size s) (st_rand s) (filter (fun kv => if in_dec stagdec (fst kv) ts then false else true) (st_buckets s)) (st_counts s) (st_draws s).
Proof.
  induction ts as [|t ts IH]; intros s; cbn [fold_left].
  - replace (filter _ (st_buckets s)) with (st_buckets s); [now destruct s|]. induction (st_buckets s) as [|x l IHl]; [reflexivity|]. cbn [filter]. destruct (in_dec stagdec (fst x) []) as [[]|]. now rewrite <- IHl.
  - rewrite IH. cbn [st_discard st_size st_rand st_buckets st_counts st_draws]. f_equal. unfold ddel. induction (st_buckets s) as [|x l IHl]; [reflexivity|]. cbn [filter]. assert (E : stag_eqb t (fst x) = if stagdec t (fst x) then true else false).
    { destruct t as [a u], (fst x) as [b v]. unfold stag_eqb. cbn [fst snd]. destruct (stagdec (a, u) (b, v)) as [Q|Q]; [injection Q as -> ->; now rewrite Nat.eqb_refl, Z.eqb_refl|]. destruct (Nat.eqb_spec a b), (Z.eqb_spec u v); cbn; congruence. }
    rewrite E. destruct (stagdec t (fst x)) as [Q|Q]; cbn [negb].
    + destruct (in_dec stagdec (fst x) (t :: ts)) as [I1|I1]; [exact IHl|exfalso; apply I1; now left].
    + cbn [filter]. destruct (in_dec stagdec (fst x) ts) as [I1|I1], (in_dec stagdec (fst x) (t :: ts)) as [I2|I2]; [exact IHl|exfalso; apply I2; now right|exfalso; destruct I2; auto|now rewrite IHl].
Qed.
Lemma discard_perm ts ts' s : Permutation ts ts' -> fold_left st_discard ts s = fold_left st_discard ts' s.
Proof.
  intros P. rewrite !discard_order. f_equal. apply filter_ext. intros x. destruct (in_dec stagdec (fst x) ts) as [I1|I1], (in_dec stagdec (fst x) ts') as [I2|I2]; auto; exfalso; [apply I2, (Permutation_in _ P I1)|apply I1, (Permutation_in _ (Permutation_sym P) I2)].
Qed.
Lemma mapM_perm {X Y} (f : X -> res Y) l l' : Permutation l l' -> forall ys, mapM f l = Ok ys -> exists ys', mapM f l' = Ok ys' /\ Permutation ys ys'.
Proof.
  induction 1 as [|x l l' P IH|x y l|l l1 l2 P IH P2 IH2]; intros ys; cbn [mapM].
  - intros [= <-]. exists []. auto.
  - destruct (f x) as [a|]; [|discriminate]. cbn [bind]. destruct (mapM f l) as [q|]; [|discriminate]. cbn [bind]. intros [= <-]. destruct (IH q eq_refl) as (q' & -> & Q). cbn [bind]. exists (a :: q'). split; [reflexivity|now constructor].
  - destruct (f y) as [b|]; [|discriminate]. cbn [bind]. destruct (f x) as [a|]; [|discriminate]. cbn [bind]. destruct (mapM f l) as [q|]; [|discriminate]. cbn [bind]. intros [= <-]. exists (a :: b :: q). split; [reflexivity|apply perm_swap].
  - intros E. destruct (IH ys E) as (y1 & E1 & Q1). destruct (IH2 y1 E1) as (y2 & E2 & Q2). exists y2. split; [exact E2|now transitivity y1].
Qed.
Lemma concat_perm {X} (l l' : list (list X)) : Permutation l l' -> Permutation (concat l) (concat l').
Proof. induction 1; cbn [concat]; [reflexivity|now apply Permutation_app_head| |etransitivity; eassumption]. rewrite !app_assoc. apply Permutation_app_tail, Permutation_app_comm. Qed.

Section Order.
Variables (rint : nat -> nat) (crit : list nfobj -> parr -> res (list bool)) (tb : nat -> res (nftable (list nat))) (S : jsum) (order order' : nat -> list (stag * nat) -> list (stag * nat)).
Hypothesis (HO : forall k l, Permutation l (order k l)) (HO' : forall k l, Permutation l (order' k l)).
Variables (use_best save_best step : Z).
Lemma rows_order k s : Permutation (order k (stats_rows s)) (order' k (stats_rows s)).
Proof using HO HO'. transitivity (stats_rows s); [symmetry; apply HO|apply HO']. Qed.
Lemma rows_nodup k s : NoDup (PropsSearch.keys s) -> NoDup (map fst (order k (stats_rows s))).
Proof using HO. intros N. apply (Permutation_NoDup (Permutation_map fst (HO k _))). now rewrite PropsSearch.rows_keys. Qed.
Lemma step_order s k : NoDup (PropsSearch.keys s) -> search_step rint crit tb S order s k use_best save_best step = search_step rint crit tb S order' s k use_best save_best step.
Proof using HO HO'.
  intros N. unfold search_step. cbv zeta. rewrite !(selection_order _ _ k _ (rows_nodup k s N) (rows_order k s)). destruct (mapM _ _) as [sv|]; [|reflexivity]. cbn [bind]. destruct (foldM _ _ s) as [q|]; [|reflexivity]. cbn [bind]. do 2 f_equal. apply discard_perm, Permutation_map, filter_perm, rows_order.
Qed.
Lemma save_order s k : NoDup (PropsSearch.keys s) -> save_selection order s k save_best = save_selection order' s k save_best.
Proof using HO HO'. intros N. unfold save_selection. destruct (k <? 0)%Z; [reflexivity|]. now rewrite (selection_order _ _ _ _ (rows_nodup _ s N) (rows_order _ s)). Qed.
Lemma advance_order s k : NoDup (PropsSearch.keys s) -> advance rint crit tb S order s k use_best save_best step = advance rint crit tb S order' s k use_best save_best step.
Proof using HO HO'. intros N. unfold advance. now rewrite step_order. Qed.
Lemma report_order s k pr : near_kernel_report tb order s k = Ok pr -> exists pr', near_kernel_report tb order' s k = Ok pr' /\ Permutation pr pr'.
Proof using HO HO'.
  unfold near_kernel_report. destruct (mapM _ _) as [ls|] eqn:E; [|discriminate]. cbn [bind]. intros [= <-]. destruct (mapM_perm _ _ _ (filter_perm (fun r : stag * nat => (snd (fst r) =? 1)%Z) _ _ (rows_order (Z.to_nat k) s)) _ E) as (ls' & E' & P). exists (concat ls'). split; [|now apply concat_perm]. unfold near_kernel_rows. match goal with |- bind ?e _ = _ => replace e with (Ok ls') by (symmetry; exact E') end. reflexivity.
Qed.
Variables (n : nat) (n2 : 2 <= n) (Ht : gnf_table n tb).
Lemma advance_state s k s' : PropsSearch.search_state tb n s -> advance rint crit tb S order s k use_best save_best step = Ok s' -> PropsSearch.search_state tb n s'.
Proof using HO n2 Ht.
  intros SS. unfold advance. destruct (k <? 0)%Z; [now intros [= <-]|]. destruct (search_step _ _ _ _ _ _ _ _ _ _) as [[[sel sv] q]|] eqn:E; [|discriminate]. cbn [bind]. intros [= <-]. now destruct (PropsSearch.C77_step _ _ _ _ _ _ _ _ _ _ _ _ _ _ n2 Ht HO SS E) as (_ & _ & K & _).
Qed.
Lemma main_order stop count : forall s k prints saves s', PropsSearch.search_state tb n s -> search_main rint crit tb S order count s k use_best save_best step stop = Ok (prints, saves, s') ->
  exists prints', search_main rint crit tb S order' count s k use_best save_best step stop = Ok (prints', saves, s') /\ Forall2 (@Permutation _) prints prints'.
Proof using HO HO' n2 Ht.
  induction count as [|count IH]; intros s k prints saves s' SS; cbn [search_main]; [intros [= <- <- <-]; exists []; split; [reflexivity|constructor]|].
  destruct (near_kernel_report tb order s k) as [pr|] eqn:EP; [|discriminate]. cbn [bind]. destruct (report_order s k pr EP) as (pr' & EP' & PP). rewrite EP'. cbn [bind]. rewrite <- (save_order s k (proj1 SS)). destruct (save_selection order s k save_best) as [sv|]; [|discriminate]. cbn [bind]. rewrite <- (advance_order s k (proj1 SS)). destruct (advance rint crit tb S order s k use_best save_best step) as [s1|] eqn:EA; [|discriminate]. cbn [bind].
  assert (LE : length (near_kernel_rows order s k) = length (near_kernel_rows order' s k)) by (apply Permutation_length, filter_perm, rows_order). rewrite <- LE. destruct (stop && _); [intros [= <- <- <-]; exists [pr']; split; [reflexivity|repeat constructor; exact PP]|].
  destruct (search_main rint crit tb S order count s1 (k + 1) use_best save_best step stop) as [[[ps ss] q]|] eqn:EM; [|discriminate]. cbn [bind]. intros [= <- <- <-]. destruct (IH s1 (k + 1)%Z ps ss q (advance_state s k s1 SS EA) EM) as (ps' & -> & F). cbn [bind]. exists (pr' :: ps'). split; [reflexivity|now constructor].
Qed.
Lemma events_order count : forall s k, PropsSearch.search_state tb n s -> search_events rint crit tb S order count s k use_best save_best step = search_events rint crit tb S order' count s k use_best save_best step.
Proof using HO HO' n2 Ht.
  induction count as [|count IH]; intros s k SS; cbn [search_events]; [reflexivity|]. rewrite <- (save_order s k (proj1 SS)). destruct (save_selection order s k save_best) as [sv|]; [|reflexivity]. f_equal. rewrite <- (advance_order s k (proj1 SS)). destruct (advance rint crit tb S order s k use_best save_best step) as [s1|] eqn:EA; [|reflexivity]. apply IH. now apply (advance_state s k).
Qed.
End Order.

(** C131.  Two runs of search.py with the same arguments and the same random draws, which
    differ only in the order in which the buckets are listed in each iteration: if one
    finishes, so does the other; they save the same rows in the same order, end with the
    same tracker, and each iteration prints the same near-kernel elements, up to order. *)
Theorem C131_program rint tb order order' n r p L size use_best save_best step stop prints saves s : 2 <= n -> gnf_table n tb -> (forall k l, Permutation l (order k l)) -> (forall k l, Permutation l (order' k l)) ->
  search_program rint tb order n r p L size use_best save_best step stop = Ok (prints, saves, s) ->
  exists prints', search_program rint tb order' n r p L size use_best save_best step stop = Ok (prints', saves, s) /\ Forall2 (@Permutation _) prints prints'.
Proof.
  intros n2 Ht HO HO'. unfold search_program. destruct (assert_ _); [|discriminate]. cbn [bind]. destruct (assert_ _); [|discriminate]. cbn [bind]. destruct (assert_ _); [|discriminate]. cbn [bind]. destruct (jones_summand n r p) as [S|] eqn:ES; [|discriminate]. cbn [bind]. destruct (count_all_of_garside_length tb n L); [|discriminate]. cbn [bind].
  destruct (st_bootstrap rint search_criterion tb S (strk_init size true) L) as [s0|] eqn:E0; [|discriminate]. cbn [bind]. cbv zeta. apply (main_order rint search_criterion tb S order order' HO HO' use_best save_best step n n2 Ht).
  assert (ESn : js_n S = n) by (rewrite (PropsSearch2.js_fields _ _ _ _ ES); reflexivity). exact (proj1 (PropsSearch.C77_reachable n tb rint search_criterion S order size true L 0 0 0%Z 0%Z 0%Z s0 [] s0 n2 Ht ESn HO E0 eq_refl)).
Qed.
(** the database goes through the same states, so after a crash at any point it
    holds the same rows *)
Theorem C131_database rint crit tb S order order' n size rand L s0 count first use_best save_best step : 2 <= n -> gnf_table n tb -> js_n S = n -> (forall k l, Permutation l (order k l)) -> (forall k l, Permutation l (order' k l)) ->
  st_bootstrap rint crit tb S (strk_init size rand) L = Ok s0 -> search_events rint crit tb S order count s0 first use_best save_best step = search_events rint crit tb S order' count s0 first use_best save_best step.
Proof.
  intros n2 Ht HS HO HO' E0. apply (events_order rint crit tb S order order' HO HO' use_best save_best step n n2 Ht). exact (proj1 (PropsSearch.C77_reachable n tb rint crit S order size rand L 0 0 0%Z 0%Z 0%Z s0 [] s0 n2 Ht HS HO E0 eq_refl)).
Qed.
(** the run of PropsSearch2.C100_case lists the buckets in the reverse order; the same with
    the buckets in their own order *)
Example C131_case : gnf_table 4 PropsSearch2.tb4 /\ exists prints saves s, search_program (fun _ => 0) PropsSearch2.tb4 (fun _ l => rev l) 4 2 3 1 2 100 100 1 true = Ok (prints, saves, s) /\
  exists prints', search_program (fun _ => 0) PropsSearch2.tb4 (fun _ l => l) 4 2 3 1 2 100 100 1 true = Ok (prints', saves, s) /\ map (@length _) prints' = [2].
Proof.
  split; [exact PropsSearch2.C100_case_table|]. pose proof PropsSearch2.C100_case as H. destruct (search_program (fun _ => 0) PropsSearch2.tb4 (fun _ l => rev l) 4 2 3 1 2 100 100 1 true) as [[[prints saves] s]|] eqn:E; [|destruct H]. exists prints, saves, s. split; [reflexivity|].
  destruct (C131_program (fun _ => 0) PropsSearch2.tb4 (fun _ l => rev l) (fun _ l => l) 4 2 3 1 2 100 100 1 true prints saves s ltac:(lia) PropsSearch2.C100_case_table) as (prints' & E' & F); [intros; apply Permutation_rev|intros; reflexivity|exact E|].
  exists prints'. split; [exact E'|]. destruct H as [_ ->]. inversion F as [|? ? ? ? P F']; subst. inversion F'; subst. apply Permutation_length in P. cbn [map]. now rewrite <- P.
Qed.
