(** PropsStats.v – C105, C106: the reports of the trackers. *)
From Verif Require Import Base ModelPoly ModelMatrix ModelPolymat SpecPolymat PolymatTheory PropsPolymat PropsPolymat2 PropsPolymat3 ModelPerm ModelBraid ModelTracker SpecTracker TrackerTheory TrackerRun PropsTracker TrackerRun2 PropsTracker2 ModelTools.
From Verif Require PropsTLMor2.
From Coq Require Import QArith Permutation.
Local Open Scope nat_scope.

(** ** dicts *)
Section D.
Context {K V : Type} (keqb : K -> K -> bool) (dec : forall a b : K, {a = b} + {a <> b}) (KE : forall a b, keqb a b = true <-> a = b).
Lemma dset_keys (d : list (K * V)) k v : map fst (dset keqb d k v) = if in_dec dec k (map fst d) then map fst d else map fst d ++ [k].
Proof.
  induction d as [|[a u] d IH]; cbn [dset map fst]; [reflexivity|]. rewrite (keqb_dec keqb dec KE). destruct (dec k a) as [->|N]; cbn [map fst].
  - destruct (in_dec dec a (a :: map fst d)) as [|Q]; [reflexivity|]. exfalso. apply Q. now left.
  - rewrite IH. destruct (in_dec dec k (map fst d)) as [I1|I1], (in_dec dec k (a :: map fst d)) as [I2|I2]; try reflexivity; exfalso; [apply I2; now right|]. destruct I2 as [E|I2]; [congruence|contradiction].
Qed.
Lemma dset_nodup (d : list (K * V)) k v : NoDup (map fst d) -> NoDup (map fst (dset keqb d k v)).
Proof. intros H. rewrite dset_keys. destruct (in_dec dec k (map fst d)); [exact H|]. apply NoDup_app_intro; [exact H|repeat constructor; intros []|]. intros x Hx [<-|[]]. contradiction. Qed.
Lemma ddel_nodup (d : list (K * V)) k : NoDup (map fst d) -> NoDup (map fst (ddel keqb d k)).
Proof.
  unfold ddel. induction d as [|[a u] d IH]; cbn [filter map fst]; [constructor|]. intros H. inversion H as [|? ? N1 N2]; subst. destruct (keqb k a); cbn [negb map fst]; [now apply IH|]. constructor; [|now apply IH].
  intros Q. apply N1. apply in_map_iff in Q. destruct Q as (x & E & Hx). apply filter_In in Hx. apply in_map_iff. exists x. tauto.
Qed.
Lemma dget_in (d : list (K * V)) k : (exists v, dget keqb d k = Some v) <-> In k (map fst d).
Proof.
  induction d as [|[a u] d IH]; cbn [dget map fst In]; [split; [intros [v H]; discriminate|intros []]|]. rewrite (keqb_dec keqb dec KE). destruct (dec k a) as [->|N]; [split; [now left|eauto]|]. rewrite IH. split; [now right|]. intros [E|H]; [congruence|exact H].
Qed.
Lemma dget_nodup (d : list (K * V)) k v : NoDup (map fst d) -> In (k, v) d -> dget keqb d k = Some v.
Proof.
  induction d as [|[a u] d IH]; cbn [dget map fst In]; [intros _ []|]. intros H Hin. inversion H as [|? ? N1 N2]; subst. rewrite (keqb_dec keqb dec KE). destruct Hin as [E|Hin].
  - injection E as -> ->. destruct (dec k k); [reflexivity|contradiction].
  - destruct (dec k a) as [->|]; [|now apply IH]. exfalso. apply N1. apply in_map_iff. exists (a, v). auto.
Qed.
End D.

(** ** bucketing: the unused weights are 0 *)
Definition wpad (b : bucket) : Prop := b_size b <= length (b_weights b) /\ Forall (fun x => x = 0%Q) (skipn (b_size b) (b_weights b)).
Lemma skipn_upd {A} (l : list A) i k a : i < k -> skipn k (upd l i a) = skipn k l.
Proof. revert i k; induction l as [|x l IH]; intros [|i] [|k] H; cbn [upd skipn]; try lia; try reflexivity. apply IH. lia. Qed.
Lemma set_inv {A} (l : list A) i a l' : set_ l i a = Ok l' -> i < length l /\ l' = upd l i a.
Proof. unfold set_. destruct (Nat.ltb_spec i (length l)); [|discriminate]. now intros [= <-]. Qed.
Lemma Forall_skipn' {A} (P : A -> Prop) k l : Forall P (skipn k l) -> Forall P (skipn (S k) l).
Proof. revert l; induction k as [|k IH]; intros [|x l] H; cbn [skipn] in *; [constructor|now inversion H|constructor|now apply IH]. Qed.
Lemma append_wpad b br im w i b' : wpad b -> append_braid b br im w = Ok (i, b') -> wpad b'.
Proof.
  intros [L F] H. unfold append_braid in H. destruct (b_size b =? b_capacity b); [discriminate|]. cbv zeta in H. destruct (set_item _ _ _) as [im'|]; [|discriminate]. cbn [bind] in H. destruct (set_ _ _ _) as [ws|] eqn:E; [|discriminate]. cbn [bind] in H. injection H as <- <-. apply set_inv in E. destruct E as [Li ->].
  unfold wpad, b_size in *. cbn [b_braids b_weights]. rewrite app_length, upd_length. cbn [length]. split; [lia|]. rewrite skipn_upd by lia. rewrite Nat.add_1_r. now apply Forall_skipn'.
Qed.
Lemma replace_wpad b br im w i b' : wpad b -> replace_braid b i br im w = Ok b' -> wpad b'.
Proof.
  intros [L F] H. unfold replace_braid in H. destruct (Nat.ltb_spec i (b_size b)) as [Lt|]; [|discriminate]. cbn [negb] in H. destruct (set_ (b_braids b) _ _) as [bs|] eqn:E1; [|discriminate]. cbn [bind] in H. destruct (set_item _ _ _) as [im'|]; [|discriminate]. cbn [bind] in H. destruct (set_ _ _ w) as [ws|] eqn:E; [|discriminate]. cbn [bind] in H. injection H as <-. apply set_inv in E, E1. destruct E as [Li ->], E1 as [_ ->].
  unfold wpad, b_size in *. cbn [b_braids b_weights]. rewrite !upd_length. split; [exact L|]. now rewrite skipn_upd by exact Lt.
Qed.
Lemma place_wpad rnd rint m k b br im w b' k' : wpad b -> place rnd rint m k b br im w = Ok (b', k') -> wpad b'.
Proof.
  intros W. unfold place. destruct m.
  - destruct (negb (b_is_full b)); [|now intros [= <- <-]]. destruct (append_braid _ _ _ _) as [[i b1]|] eqn:E; [|discriminate]. cbn [bind]. intros [= <- <-]. eapply append_wpad; eauto.
  - destruct (negb (b_is_full b)). { destruct (append_braid _ _ _ _) as [[i b1]|] eqn:E; [|discriminate]. cbn [bind]. intros [= <- <-]. eapply append_wpad; eauto. }
    destruct (b_count b =? 0); [discriminate|]. destruct (Qle_bool _ _); [|now intros [= <- <-]]. destruct (randrange _ _ _) as [i|]; [|discriminate]. cbn [bind]. destruct (replace_braid _ _ _ _ _) as [b1|] eqn:E; [|discriminate]. cbn [bind]. intros [= <- <-]. eapply replace_wpad; eauto.
  - destruct (negb (b_is_full b)). { destruct (append_braid _ _ _ _) as [[i b1]|] eqn:E; [|discriminate]. cbn [bind]. intros [= <- <-]. eapply append_wpad; eauto. }
    destruct (Qeq_bool _ _); [discriminate|]. destruct (Qle_bool _ _); [|now intros [= <- <-]]. destruct (randrange _ _ _) as [i|]; [|discriminate]. cbn [bind]. destruct (replace_braid _ _ _ _ _) as [b1|] eqn:E; [|discriminate]. cbn [bind]. intros [= <- <-]. eapply replace_wpad; eauto.
  - destruct (negb (b_is_full b)). { destruct (append_braid _ _ _ _) as [[i b1]|] eqn:E; [|discriminate]. cbn [bind]. intros [= <- <-]. apply append_wpad in E; [exact E|exact W]. }
    destruct (heap_top _) as [[mw mi]|]; [|discriminate]. cbn [bind]. destruct (negb (Qle_bool _ _)); [|now intros [= <- <-]]. destruct (heappop _) as [h|]; [|discriminate]. cbn [bind]. destruct (replace_braid _ _ _ _ _) as [b1|] eqn:E; [|discriminate]. cbn [bind]. intros [= <- <-]. eapply replace_wpad; [|exact E]. exact W.
Qed.
Definition tidy (tr : tracker) : Prop := NoDup (map fst (tr_buckets tr)) /\ forall tag b, dget tag_eqb (tr_buckets tr) tag = Some b -> wpad b.
Lemma offer_tidy rnd rint tr br im tag w tr' : tidy tr -> offer rnd rint tr br im tag w = Ok tr' -> tidy tr'.
Proof.
  intros [N W]. unfold offer. set (bs := match dget tag_eqb (tr_buckets tr) tag with Some _ => _ | None => _ end).
  assert (K : NoDup (map fst bs) /\ forall tag' b, dget tag_eqb bs tag' = Some b -> wpad b).
  { unfold bs. destruct (dget tag_eqb (tr_buckets tr) tag) eqn:G; [auto|]. split; [now apply (dset_nodup _ tagdec tag_eqb_iff)|]. intros tag' b. rewrite (dget_dset _ tagdec tag_eqb_iff). destruct (tagdec tag tag'); [|apply W]. intros [= <-]. unfold wpad, b_size. cbn [bucket_create b_braids b_weights length]. rewrite repeat_length. split; [lia|]. cbn [skipn]. apply Forall_forall. intros x Hx. now apply repeat_spec in Hx. }
  destruct K as [N' W']. unfold dgetE. destruct (dget tag_eqb bs tag) as [b|] eqn:G; [|discriminate]. cbn [bind]. destruct (place _ _ _ _ _ _ _ _) as [[b' k]|] eqn:E; [|discriminate]. cbn [bind]. intros [= <-]. cbn [with_buckets tr_buckets]. split; [now apply (dset_nodup _ tagdec tag_eqb_iff)|].
  intros tag' b2. cbn [with_buckets tr_buckets]. rewrite (dget_dset _ tagdec tag_eqb_iff). destruct (tagdec tag tag'); [|apply W']. intros [= <-]. eapply place_wpad; [|exact E]. exact (W' tag b G).
Qed.
Lemma foldM_keep {X S} (P : S -> Prop) (f : S -> X -> res S) l : (forall s x s', P s -> f s x = Ok s' -> P s') -> forall s s', P s -> foldM f l s = Ok s' -> P s'.
Proof. intros H. induction l as [|x l IH]; intros s s' Ps; cbn [foldM]; [now intros [= <-]|]. destruct (f s x) as [s1|] eqn:E; [|discriminate]. cbn [bind]. apply IH. exact (H _ _ _ Ps E). Qed.
Lemma run_tidy cls rnd rint os tr tr' : tidy tr -> run_ops cls rnd rint tr os = Ok tr' -> tidy tr'.
Proof.
  intros T H. unfold run_ops in H. revert T H. apply foldM_keep. clear. intros tr [bs im|tag] tr' T; cbn [apply_op].
  - unfold add_braids_images. destruct (assert_ _); [|discriminate]. cbn [bind]. destruct (mapM _ (tr_stats tr)) as [sts|]; [|discriminate]. cbn [bind]. destruct (mapM _ (seq 0 (length bs))) as [tags|]; [|discriminate]. cbn [bind]. destruct (match tr_weight tr with Some f => f bs im | None => Ok (repeat 1%Q (length bs)) end) as [ws|]; [|discriminate]. cbn [bind]. destruct (proj_starts_ends im) as [[st en]|]; [|discriminate]. cbn [bind].
    apply foldM_keep; [|exact T]. clear. intros tr i tr' T. destruct (get bs i); [|discriminate]. cbn [bind]. destruct (arr_item im (Z.of_nat i)); [|discriminate]. cbn [bind]. destruct (get st i); [|discriminate]. cbn [bind]. destruct (get en i); [|discriminate]. cbn [bind]. destruct (get tags i); [|discriminate]. cbn [bind]. destruct (get ws i); [|discriminate]. cbn [bind]. now apply offer_tidy.
  - intros [= <-]. destruct T as [N W]. split; cbn [discard_bucket with_buckets tr_buckets]; [now apply ddel_nodup|]. intros tag' b. cbn [discard_bucket with_buckets tr_buckets]. rewrite (dget_ddel _ tagdec tag_eqb_iff). destruct (tagdec tag tag'); [discriminate|apply W].
Qed.
Lemma qsum_zero l : forall a, Forall (fun x => x = 0%Q) l -> (fold_left Qplus l a == a)%Q.
Proof. induction l as [|x l IH]; intros a F; cbn [fold_left]; [reflexivity|]. inversion F; subst. rewrite IH by assumption. ring. Qed.
Lemma total_qsum l : total_weight l = qsum (map iweight l).
Proof. unfold total_weight, qsum. generalize 0%Q. induction l as [|x l IH]; intros a; cbn [fold_left map]; [reflexivity|]. apply IH. Qed.

(** C105 for bucketing: the report has one row for each bucket that has been offered
    something since it was last discarded; it shows the tag, the number of stored
    pairs, the number of pairs offered, the average weight of the stored pairs and
    that of the offered ones. *)
Theorem C105_bucketing cls rnd rint cap stats m w I J t os tr : 1 <= cap -> Forall (op_ok I J t) os -> new_run cls rnd rint cap stats m w os = Ok tr ->
  exists h, history cls stats w os h /\
    NoDup (map (fun '(tag, _, _, _, _, _) => tag) (tracker_stats tr)) /\
    (forall tag, In tag (map (fun '(tag, _, _, _, _, _) => tag) (tracker_stats tr)) <-> since tagdec tag h <> []) /\
    forall tag count columns seen avg avg_seen, In (tag, count, columns, seen, avg, avg_seen) (tracker_stats tr) ->
      columns = tag /\ seen = length (since tagdec tag h) /\ count = Nat.min cap seen /\
      exists b items a q, dget tag_eqb (tr_buckets tr) tag = Some b /\ contains b items /\ length items = count /\
        avg = Some a /\ (a == total_weight items / inject_Z (Z.of_nat count))%Q /\ avg_seen = Some q /\ (q == total_weight (since tagdec tag h) / inject_Z (Z.of_nat seen))%Q.
Proof.
  intros Hc F H. destruct (new_run_ok _ _ _ _ _ _ _ _ _ _ _ _ F H) as (_ & _ & h & HH & TO).
  assert (TD : tidy tr). { unfold new_run, tracker_init in H. destruct (assert_ (existsb is_length stats)); [|discriminate]. destruct (assert_ (existsb is_projlen stats)); [|discriminate]. cbn [bind] in H. eapply run_tidy; [|exact H]. split; [constructor|discriminate]. }
  destruct TD as [ND WP]. destruct TO as (_ & _ & _ & _ & TO). exists h. split; [exact HH|].
  assert (TG : forall tag b, In (tag, b) (tr_buckets tr) -> b_tag b = tag). { intros tag b Hin. specialize (TO tag). rewrite (dget_nodup _ tagdec tag_eqb_iff _ _ _ ND Hin) in TO. destruct TO as [_ (items & B & _)]. apply B. }
  assert (KE : map (fun '(tag, _, _, _, _, _) => tag) (tracker_stats tr) = map fst (tr_buckets tr)). { unfold tracker_stats. rewrite map_map. apply map_ext_in. intros [tag b] Hin. cbn. now apply TG. }
  rewrite KE. split; [exact ND|]. split.
  - intros tag. rewrite <- (dget_in _ tagdec tag_eqb_iff). specialize (TO tag). destruct (dget tag_eqb (tr_buckets tr) tag) as [b|]; [split; [intros _; apply TO|eauto]|]. split; [intros [v Q]; discriminate|contradiction].
  - intros tag count columns seen avg avg_seen Hin. unfold tracker_stats in Hin. apply in_map_iff in Hin. destruct Hin as ([tag' b] & E & Hin). injection E as <- <- <- <- <- <-. rewrite (TG _ _ Hin). pose proof (dget_nodup _ tagdec tag_eqb_iff _ _ _ ND Hin) as G. pose proof (TO tag') as T. rewrite G in T. destruct T as [NE (items & B & _ & Ho & C & W)].
    assert (SZ : b_size b = length items) by (unfold b_size; rewrite (bi_braids _ _ _ _ _ _ _ _ B); apply map_length). assert (LI : length items = Nat.min cap (length (since tagdec tag' h))) by apply Ho. assert (LS : 1 <= length (since tagdec tag' h)) by (destruct (since tagdec tag' h); [contradiction|cbn; lia]).
    split; [reflexivity|]. split; [exact C|]. split; [rewrite SZ, C; exact LI|]. pose proof (binv_contains _ _ _ _ _ _ _ _ B) as CT. assert (Cw : firstn (length items) (b_weights b) = map iweight items) by (destruct CT as (_ & _ & _ & Cw); exact Cw).
    unfold qdiv. rewrite SZ, C, W. destruct (Nat.eqb_spec (length items) 0) as [Q|_]; [lia|]. destruct (Nat.eqb_spec (length (since tagdec tag' h)) 0) as [Q|_]; [lia|].
    eexists b, items, _, _. split; [exact G|]. split; [exact CT|]. split; [reflexivity|]. split; [reflexivity|]. split; [|split; [reflexivity|reflexivity]].
    assert (ES : (qsum (b_weights b) == total_weight items)%Q). { rewrite total_qsum, <- Cw, <- SZ. unfold qsum. rewrite <- (firstn_skipn (b_size b) (b_weights b)) at 1. rewrite fold_left_app. apply qsum_zero. apply (WP _ _ G). }
    now rewrite ES.
Qed.

(** ** braidsearch: any further invariant of the calls goes along with the history *)
Section SQ.
Variables (rint : nat -> nat) (crit : criterion) (size : nat) (rand : bool) (I J : nat) (t : dtype) (Q : strk -> list (event stag) -> Prop).
Hypothesis Hsize : 1 <= size.
Hypothesis QO : forall s h b img tag x s', Q s h -> st_offer rint s b img tag = Ok s' -> Q s' (h ++ [Offered tag x]).
Hypothesis QD : forall s h tag, Q s h -> Q (st_discard s tag) (h ++ [Dropped tag]).
Hypothesis Q0 : Q (strk_init size rand) [].
Lemma soffs_Q bs im pls : wfa im -> apre im = [length bs] -> aD im <> 0 -> all_nonzero im -> aI im = I -> aJ im = J -> adt im = t -> projlen im = Ok pls ->
  forall l, (forall i, In i l -> i < length bs) -> forall s h, st_ok rint size rand I J t s h -> Q s h ->
  exists s' es, foldM (fun s i => e <- sget bs im pls i ;; soff rint s e) l s = Ok s' /\ Forall2 (soffer bs im) l es /\ st_ok rint size rand I J t s' (h ++ es) /\ Q s' (h ++ es).
Proof using All.
  intros W P HD NZ E1 E2 E3 PL. induction l as [|i l IH]; intros Hl s h SO SQ; cbn [foldM].
  - exists s, []. rewrite app_nil_r. split; [reflexivity|]. split; [constructor|split; [exact SO|exact SQ]].
  - destruct (sget_ok size I J t Hsize bs im pls i W P HD NZ E1 E2 E3 PL (Hl i (or_introl eq_refl))) as (b & img & tag & x & G & <- & PJ & X & O). rewrite G. cbn [bind]. unfold soff at 1.
    destruct (st_offer_ok rint size rand I J t s h tag x img Hsize SO X PJ) as (s1 & EO & SO1). rewrite EO. cbn [bind].
    destruct (IH (fun j Hj => Hl j (or_intror Hj)) s1 _ SO1 (QO _ _ _ _ _ x _ SQ EO)) as (s2 & es & F1 & F2 & F3 & F4). exists s2, (Offered tag x :: es). split; [exact F1|]. split; [now constructor|]. rewrite <- app_assoc in F3, F4. auto.
Qed.
Lemma st_add_Q s h bs im s' : sop_ok I J t (SAdd bs im) -> st_ok rint size rand I J t s h -> Q s h -> st_add rint crit s bs im = Ok s' ->
  exists es, soffers crit bs im es /\ st_ok rint size rand I J t s' (h ++ es) /\ Q s' (h ++ es).
Proof using All.
  intros (W & E1 & E2 & E3 & NZ) SO SQ. rewrite st_add_fold. unfold image_stats_check. destruct (apre im) as [|m [|? ?]] eqn:P; try discriminate. destruct (Nat.eqb_spec m (length bs)) as [->|]; [|discriminate]. cbn [assert_ bind].
  destruct (Nat.eq_dec (aD im) 0) as [Z|HD]; [unfold valmin, argmax_axis; rewrite Z; discriminate|]. rewrite (valmin_eq im HD). cbn [bind]. destruct (forallb _ _) eqn:FB; [|discriminate]. cbn [assert_ bind].
  destruct (crit bs im) as [keep|] eqn:K; [|discriminate]. cbn [bind]. rewrite (projlen_eq im HD). cbn [bind]. set (pls := map _ (ablocks im)). set (l := filter _ _). intros H.
  assert (Hl : forall i, In i l -> i < length bs).
  { apply (foldM_gets (sget bs im pls) (soff rint)) in H; [|reflexivity]. destruct H as (es & F & _). clear - F. induction F as [|i e l es H F IH]; [intros i []|]. intros j [<-|Hj]; [|now apply IH]. unfold sget in H. destruct (get bs i) eqn:G; [|discriminate]. now apply get_Ok_lt in G. }
  destruct (soffs_Q bs im pls W P HD NZ E1 E2 E3 (projlen_eq im HD) l Hl s h SO SQ) as (s2 & es & F1 & F2 & F3 & F4). rewrite F1 in H. injection H as <-. exists es. split; [exists keep; split; [exact K|exact F2]|auto].
Qed.
Lemma st_run_Q os : forall s0 h0 s, st_ok rint size rand I J t s0 h0 -> Q s0 h0 -> Forall (sop_ok I J t) os -> st_run rint crit s0 os = Ok s ->
  exists h, st_ok rint size rand I J t s (h0 ++ h) /\ Q s (h0 ++ h) /\ forall os0, shistory crit os0 h0 -> shistory crit (os0 ++ os) (h0 ++ h).
Proof using All.
  induction os as [|o os IH]; intros s0 h0 s SO SQ F; unfold st_run; cbn [foldM].
  - intros [= <-]. exists []. rewrite app_nil_r. split; [exact SO|]. split; [exact SQ|]. intros os0. now rewrite app_nil_r.
  - inversion F as [|? ? Fo F']; subst. destruct (st_apply rint crit s0 o) as [s1|] eqn:E; [|discriminate]. cbn [bind]. intros H.
    assert (S : exists h1, st_ok rint size rand I J t s1 (h0 ++ h1) /\ Q s1 (h0 ++ h1) /\ forall os0, shistory crit os0 h0 -> shistory crit (os0 ++ [o]) (h0 ++ h1)).
    { destruct o as [bs im|tag]; cbn [st_apply] in E.
      - destruct (st_add_Q s0 h0 bs im s1 Fo SO SQ E) as (es & O & SO1 & SQ1). exists es. split; [exact SO1|]. split; [exact SQ1|]. intros os0 H0. now constructor.
      - injection E as <-. exists [Dropped tag]. split; [now apply st_discard_ok|]. split; [now apply QD|]. intros os0 H0. now constructor. }
    destruct S as (h1 & SO1 & SQ1 & H1). destruct (IH s1 _ s SO1 SQ1 F' H) as (h & SO2 & SQ2 & H2). exists (h1 ++ h). rewrite app_assoc. split; [exact SO2|]. split; [exact SQ2|]. intros os0 H0. change (o :: os) with ([o] ++ os). rewrite app_assoc. now apply H2, H1.
Qed.
Lemma st_new_Q os s : Forall (sop_ok I J t) os -> st_run rint crit (strk_init size rand) os = Ok s -> exists h, shistory crit os h /\ st_ok rint size rand I J t s h /\ Q s h.
Proof using All. intros F H. destruct (st_run_Q os _ [] s (st_init_ok rint size rand I J t) Q0 F H) as (h & SO & SQ & HH). exists h. split; [exact (HH [] (SH_nil crit))|auto]. Qed.
End SQ.

(** ** the counts *)
(** the history up to and including the last offer with this tag *)
Definition upto_last_offer (tag : stag) (h h1 : list (event stag)) : Prop :=
  exists h0 x h2, h1 = h0 ++ [Offered tag x] /\ h = h1 ++ h2 /\ forall y, ~ In (Offered tag y) h2.
Definition never_offered (tag : stag) (h : list (event stag)) : Prop := forall y, ~ In (Offered tag y) h.
Definition kept_counts (s : strk) (h : list (event stag)) : Prop :=
  NoDup (map fst (st_buckets s)) /\ NoDup (map fst (st_counts s)) /\
  (forall tag b, dget stag_eqb (st_buckets s) tag = Some b -> dget stag_eqb (st_counts s) tag = Some (length (since stagdec tag h))) /\
  (forall tag, dget stag_eqb (st_buckets s) tag = None -> since stagdec tag h = []) /\
  forall tag, match dget stag_eqb (st_counts s) tag with
    | None => never_offered tag h
    | Some c => exists h1, upto_last_offer tag h h1 /\ c = length (since stagdec tag h1)
    end.
Lemma counts_other tag' h (e : event stag) c : (forall x, e <> Offered tag' x) -> match c with None => never_offered tag' h | Some c => exists h1, upto_last_offer tag' h h1 /\ c = length (since stagdec tag' h1) end ->
  match c with None => never_offered tag' (h ++ [e]) | Some c => exists h1, upto_last_offer tag' (h ++ [e]) h1 /\ c = length (since stagdec tag' h1) end.
Proof.
  intros NE H. destruct c as [c|].
  - destruct H as (h1 & (h0 & x & h2 & E1 & E2 & N) & ->). exists h1. split; [|reflexivity]. exists h0, x, (h2 ++ [e]). split; [exact E1|]. split; [now rewrite E2, app_assoc|]. intros y Hy. apply in_app_iff in Hy. destruct Hy as [Hy|[Hy|[]]]; [exact (N y Hy)|exact (NE y Hy)].
  - intros y Hy. apply in_app_iff in Hy. destruct Hy as [Hy|[Hy|[]]]; [exact (H y Hy)|exact (NE y Hy)].
Qed.
Lemma kept_offer rint s h b img tag x s' : kept_counts s h -> st_offer rint s b img tag = Ok s' -> kept_counts s' (h ++ [Offered tag x]).
Proof.
  intros (N1 & N2 & HB & HN & HC) H.
  assert (K : exists bk, (bk = st_buckets s \/ exists v, bk = dset stag_eqb (st_buckets s) tag v) /\ st_buckets s' = bk /\ (exists v, dget stag_eqb bk tag = Some v) /\
     st_counts s' = dset stag_eqb (st_counts s) tag (length (since stagdec tag h) + 1)).
  { assert (DS : forall v, exists w, dget stag_eqb (dset stag_eqb (st_buckets s) tag v) tag = Some w) by (intros v; exists v; rewrite (dget_dset _ stagdec stag_eqb_iff); destruct (stagdec tag tag); congruence).
    unfold st_offer in H. destruct (dget stag_eqb (st_buckets s) tag) as [bb|] eqn:G.
    - unfold dgetE in H. rewrite (HB tag bb G) in H. cbn [bind] in H. destruct (length (sb_braids bb) =? st_size s).
      + destruct (st_rand s); [cbv zeta in H; destruct (_ <=? st_size s)|].
        * destruct (set_ _ _ _); [|discriminate]. cbn [bind] in H. destruct (projectivise img); [|discriminate]. cbn [bind] in H. destruct (set_item _ _ _); [|discriminate]. cbn [bind] in H. injection H as <-. cbn [st_buckets st_counts]. eexists. split; [right; eexists; reflexivity|]. split; [reflexivity|]. split; [apply DS|reflexivity].
        * injection H as <-. cbn [st_buckets st_counts]. eexists. split; [left; reflexivity|]. split; [reflexivity|]. split; [eauto|reflexivity].
        * injection H as <-. cbn [st_buckets st_counts]. eexists. split; [left; reflexivity|]. split; [reflexivity|]. split; [eauto|reflexivity].
      + destruct (existsb _ _).
        * injection H as <-. cbn [st_buckets st_counts]. eexists. split; [left; reflexivity|]. split; [reflexivity|]. split; [eauto|reflexivity].
        * destruct (projectivise img); [|discriminate]. cbn [bind] in H. destruct (set_item _ _ _); [|discriminate]. cbn [bind] in H. injection H as <-. cbn [st_buckets st_counts]. eexists. split; [right; eexists; reflexivity|]. split; [reflexivity|]. split; [apply DS|reflexivity].
    - destruct (projectivise img); [|discriminate]. cbn [bind] in H. destruct (set_item _ _ _); [|discriminate]. cbn [bind] in H. injection H as <-. cbn [st_buckets st_counts]. eexists. split; [right; eexists; reflexivity|]. split; [reflexivity|]. split; [apply DS|]. now rewrite (HN tag G). }
  destruct K as (bk & Hbk & E1 & [v Hv] & E2). unfold kept_counts. rewrite E1, E2.
  assert (OB : forall tag', tag' <> tag -> dget stag_eqb bk tag' = dget stag_eqb (st_buckets s) tag'). { intros tag' Ne. destruct Hbk as [->|[u ->]]; [reflexivity|]. rewrite (dget_dset _ stagdec stag_eqb_iff). destruct (stagdec tag tag'); congruence. }
  split; [destruct Hbk as [->|[u ->]]; [exact N1|now apply (dset_nodup _ stagdec stag_eqb_iff)]|]. split; [now apply (dset_nodup _ stagdec stag_eqb_iff)|]. split; [|split].
  - intros tag' b' G. rewrite (dget_dset _ stagdec stag_eqb_iff), since_snoc2. cbn [note]. destruct (stagdec tag tag') as [<-|Ne]; [now rewrite app_length|]. rewrite OB in G by congruence. exact (HB _ _ G).
  - intros tag' G. rewrite since_snoc2. cbn [note]. destruct (stagdec tag tag') as [<-|Ne]; [congruence|]. rewrite OB in G by congruence. exact (HN _ G).
  - intros tag'. rewrite (dget_dset _ stagdec stag_eqb_iff). destruct (stagdec tag tag') as [<-|Ne].
    + exists (h ++ [Offered tag x]). split; [exists h, x, []; rewrite app_nil_r; split; [reflexivity|split; [reflexivity|intros y []]]|]. rewrite since_snoc2. cbn [note]. destruct (stagdec tag tag); [|congruence]. now rewrite app_length.
    + apply counts_other; [congruence|apply HC].
Qed.
Lemma kept_discard s h tag : kept_counts s h -> kept_counts (st_discard s tag) (h ++ [Dropped tag]).
Proof.
  intros (N1 & N2 & HB & HN & HC). unfold kept_counts. cbn [st_discard st_buckets st_counts]. split; [now apply ddel_nodup|]. split; [exact N2|]. split; [|split].
  - intros tag' b. rewrite (dget_ddel _ stagdec stag_eqb_iff), since_snoc2. cbn [note]. destruct (stagdec tag tag'); [discriminate|apply HB].
  - intros tag'. rewrite (dget_ddel _ stagdec stag_eqb_iff), since_snoc2. cbn [note]. destruct (stagdec tag tag'); [reflexivity|apply HN].
  - intros tag'. apply counts_other; [discriminate|apply HC].
Qed.
Lemma firsts_braids L : NoDup (map ibraid (firsts L)) /\ forall b, In b (map ibraid (firsts L)) <-> In b (map ibraid L).
Proof.
  induction L as [|x L [IN IH]] using rev_ind; [split; [constructor|reflexivity]|]. rewrite firsts_snoc. unfold add_first. destruct (in_dec nfdec (ibraid x) (map ibraid (firsts L))) as [D|D].
  - split; [exact IN|]. intros b. rewrite map_app, in_app_iff, IH. cbn [map In]. split; [now left|]. intros [Hb|[<-|[]]]; [exact Hb|now apply IH].
  - rewrite map_app. split; [apply NoDup_app_intro; [exact IN|repeat constructor; intros []|]; intros y Hy [<-|[]]; contradiction|]. intros b. now rewrite map_app, !in_app_iff, IH.
Qed.
(** C105 for braidsearch: stats() has one row for each bucket that was offered
    something since it was discarded; count is the number of stored pairs, i.e. of
    different braids offered, cut at the size; reservoir_count is the number of offers
    since then and is only given with a random generator; the ratio is
    (projlen - 1) / 2 / length. *)
Theorem C105_braidsearch rint crit size rand I J t os s : 1 <= size -> Forall (sop_ok I J t) os -> st_run rint crit (strk_init size rand) os = Ok s ->
  exists h, shistory crit os h /\
    NoDup (map (fun '(tag, _, _, _) => tag) (st_stats s)) /\
    (forall tag, In tag (map (fun '(tag, _, _, _) => tag) (st_stats s)) <-> since stagdec tag h <> []) /\
    forall tag count ratio rc, In (tag, count, ratio, rc) (st_stats s) ->
      (exists items, scontains s tag items /\ length items = count) /\
      (exists distinct, NoDup distinct /\ (forall b, In b distinct <-> In b (map ibraid (since stagdec tag h))) /\ count = Nat.min size (length distinct)) /\
      rc = (if rand then Some (length (since stagdec tag h)) else None) /\
      match ratio with Some q => fst tag <> 0 /\ (q == inject_Z (snd tag - 1) / 2 / inject_Z (Z.of_nat (fst tag)))%Q | None => fst tag = 0 end.
Proof.
  intros Hs F H. destruct (st_new_Q rint crit size rand I J t kept_counts Hs (fun s h b img tag x s' => kept_offer rint s h b img tag x s') kept_discard ltac:(repeat split; [constructor|constructor|discriminate|intros tag y []]) os s F H) as (h & HH & (_ & ER & _ & SO) & (N1 & _ & HB & HN & _)).
  exists h. split; [exact HH|]. assert (KE : map (fun '(tag, _, _, _) => tag) (st_stats s) = map fst (st_buckets s)). { unfold st_stats. rewrite map_map. apply map_ext. now intros [tag b]. }
  rewrite KE. split; [exact N1|]. split.
  - intros tag. rewrite <- (dget_in _ stagdec stag_eqb_iff). specialize (SO tag). destruct (dget stag_eqb (st_buckets s) tag) as [b|]; [split; [intros _; apply SO|eauto]|]. split; [intros [v Q]; discriminate|contradiction].
  - intros tag count ratio rc Hin. unfold st_stats in Hin. apply in_map_iff in Hin. destruct Hin as ([tag' b] & E & Hin). injection E as <- <- <- <-. pose proof (dget_nodup _ stagdec stag_eqb_iff _ _ _ N1 Hin) as G. specialize (SO tag'). rewrite G in SO. destruct SO as (NE & B & _ & CT).
    split; [exists (held rint size rand tag' h); split; [eapply sbinv_contains; eassumption|rewrite (sbi_braids _ _ _ _ _ _ _ B); now rewrite map_length]|]. split; [|split].
    + exists (map ibraid (firsts (since stagdec tag' h))). destruct (firsts_braids (since stagdec tag' h)) as [FN FI]. split; [exact FN|]. split; [exact FI|]. rewrite (sbi_braids _ _ _ _ _ _ _ B), !map_length. now apply held_len.
    + rewrite ER, CT. reflexivity.
    + unfold qdiv. destruct (Nat.eqb_spec (fst tag') 0) as [Z|NZ]; [exact Z|]. split; [exact NZ|reflexivity].
Qed.
(** C105: stats_reservoir() also keeps the buckets that were discarded.  There is one
    row for each tag that was ever offered anything; the count is that of the offers
    the bucket had received, since it was last discarded, at the time of the last offer. *)
Theorem C105_reservoir rint crit size rand I J t os s : 1 <= size -> Forall (sop_ok I J t) os -> st_run rint crit (strk_init size rand) os = Ok s ->
  exists h, shistory crit os h /\
    NoDup (map fst (st_stats_reservoir s)) /\
    (forall tag, In tag (map fst (st_stats_reservoir s)) <-> exists x, In (Offered tag x) h) /\
    forall tag c, In (tag, c) (st_stats_reservoir s) -> exists h0 x h2, h = h0 ++ [Offered tag x] ++ h2 /\ (forall y, ~ In (Offered tag y) h2) /\ c = length (since stagdec tag h0) + 1.
Proof.
  intros Hs F H. destruct (st_new_Q rint crit size rand I J t kept_counts Hs (fun s h b img tag x s' => kept_offer rint s h b img tag x s') kept_discard ltac:(repeat split; [constructor|constructor|discriminate|intros tag y []]) os s F H) as (h & HH & _ & (_ & N2 & _ & _ & HC)).
  exists h. split; [exact HH|]. unfold st_stats_reservoir. split; [exact N2|]. split.
  - intros tag. rewrite <- (dget_in _ stagdec stag_eqb_iff). specialize (HC tag). destruct (dget stag_eqb (st_counts s) tag) as [c|].
    + split; [intros _|eauto]. destruct HC as (h1 & (h0 & x & h2 & -> & -> & _) & _). exists x. rewrite !in_app_iff. left. right. now left.
    + split; [intros [v Q]; discriminate|]. intros [x Hx]. destruct (HC x Hx).
  - intros tag c Hin. specialize (HC tag). rewrite (dget_nodup _ stagdec stag_eqb_iff _ _ _ N2 Hin) in HC. destruct HC as (h1 & (h0 & x & h2 & -> & -> & N) & ->). exists h0, x, h2. split; [now rewrite <- app_assoc|]. split; [exact N|]. rewrite since_snoc2. cbn [note]. destruct (stagdec tag tag); [|congruence]. now rewrite app_length.
Qed.

(** ** the statistics of one bucket *)
Definition builtin (s : stat) : bool := match s with OtherStat _ => false | _ => true end.
(** the stored images, as one batch *)
Lemma stored_batch cap tag I J D t b items : binv cap tag I J D t b items -> let im := snd (braids_images b) in
  fst (braids_images b) = map ibraid items /\ wfa im /\ apre im = [length items] /\ aI im = I /\ aJ im = J /\ aD im = D /\ adt im = t /\
  forall k x, nth_error items k = Some x -> block im [k] = block (iimage x) [].
Proof.
  intros [Bt Bc Bl Bb BI BJ BD Bd Bp Bk Bi Bw Bww Bo]. cbn [braids_images fst snd]. assert (SZ : b_size b = length items) by (unfold b_size; rewrite Bb; apply map_length). rewrite SZ. cbv zeta. split; [exact Bb|].
  assert (PR : apre (take_items (b_images b) (length items)) = [length items]) by (cbn [take_items apre]; f_equal; lia).
  assert (BK : forall k x, nth_error items k = Some x -> nth_error (ablocks (take_items (b_images b) (length items))) k = Some (block (iimage x) [])).
  { intros k x Hk. cbn [take_items ablocks]. rewrite nth_error_firstn by (apply nth_error_Some; congruence). exact (Bi k x Hk). }
  assert (LN : length (ablocks (take_items (b_images b) (length items))) = length items) by (cbn [take_items ablocks]; rewrite firstn_length; lia).
  split; [|split; [exact PR|repeat split; try assumption]].
  - split; [rewrite PR, LN; cbn; lia|]. assert (OK : forall c, In c (ablocks (take_items (b_images b) (length items))) -> length c = I * J * D /\ Forall (in_dtype t) c); [|split; apply Forall_forall; intros c Hc; destruct (OK c Hc) as [O1 O2]; cbn [take_items aI aJ aD adt]; rewrite ?BI, ?BJ, ?BD, ?Bd; [rewrite O1; cbn; lia|exact O2]].
    intros c Hc. apply In_nth_error in Hc. destruct Hc as [k Hk]. assert (Lk : k < length items) by (rewrite <- LN; apply nth_error_Some; congruence).
    destruct (nth_error items k) as [x|] eqn:Ex; [|apply nth_error_None in Ex; lia]. rewrite (BK k x Ex) in Hk. injection Hk as <-. rewrite Forall_forall in Bo. apply ok_block. apply Bo. eapply nth_error_In; exact Ex.
  - intros k x Hk. unfold block at 1. rewrite PR. cbn [ravel size fold_right]. replace (k * 1 + 0) with k by lia. now apply nth_error_nth, BK.
Qed.
(** the number of non-zero coefficients does not change with the power of v *)
Definition nonzeros (f : nat -> nat -> nat -> Z) (I J D : nat) : nat :=
  length (filter (fun '(a, c, d) => negb (f a c d =? 0)%Z) (list_prod (list_prod (seq 0 I) (seq 0 J)) (seq 0 D))).
Lemma NoDup_list_prod {A B} (l : list A) (l' : list B) : NoDup l -> NoDup l' -> NoDup (list_prod l l').
Proof.
  intros H H'. induction H as [|x l N H IH]; cbn [list_prod]; [constructor|]. apply NoDup_app_intro; [|exact IH|].
  - clear - H'. induction H' as [|y l' N H' IH]; cbn [map]; constructor; [|exact IH]. intros Q. apply in_map_iff in Q. destruct Q as (z & E & Hz). injection E as ->. contradiction.
  - intros [u v] Q1 Q2. apply in_map_iff in Q1. destruct Q1 as (z & E & _). injection E as <- <-. apply in_prod_iff in Q2. tauto.
Qed.
Lemma nonzeros_shift (f g : nat -> nat -> nat -> Z) I J D D' s : (forall a c d, a < I -> c < J -> f a c d = if d <? s then 0%Z else g a c (d - s)) ->
  (forall a c d, D <= d -> f a c d = 0%Z) -> (forall a c d, D' <= d -> g a c d = 0%Z) -> nonzeros f I J D = nonzeros g I J D'.
Proof.
  intros E Of Og. unfold nonzeros. rewrite <- (map_length (fun '(a, c, d) => (a, c, d + s)) (filter _ (list_prod (list_prod (seq 0 I) (seq 0 J)) (seq 0 D')))). apply Permutation_length. apply NoDup_Permutation.
  - apply NoDup_filter. repeat apply NoDup_list_prod; apply seq_NoDup.
  - apply FinFun.Injective_map_NoDup; [|apply NoDup_filter; repeat apply NoDup_list_prod; apply seq_NoDup]. intros [[a c] d] [[a' c'] d'] Q. injection Q as -> -> Q. f_equal. lia.
  - intros [[a c] d]. rewrite filter_In, in_map_iff, !in_prod_iff, !in_seq. split.
    + intros [[[Ha Hc] Hd] N]. rewrite E in N by lia. destruct (Nat.ltb_spec d s) as [L|L]; [discriminate|]. exists (a, c, d - s). split; [f_equal; lia|]. apply filter_In. split; [|exact N]. rewrite !in_prod_iff, !in_seq. repeat split; try lia.
      destruct (Nat.lt_ge_cases (d - s) D') as [|G]; [lia|]. rewrite (Og _ _ _ G) in N. discriminate.
    + intros ([[a' c'] d'] & Q & H). injection Q as -> -> <-. apply filter_In in H. destruct H as [H N]. rewrite !in_prod_iff, !in_seq in H. assert (F : f a c (d' + s) = g a c d'). { rewrite E by lia. destruct (Nat.ltb_spec (d' + s) s); [lia|]. f_equal. lia. }
      split; [|rewrite F; exact N]. repeat split; try lia. destruct (Nat.lt_ge_cases (d' + s) D) as [|G]; [lia|]. rewrite (Of _ _ _ G) in F. rewrite <- F in N. discriminate.
Qed.
(** the value of a built-in statistic is that of the stored pair *)
Lemma stat_stored cls bs im i b x bs' im' k s v v' : stat_value cls bs im i s v -> stat_value cls bs' im' k s v' -> builtin s = true ->
  nth_error bs i = Some b -> nth_error bs' k = Some b -> projective_of im i x -> projective_of im' k x -> v = v'.
Proof.
  intros S S' B N N' P P'. destruct s; cbn [stat_value builtin] in *; try discriminate.
  - congruence.
  - destruct S as (c & Hc & ->), S' as (c' & Hc' & ->). congruence.
  - destruct (span_unique _ _ _ _ P S) as [<- _], (span_unique _ _ _ _ P' S') as [<- _]. reflexivity.
  - subst. f_equal. assert (Z : forall im i, projective_of im i x -> nonzeros (acoef im [i]) (aI im) (aJ im) (aD im) = nonzeros (acoef x []) (aI x) (aJ x) (aD x)).
    { clear. intros im i (_ & E1 & E2 & _ & s & S). rewrite E1, E2. apply (nonzeros_shift _ _ _ _ _ _ s).
      - intros a c d Ha Hc. rewrite S by assumption. reflexivity.
      - intros a c d. apply acoef_over.
      - intros a c d. apply acoef_over. }
    pose proof (Z _ _ P) as Z1. pose proof (Z _ _ P') as Z2. unfold nonzeros in Z1, Z2. congruence.
Qed.
(** C106: the table of a bucket has one column for each statistic; if these are the
    built-in ones, the column has the component of the tag in every row *)
Theorem C106_bucket_stats cls rnd rint cap stats m w I J t os tr : 1 <= cap -> forallb builtin stats = true -> Forall (op_ok I J t) os -> new_run cls rnd rint cap stats m w os = Ok tr ->
  forall tag b, dget tag_eqb (tr_buckets tr) tag = Some b -> length tag = length stats /\ 1 <= length (b_braids b) /\
    tracker_bucket_stats cls tr tag = Ok (map (fun v => repeat v (length (b_braids b))) tag).
Proof.
  intros Hc HB F H tag b G. destruct (new_run_ok _ _ _ _ _ _ _ _ _ _ _ _ F H) as (EP & _ & h & HH & TO). destruct TO as (_ & ES & _ & _ & TO). specialize (TO tag). rewrite G in TO. destruct TO as [NE (items & B & _ & Ho & _)].
  assert (LI : length items = Nat.min cap (length (since tagdec tag h))) by apply Ho. assert (LS : 1 <= length (since tagdec tag h)) by (destruct (since tagdec tag h); [contradiction|cbn; lia]).
  destruct (holds_perm _ _ _ _ Ho) as [rest PM]. assert (IN : forall x, In x items -> In (Offered tag x) h). { intros x Hx. apply since_in. eapply Permutation_in; [apply Permutation_sym, PM|]. apply in_app_iff. now left. }
  destruct (stored_batch _ _ _ _ _ _ _ _ B) as (E0 & W & P & E1 & E2 & E3 & E4 & BK). set (im := snd (braids_images b)) in *.
  assert (LB : length (b_braids b) = length items) by (rewrite (bi_braids _ _ _ _ _ _ _ _ B); apply map_length).
  assert (FO : forall x, In x items -> iok I J (span_of stats tag) t x) by (intros x Hx; exact (proj1 (Forall_forall _ _) (bi_ok _ _ _ _ _ _ _ _ B) x Hx)).
  assert (PO : forall k x, nth_error items k = Some x -> projective_of im k (iimage x)).
  { intros k x Hk. assert (Hx : In x items) by (eapply nth_error_In; exact Hk). destruct (history_in _ _ _ _ _ _ _ HH (IN x Hx)) as (bs & im0 & i & _ & _ & _ & PR & _). destruct PR as (PR & _). destruct (FO x Hx) as (Wx & Px & X1 & X2 & X3 & X4).
    split; [exact PR|]. split; [congruence|]. split; [congruence|]. split; [congruence|]. exists 0. intros a c d Ha Hc'. unfold shift. change (d <? 0) with false. rewrite Nat.sub_0_r. assert (Lk : k < length items) by (apply nth_error_Some; congruence).
    rewrite (coef_block im [k] a c d W) by (try assumption; rewrite P; apply valid_one; eauto). assert (Vx : valid_index (apre (iimage x)) []) by (rewrite Px; constructor). assert (Ha' : a < aI (iimage x)) by congruence. assert (Hc2 : c < aJ (iimage x)) by congruence. rewrite (coef_block (iimage x) [] a c d Wx Vx Ha' Hc2). rewrite E2, E3, X2, X3, (BK k x Hk). reflexivity. }
  assert (NB : forallb bany (ablocks im) = true).
  { apply (forallb_blocks im bany W). intros idx Hi. rewrite P in Hi. apply valid_one in Hi. destruct Hi as (k & -> & Lk). destruct (nth_error items k) as [x|] eqn:Ex; [|apply nth_error_None in Ex; lia].
    apply bany_acoef; [exact W|rewrite P; apply valid_one; eauto|]. destruct (PO k x Ex) as ((_ & _ & Ld & _) & Q1 & Q2 & _ & s & S). destruct Ld as [(p & q & Hp & Hq & N) _]. rewrite Q1 in Hp. rewrite Q2 in Hq. exists p, q, s. rewrite S by assumption. unfold shift. rewrite Nat.ltb_irrefl, Nat.sub_diag. auto. }
  assert (LP : 1 <= length items) by lia. destruct (nth_error items 0) as [x0|] eqn:Ex0; [|apply nth_error_None in Ex0; lia].
  assert (ST : forall k x, nth_error items k = Some x -> exists bs im0 i, nth_error bs i = Some (ibraid x) /\ Forall2 (stat_value cls bs im0 i) stats tag /\ projective_of im0 i (iimage x)).
  { intros k x Hk. destruct (history_in _ _ _ _ _ _ _ HH (IN x (nth_error_In _ _ Hk))) as (bs & im0 & i & _ & Q1 & Q2 & Q3 & _). eauto 8. }
  destruct (ST 0 x0 Ex0) as (bs0 & im0 & i0 & _ & F0 & _). pose proof (PropsTLMor2.Forall2_len _ _ _ F0) as LT. split; [exact LT|]. split; [lia|].
  assert (HD : aD im <> 0). { destruct (PO 0 x0 Ex0) as (PR0 & _). destruct (FO x0 (nth_error_In _ _ Ex0)) as (_ & _ & X1 & X2 & X3 & _). destruct PR0 as (_ & _ & Ld & _). destruct Ld as [(p & q & _ & _ & N) _]. intros Z. apply N. apply acoef_over. lia. }
  unfold tracker_bucket_stats. rewrite G, ES, E0, LB. fold im. apply mapM_Ok_Forall2. clear F0.
  assert (CE : forall j s v, nth_error stats j = Some s -> nth_error tag j = Some v -> calculate cls s (map ibraid items) im = Ok (repeat v (length items))).
  { intros j s v Hs Hv. assert (Bs : builtin s = true) by (rewrite forallb_forall in HB; apply HB; eapply nth_error_In; exact Hs).
    assert (LBk : length (ablocks im) = length items) by (destruct W as [L _]; rewrite L, P; cbn; lia).
    assert (C : exists vs, calculate cls s (map ibraid items) im = Ok vs /\ length vs = length items).
    { destruct s; cbn [ModelTracker.calculate builtin] in *; try discriminate.
      - eexists. split; [reflexivity|]. now rewrite !map_length.
      - eexists. split; [reflexivity|]. now rewrite !map_length.
      - rewrite (projlen_eq im HD). eexists. split; [reflexivity|]. now rewrite map_length.
      - eexists. split; [reflexivity|]. rewrite map_length. unfold nz_terms. now rewrite map_length. }
    destruct C as (vs & C & Lv). rewrite C. f_equal. apply nth_error_ext'; [now rewrite repeat_length|]. intros k Hk. rewrite Lv in Hk. destruct (nth_error items k) as [x|] eqn:Ex.
    - replace (nth_error (repeat v (length items)) k) with (Some v) by (symmetry; rewrite (nth_error_nth' _ v) by (rewrite repeat_length; exact Hk); f_equal; apply nth_repeat). destruct (nth_error vs k) as [u|] eqn:Eu; [|apply nth_error_None in Eu; lia]. f_equal.
      destruct (ST k x Ex) as (bs1 & im1 & i1 & N1 & F1 & P1). destruct (PropsTLMor2.Forall2_nth_error _ _ _ F1 j s Hs) as (v1 & Hv1 & S1). rewrite Hv in Hv1. injection Hv1 as <-.
      symmetry. eapply (stat_stored cls bs1 im1 i1 (ibraid x) (iimage x) (map ibraid items) im k s v u S1); [|exact Bs|exact N1|now rewrite nth_error_map, Ex|exact P1|exact (PO k x Ex)].
      apply (stat_ok cls (map ibraid items) im s vs k u W); [now rewrite map_length|exact NB|exact HD|now rewrite map_length|exact C|]. unfold get. now rewrite Eu.
    - apply nth_error_None in Ex. lia. }
  clear - CE LT. revert tag LT CE. induction stats as [|s ss IH]; intros [|v tag] LT CE; cbn [length map] in *; try discriminate; constructor; [exact (CE 0 s v eq_refl eq_refl)|]. apply IH; [lia|]. intros j. exact (CE (S j)).
Qed.
Theorem C106_missing cls tr tag : dget tag_eqb (tr_buckets tr) tag = None -> tracker_bucket_stats cls tr tag = Err ValueError.
Proof. intros H. unfold tracker_bucket_stats. now rewrite H. Qed.
(** the hypotheses hold for a run with two calls and capacity 2 (C69_case) *)
Theorem C105_case : Forall (op_ok 1 1 I64) ex_ops /\
  match new_run 0 (fun _ => 0%Q) (fun _ => 0) 2 [CanonicalLength; ProjectiveLength] EvictMin ex_weight ex_ops with
  | Ok tr => map (fun '(tag, count, _, seen, _, _) => (tag, count, seen)) (tracker_stats tr) = [([1; 2]%Z, 2, 4); ([1; 1]%Z, 1, 1)] /\ tracker_bucket_stats 0 tr [1; 2]%Z = Ok [[1; 1]; [2; 2]]%Z
  | Err _ => False
  end.
Proof. split; [exact (proj1 C69_case)|]. vm_compute. split; reflexivity. Qed.
Theorem C105_case_braidsearch : Forall (sop_ok 1 1 I64) ex_sops /\
  match st_run (fun _ => 0) every (strk_init 2 true) ex_sops with
  | Ok s => map (fun '(tag, count, _, rc) => (tag, count, rc)) (st_stats s) = [((1, 2%Z), 2, Some 4); ((1, 1%Z), 1, Some 1)] /\ st_stats_reservoir s = [((1, 2%Z), 4); ((1, 1%Z), 1)]
  | Err _ => False
  end.
Proof. split; [exact (proj1 C72_case)|]. vm_compute. split; reflexivity. Qed.
