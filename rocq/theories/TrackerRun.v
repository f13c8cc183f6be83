(** TrackerRun.v – batches, histories and the invariant of a whole tracker. *)
From Verif Require Import Base ModelPerm ModelBraid ModelPoly ModelMatrix ModelPolymat SpecPolymat PolymatTheory PropsPolymat PropsPolymat2 ModelTracker SpecTracker TrackerTheory.
From Coq Require Import QArith Permutation Sorted.
Local Open Scope nat_scope.

(** the value of a statistic on the i-th pair of a batch *)
Definition stat_value (cls : Z) (bs : list nfobj) (im : parr) (i : nat) (s : stat) (v : Z) : Prop :=
  match s with
  | NFKind => v = cls
  | CanonicalLength => exists b, nth_error bs i = Some b /\ v = Z.of_nat (length (o_factors b))
  | ProjectiveLength => degree_span im i v
  | NonzeroTerms => v = Z.of_nat (length (filter (fun '(a, c, d) => negb (acoef im [i] a c d =? 0)%Z) (list_prod (list_prod (seq 0 (aI im)) (seq 0 (aJ im))) (seq 0 (aD im)))))
  | OtherStat f => exists vs, f bs im = Ok vs /\ nth_error vs i = Some v
  end.
(** the weight of the i-th pair: 1 without a weight statistic *)
Definition weight_value (w : option (list nfobj -> parr -> res (list Q))) (bs : list nfobj) (im : parr) (i : nat) (v : Q) : Prop :=
  match w with None => v = 1%Q | Some f => exists vs, f bs im = Ok vs /\ nth_error vs i = Some v end.
(** the events of one call of add_braids_images *)
Definition offers (cls : Z) (stats : list stat) (w : option (list nfobj -> parr -> res (list Q))) (bs : list nfobj) (im : parr) (es : list (event (list Z))) : Prop :=
  length es = length bs /\
  forall i, i < length bs -> exists tag b x q,
    nth_error es i = Some (Offered tag (b, x, q)) /\ nth_error bs i = Some b /\
    Forall2 (stat_value cls bs im i) stats tag /\ projective_of im i x /\ weight_value w bs im i q.
(** the events of a sequence of calls *)
Inductive history (cls : Z) (stats : list stat) (w : option (list nfobj -> parr -> res (list Q))) : list op -> list (event (list Z)) -> Prop :=
| H_nil : history cls stats w [] []
| H_add os h bs im es : history cls stats w os h -> offers cls stats w bs im es -> history cls stats w (os ++ [Add bs im]) (h ++ es)
| H_discard os h tag : history cls stats w os h -> history cls stats w (os ++ [Discard tag]) (h ++ [Dropped tag]).
(** every batch that is added has well formed matrices of one size and dtype *)
Definition op_ok (I J : nat) (t : dtype) (o : op) : Prop :=
  match o with Add bs im => wfa im /\ aI im = I /\ aJ im = J /\ adt im = t | Discard _ => True end.

(** ** one batch *)
Lemma item_acoef im i a c d : wfa im -> valid_index (apre im) [i] -> a < aI im -> c < aJ im ->
  acoef (mkA [] (aI im) (aJ im) (aD im) (adt im) [block im [i]]) [] a c d = acoef im [i] a c d /\ wfa (mkA [] (aI im) (aJ im) (aD im) (adt im) [block im [i]]).
Proof.
  intros W V Ha Hc. destruct (wfa_block im [i] W V) as [L F].
  assert (W' : wfa (mkA [] (aI im) (aJ im) (aD im) (adt im) [block im [i]])).
  { split; [reflexivity|]. cbn [ablocks aI aJ aD adt]. split; apply Forall_cons; try apply Forall_nil; [|exact F]. rewrite L. cbn. lia. }
  split; [|exact W']. rewrite !coef_block; auto. constructor.
Qed.
Lemma projective_slice im i : wfa im -> valid_index (apre im) [i] -> bany (block im [i]) = true ->
  projective_of im i (slice_deg (mkA [] (aI im) (aJ im) (aD im) (adt im) [block im [i]]) (lo im (block im [i])) (hi im (block im [i]))) /\
  degree_span im i (Z.of_nat (hi im (block im [i])) - Z.of_nat (lo im (block im [i]))) /\ lo im (block im [i]) < hi im (block im [i]) /\ hi im (block im [i]) <= aD im.
Proof.
  intros W V N. set (X := mkA [] (aI im) (aJ im) (aD im) (adt im) [block im [i]]). set (s := lo im _). set (e := hi im _).
  assert (NZ : nonzero_poly (acoef im [i]) (aI im) (aJ im)) by now apply bany_acoef.
  destruct (wfa_block im [i] W V) as [L F]. destruct (lo_hi im (block im [i]) L N) as (R1 & R2 & A1 & A2 & A3 & A4). fold s e in R1, R2, A1, A2, A3, A4.
  assert (WX : wfa X). { destruct NZ as (a & c & d & Ha & Hc & _). apply (item_acoef im i a c d W V Ha Hc). }
  assert (CX : forall a c d, a < aI im -> c < aJ im -> acoef X [] a c d = acoef im [i] a c d) by (intros a c d Ha Hc; apply (item_acoef im i a c d W V Ha Hc)).
  destruct (slice_spec X s e WX R2) as [WS CS]. cbn [X apre aI aJ aD] in CS.
  assert (CS' : forall a c d, a < aI im -> c < aJ im -> acoef (slice_deg X s e) [] a c d = if d <? e - s then acoef im [i] a c (s + d) else 0%Z).
  { intros a c d Ha Hc. rewrite CS; auto; [|constructor]. destruct (d <? e - s); [now apply CX|reflexivity]. }
  assert (LD : least_degree (acoef im [i]) (aI im) (aJ im) s) by (apply lo_least; auto).
  assert (GD : greatest_degree (acoef im [i]) (aI im) (aJ im) (e - 1)) by (apply lo_least; auto).
  split; [|split; [|split; [exact R1|exact R2]]].
  - split; [split; [exact WS|]; split; [reflexivity|]; split|].
    + split; [|intros; lia]. destruct LD as [[a [c [Ha [Hc Hn]]]] _]. exists a, c. split; [exact Ha|]. split; [exact Hc|]. rewrite CS' by assumption. destruct (Nat.ltb_spec 0 (e - s)); [|lia]. now rewrite Nat.add_0_r.
    + cbn [slice_deg aI aJ aD X]. split.
      * destruct GD as [[a [c [Ha [Hc Hn]]]] _]. exists a, c. split; [exact Ha|]. split; [exact Hc|]. rewrite CS' by assumption. destruct (Nat.ltb_spec (e - s - 1) (e - s)); [|lia]. now replace (s + (e - s - 1)) with (e - 1) by lia.
      * intros a c d Ha Hc Hd. apply acoef_over. cbn [slice_deg aD]. lia.
    + split; [reflexivity|]. split; [reflexivity|]. split; [reflexivity|]. exists s. intros a c d Ha Hc. unfold shift. destruct (Nat.ltb_spec d s) as [K|K]; [now apply LD|].
      rewrite CS' by assumption. destruct (Nat.ltb_spec (d - s) (e - s)) as [Q|Q]; [f_equal; lia|]. apply GD; auto; lia.
  - exists s, (e - 1). split; [exact LD|]. split; [exact GD|]. lia.
Qed.

Section Batch.
Variables (cls : Z) (rnd : nat -> Q) (rint : nat -> nat).
Definition offer_ev (tr : tracker) (e : list Z * item) : res tracker := offer rnd rint tr (ibraid (snd e)) (iimage (snd e)) (fst e) (iweight (snd e)).
Definition to_event (e : list Z * item) : event (list Z) := Offered (fst e) (snd e).
Lemma foldM_gets {X E S} (gets : X -> res E) (G : S -> E -> res S) (F : S -> X -> res S) : (forall s x, F s x = (e <- gets x ;; G s e)) ->
  forall l s s', foldM F l s = Ok s' -> exists es, Forall2 (fun x e => gets x = Ok e) l es /\ foldM G es s = Ok s'.
Proof.
  intros HF. induction l as [|x l IH]; intros s s'; cbn [foldM].
  - intros [= <-]. exists []. split; [constructor|reflexivity].
  - rewrite HF. destruct (gets x) as [e|] eqn:E1; [|discriminate]. cbn [bind]. destruct (G s e) as [s1|] eqn:E2; [|discriminate]. cbn [bind]. intros H. destruct (IH _ _ H) as [es [H1 H2]].
    exists (e :: es). split; [now constructor|]. cbn [foldM]. rewrite E2. exact H2.
Qed.
Lemma foldM_gets_conv {X E S} (gets : X -> res E) (G : S -> E -> res S) (F : S -> X -> res S) : (forall s x, F s x = (e <- gets x ;; G s e)) ->
  forall l es, Forall2 (fun x e => gets x = Ok e) l es -> forall s, foldM F l s = foldM G es s.
Proof.
  intros HF l es H. induction H as [|x e l es H1 H IH]; intros s; cbn [foldM]; [reflexivity|]. rewrite HF, H1. cbn [bind]. destruct (G s e); [apply IH|reflexivity].
Qed.
Lemma Forall2_seq_nth {E} (P : nat -> E -> Prop) n : forall es a, Forall2 P (seq a n) es <-> (length es = n /\ forall i, i < n -> exists e, nth_error es i = Some e /\ P (a + i) e).
Proof.
  induction n as [|n IH]; intros es a; cbn [seq].
  - split; [intros H; inversion H; split; [reflexivity|intros; lia]|]. intros [H _]. destruct es; [constructor|discriminate].
  - split.
    + intros H. inversion H as [|? e ? es' H1 H2]; subst. apply IH in H2. destruct H2 as [L H2]. split; [cbn; lia|]. intros [|i] Hi; [exists e; rewrite Nat.add_0_r; auto|]. destruct (H2 i ltac:(lia)) as [e' He']. exists e'. rewrite Nat.add_succ_r. exact He'.
    + intros [L H]. destruct es as [|e es]; [discriminate|]. constructor.
      * destruct (H 0 ltac:(lia)) as [e' [[= <-] He']]. now rewrite Nat.add_0_r in He'.
      * apply IH. split; [cbn in L; lia|]. intros i Hi. destruct (H (S i) ltac:(lia)) as [e' [E1 E2]]. exists e'. split; [exact E1|]. now rewrite Nat.add_succ_r in E2.
Qed.
Definition batch_get (bs : list nfobj) (im : parr) (starts ends : list nat) (tags : list (list Z)) (ws : list Q) (i : nat) : res (list Z * item) :=
  braid <- get bs i ;; x <- arr_item im (Z.of_nat i) ;; s <- get starts i ;; e <- get ends i ;; tag <- get tags i ;; w <- get ws i ;;
  Ok (tag, (braid, slice_deg x s e, w)).
Lemma batch_step bs im starts ends tags ws tr i :
  (braid <- get bs i ;; x <- arr_item im (Z.of_nat i) ;; s <- get starts i ;; e <- get ends i ;; tag <- get tags i ;; weight <- get ws i ;;
      offer rnd rint tr braid (slice_deg x s e) tag weight) = (e <- batch_get bs im starts ends tags ws i ;; offer_ev tr e).
Proof.
  unfold batch_get. destruct (get bs i); [|reflexivity]. cbn [bind]. destruct (arr_item im (Z.of_nat i)); [|reflexivity]. cbn [bind]. destruct (get starts i); [|reflexivity]. cbn [bind].
  destruct (get ends i); [|reflexivity]. cbn [bind]. destruct (get tags i); [|reflexivity]. cbn [bind]. destruct (get ws i); reflexivity.
Qed.
(** the tag of an offered pair is computed entry by entry *)
Lemma stat_ok bs im s vs i v : wfa im -> apre im = [length bs] -> forallb bany (ablocks im) = true -> aD im <> 0 -> i < length bs -> calculate cls s bs im = Ok vs -> get vs i = Ok v -> stat_value cls bs im i s v.
Proof.
  intros W P N HD Hi C G. assert (V : valid_index (apre im) [i]) by (rewrite P; apply valid_one; exists i; auto).
  assert (HB : nth i (ablocks im) [] = block im [i]) by (unfold block; rewrite P; cbn [ravel size fold_right]; f_equal; lia).
  assert (LB : length (ablocks im) = length bs) by (destruct W as [L _]; rewrite L, P; cbn; lia).
  apply get_Ok_lt in G. destruct G as [L G]. destruct s as [| | | |f]; cbn [calculate stat_value] in *.
  - injection C as <-. rewrite nth_error_map in G. destruct (nth_error bs i); [|discriminate]. cbn in G. congruence.
  - injection C as <-. rewrite nth_error_map in G. destruct (nth_error bs i) as [b|]; [|discriminate]. exists b. split; [reflexivity|]. cbn in G. injection G as <-. reflexivity.
  - rewrite (projlen_eq im HD) in C. injection C as <-. rewrite nth_error_map in G. rewrite (nth_error_nth' _ []) in G by lia. cbn in G. injection G as <-. rewrite HB.
    apply projective_slice; auto. apply (proj1 (forallb_blocks im bany W) N). exact V.
  - injection C as <-. rewrite nth_error_map in G. destruct (C66_nz_terms im [i] W V) as [E1 E2].
    replace (cpos (apre im) [i]) with i in E2 by (rewrite P; cbn; lia). rewrite (nth_error_nth' _ 0) in G by (rewrite E1, P; cbn; lia). rewrite E2 in G. cbn [option_map] in G. injection G as <-. reflexivity.
  - eauto.
Qed.
Lemma starts_ends_inv im p : proj_starts_ends im = Ok p -> forallb bany (ablocks im) = true /\ aD im <> 0 /\ p = (map (lo im) (ablocks im), map (hi im) (ablocks im)).
Proof.
  unfold proj_starts_ends. destruct (forallb bany (ablocks im)); [|discriminate]. cbn [assert_ bind]. unfold argmax_axis. destruct (aD im =? 0) eqn:E; [discriminate|]. apply Nat.eqb_neq in E. cbn [bind]. intros [= <-]. rewrite map_map. auto.
Qed.
(** what an addition offers *)
Lemma batch_offers tr bs im stats tags ws es : wfa im -> apre im = [length bs] -> forallb bany (ablocks im) = true -> aD im <> 0 ->
  mapM (fun s => calculate cls s bs im) (tr_stats tr) = Ok stats ->
  mapM (fun i => mapM (fun st => get st i) stats) (seq 0 (length bs)) = Ok tags ->
  (match tr_weight tr with Some f => f bs im | None => Ok (repeat 1%Q (length bs)) end) = Ok ws ->
  Forall2 (fun i e => batch_get bs im (map (lo im) (ablocks im)) (map (hi im) (ablocks im)) tags ws i = Ok e) (seq 0 (length bs)) es ->
  offers cls (tr_stats tr) (tr_weight tr) bs im (map to_event es).
Proof.
  intros W P N HD ES ET EW F. apply Forall2_seq_nth in F. destruct F as [LE F]. split; [rewrite map_length; exact LE|].
  intros i Hi. destruct (F i Hi) as [[tag x] [E1 E2]]. cbn [Nat.add] in E2. unfold batch_get in E2.
  destruct (get bs i) as [b|] eqn:Gb; [|discriminate]. cbn [bind] in E2. apply get_Ok_lt in Gb. destruct Gb as [_ Gb].
  assert (LB : length (ablocks im) = length bs) by (destruct W as [L _]; rewrite L, P; cbn; lia).
  assert (HB : nth i (ablocks im) [] = block im [i]) by (unfold block; rewrite P; cbn [ravel size fold_right]; f_equal; lia).
  assert (V : valid_index (apre im) [i]) by (rewrite P; apply valid_one; exists i; auto).
  unfold arr_item in E2. rewrite P, pyget_nat, (get_ok _ _ []) in E2 by lia. cbn [bind] in E2. rewrite !get_map, (get_ok _ _ []) in E2 by lia. cbn [bind] in E2. rewrite HB in E2.
  destruct (get tags i) as [tg|] eqn:Gt; [|discriminate]. cbn [bind] in E2. destruct (get ws i) as [w|] eqn:Gw; [|discriminate]. cbn [bind] in E2. injection E2 as <- <-.
  eexists tg, b, _, w. split; [rewrite nth_error_map, E1; reflexivity|]. split; [exact Gb|]. split; [|split].
  - apply mapM_Ok_Forall2 in ET. apply Forall2_seq_nth in ET. destruct ET as [_ ET]. destruct (ET i Hi) as [tg' [E3 E4]]. apply get_Ok_lt in Gt. destruct Gt as [_ Gt]. rewrite Gt in E3. injection E3 as <-. cbn [Nat.add] in E4.
    apply mapM_Ok_Forall2 in E4, ES. clear - E4 ES W P N HD Hi. revert tg E4. induction ES as [|s vs ss stats H1 ES IH]; intros tg E4; inversion E4; subst; constructor; [|now apply IH].
    eapply stat_ok; eauto.
  - apply projective_slice; auto. apply (proj1 (forallb_blocks im bany W) N). exact V.
  - apply get_Ok_lt in Gw. destruct Gw as [_ Gw]. unfold weight_value. destruct (tr_weight tr) as [f|]; [eauto|]. injection EW as <-. rewrite (nth_error_nth' _ 1%Q), nth_repeat in Gw by (rewrite repeat_length; lia). congruence.
Qed.
Lemma add_inv tr bs im tr' : wfa im -> add_braids_images cls rnd rint tr bs im = Ok tr' ->
  apre im = [length bs] /\ exists es, offers cls (tr_stats tr) (tr_weight tr) bs im (map to_event es) /\ foldM offer_ev es tr = Ok tr'.
Proof.
  intros W. unfold add_braids_images. destruct (apre im) as [|m [|? ?]] eqn:P; cbn [assert_ bind]; try discriminate.
  destruct (Nat.eqb_spec (length bs) m) as [<-|]; [|discriminate]. cbn [assert_ bind].
  destruct (mapM (fun s => calculate cls s bs im) (tr_stats tr)) as [stats|] eqn:ES; [|discriminate]. cbn [bind].
  destruct (mapM _ (seq 0 (length bs))) as [tags|] eqn:ET; [|discriminate]. cbn [bind].
  destruct (match tr_weight tr with Some f => f bs im | None => Ok (repeat 1%Q (length bs)) end) as [ws|] eqn:EW; [|discriminate]. cbn [bind].
  destruct (proj_starts_ends im) as [p|] eqn:EP; [|discriminate]. cbn [bind]. destruct (starts_ends_inv _ _ EP) as (N & HD & ->).
  intros H. split; [reflexivity|]. apply (foldM_gets (batch_get bs im (map (lo im) (ablocks im)) (map (hi im) (ablocks im)) tags ws) offer_ev) in H; [|intros; apply batch_step].
  destruct H as [es [F H]]. exists es. split; [|exact H]. eapply batch_offers; eauto.
Qed.
(** a batch of the right shape without zero matrices is offered entirely *)
Lemma add_total tr bs im : wfa im -> apre im = [length bs] -> aD im <> 0 -> all_nonzero im ->
  (forall f, In (OtherStat f) (tr_stats tr) -> exists vs, f bs im = Ok vs /\ length bs <= length vs) ->
  (forall f, tr_weight tr = Some f -> exists ws, f bs im = Ok ws /\ length bs <= length ws) ->
  exists es, offers cls (tr_stats tr) (tr_weight tr) bs im (map to_event es) /\ add_braids_images cls rnd rint tr bs im = foldM offer_ev es tr.
Proof.
  intros W P HD NZ HS HW. unfold add_braids_images. rewrite P, Nat.eqb_refl. cbn [assert_ bind].
  assert (LB : length (ablocks im) = length bs) by (destruct W as [L _]; rewrite L, P; cbn; lia).
  assert (ES : exists stats, mapM (fun s => calculate cls s bs im) (tr_stats tr) = Ok stats /\ Forall (fun vs => length bs <= length vs) stats).
  { revert HS. generalize (tr_stats tr) as ss. induction ss as [|s ss IH]; intros HS; cbn [mapM]; [exists []; split; [reflexivity|constructor]|].
    destruct IH as [stats [E F]]; [intros f Hf; apply HS; now right|].
    assert (exists vs, calculate cls s bs im = Ok vs /\ length bs <= length vs) as [vs [E1 L1]].
    { destruct s as [| | | |f]; cbn [calculate].
      - eexists. split; [reflexivity|]. now rewrite map_length.
      - eexists. split; [reflexivity|]. now rewrite map_length.
      - rewrite (projlen_eq im HD). eexists. split; [reflexivity|]. rewrite map_length. lia.
      - eexists. split; [reflexivity|]. unfold nz_terms. rewrite !map_length. lia.
      - apply HS. now left. }
    rewrite E1. cbn [bind]. rewrite E. cbn [bind]. eexists. split; [reflexivity|]. now constructor. }
  destruct ES as [stats [ES FS]]. rewrite ES. cbn [bind].
  assert (ET : exists tags, mapM (fun i => mapM (fun st => get st i) stats) (seq 0 (length bs)) = Ok tags /\ length tags = length bs).
  { exists (map (fun i => map (fun st => nth i st 0%Z) stats) (seq 0 (length bs))). split; [|now rewrite map_length, seq_length].
    apply mapM_ok. intros i Hi%in_seq. apply mapM_ok. intros st Hst. rewrite Forall_forall in FS. specialize (FS st Hst). now rewrite (get_ok _ _ 0%Z) by lia. }
  destruct ET as [tags [ET LT]]. rewrite ET. cbn [bind].
  assert (EW : exists ws, match tr_weight tr with Some f => f bs im | None => Ok (repeat 1%Q (length bs)) end = Ok ws /\ length bs <= length ws).
  { destruct (tr_weight tr) as [f|]; [now apply HW|]. eexists. split; [reflexivity|]. now rewrite repeat_length. }
  destruct EW as [ws [EW LW]]. rewrite EW. cbn [bind]. rewrite (starts_ends_ok im W NZ HD). cbn [bind].
  set (es := map (fun i => (nth i tags [], (nth i bs (NFObj 0 0 []), slice_deg (mkA [] (aI im) (aJ im) (aD im) (adt im) [nth i (ablocks im) []]) (lo im (nth i (ablocks im) [])) (hi im (nth i (ablocks im) [])), nth i ws 0%Q))) (seq 0 (length bs))).
  assert (FE : Forall2 (fun i e => batch_get bs im (map (lo im) (ablocks im)) (map (hi im) (ablocks im)) tags ws i = Ok e) (seq 0 (length bs)) es).
  { apply Forall2_seq_nth. unfold es. rewrite map_length, seq_length. split; [reflexivity|]. intros i Hi. rewrite nth_error_map, (nth_error_nth' _ 0) by now rewrite seq_length. rewrite seq_nth by exact Hi. cbn [option_map Nat.add].
    eexists. split; [reflexivity|]. unfold batch_get, arr_item. rewrite (get_ok bs i (NFObj 0 0 [])) by lia. cbn [bind]. rewrite P, pyget_nat, (get_ok _ _ []) by lia. cbn [bind]. rewrite !get_map, (get_ok (ablocks im) i []) by lia. cbn [bind].
    rewrite (get_ok tags i []) by lia. cbn [bind]. now rewrite (get_ok ws i 0%Q) by lia. }
  exists es. split.
  - eapply batch_offers; eauto. apply forallb_blocks; auto. intros idx V. now apply bany_acoef, NZ.
  - apply (foldM_gets_conv (batch_get bs im (map (lo im) (ablocks im)) (map (hi im) (ablocks im)) tags ws)); [intros; apply batch_step|exact FE].
Qed.
End Batch.
