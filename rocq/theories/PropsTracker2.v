(** PropsTracker2.v – C69, C70, C71 for braidsearch.Tracker, and C72, the exact
    distribution of the reservoirs. *)
From Verif Require Import Base ModelPerm ModelBraid ModelPoly ModelMatrix ModelPolymat SpecPolymat PolymatTheory PropsPolymat PropsPolymat2 ModelPolyRep ModelTracker SpecTracker TrackerTheory TrackerRun PropsTracker TrackerRun2 SampleTheory.
From Coq Require Import QArith Permutation.
Local Open Scope nat_scope.
Local Arguments Nat.ltb : simpl never.
Local Arguments Nat.leb : simpl never.

(** ** what is offered *)
Definition criterion := list nfobj -> parr -> res (list bool).
(** one call of add_braids_images offers the pairs the criterion accepts, in order,
    with the tag (canonical length, projlen) *)
Definition soffer (bs : list nfobj) (im : parr) (i : nat) (e : event stag) : Prop :=
  exists b x v, nth_error bs i = Some b /\ projective_of im i x /\ degree_span im i v /\ e = Offered (length (o_factors b), v) (b, x, 1%Q).
Definition soffers (crit : criterion) (bs : list nfobj) (im : parr) (es : list (event stag)) : Prop :=
  exists keep, crit bs im = Ok keep /\ Forall2 (soffer bs im) (filter (fun i => nth i keep false) (seq 0 (length keep))) es.
Inductive shistory (crit : criterion) : list sop -> list (event stag) -> Prop :=
| SH_nil : shistory crit [] []
| SH_add os h bs im es : shistory crit os h -> soffers crit bs im es -> shistory crit (os ++ [SAdd bs im]) (h ++ es)
| SH_discard os h tag : shistory crit os h -> shistory crit (os ++ [SDiscard tag]) (h ++ [Dropped tag]).
(** the batches have matrices of one size and dtype, none of them zero *)
Definition sop_ok (I J : nat) (t : dtype) (o : sop) : Prop :=
  match o with SAdd bs im => wfa im /\ aI im = I /\ aJ im = J /\ adt im = t /\ all_nonzero im | SDiscard _ => True end.

Lemma projectivise_item im i : wfa im -> valid_index (apre im) [i] -> nonzero_poly (acoef im [i]) (aI im) (aJ im) ->
  exists P, projectivise (mkA [] (aI im) (aJ im) (aD im) (adt im) [block im [i]]) = Ok P /\ projective_of im i P.
Proof.
  intros W V NZ. set (X := mkA [] _ _ _ _ _). assert (WX : wfa X) by (destruct NZ as (a & c & d & Ha & Hc & _); apply (item_acoef im i a c d W V Ha Hc)).
  assert (CX : forall a c d, a < aI im -> c < aJ im -> acoef X [] a c d = acoef im [i] a c d) by (intros a c d Ha Hc; apply (item_acoef im i a c d W V Ha Hc)).
  destruct (C65_projectivise X WX) as (P & E & WP & E1 & E2 & E3 & E4 & C & T).
  - cbn. lia.
  - intros idx Hv. inversion Hv; subst. destruct NZ as (a & c & d & Ha & Hc & N). exists a, c, d. split; [exact Ha|]. split; [exact Hc|]. now rewrite CX.
  - exists P. split; [exact E|]. cbn [X apre aI aJ adt] in *. destruct (C [] ltac:(constructor)) as (d & L & S & L0). destruct T as (idx & Vi & G). inversion Vi; subst.
    split; [split; [exact WP|]; split; [exact E1|]; rewrite E2, E3; split; [exact L0|exact G]|]. split; [exact E2|]. split; [exact E3|]. split; [exact E4|]. exists d. intros a c e Ha Hc. rewrite <- CX by assumption. now apply S.
Qed.
Lemma all_nonzero_bany im i : wfa im -> all_nonzero im -> valid_index (apre im) [i] -> bany (block im [i]) = true.
Proof. intros W NZ V. now apply bany_acoef, NZ. Qed.

Section SRun.
Variables (rint : nat -> nat) (crit : criterion) (size : nat) (rand : bool) (I J : nat) (t : dtype).
Hypothesis Hsize : 1 <= size.
Definition sget (bs : list nfobj) (im : parr) (pls : list Z) (i : nat) : res (nfobj * parr * stag) :=
  braid <- get bs i ;; image <- arr_item im (Z.of_nat i) ;; pl <- get pls i ;; Ok (braid, image, (canonical_length braid, pl)).
Definition soff (s : strk) (e : nfobj * parr * stag) : res strk := let '(b, x, tag) := e in st_offer rint s b x tag.
Lemma sget_ok bs im pls i : wfa im -> apre im = [length bs] -> aD im <> 0 -> all_nonzero im -> aI im = I -> aJ im = J -> adt im = t -> projlen im = Ok pls -> i < length bs ->
  exists b img tag x, sget bs im pls i = Ok (b, img, tag) /\ ibraid x = b /\ projectivise img = Ok (iimage x) /\ iok I J (stag_span tag) t x /\ soffer bs im i (Offered tag x).
Proof.
  intros W P HD NZ E1 E2 E3 PL Hi. assert (V : valid_index (apre im) [i]) by (rewrite P; apply valid_one; exists i; auto).
  assert (HB : nth i (ablocks im) [] = block im [i]) by (unfold block; rewrite P; cbn [ravel ModelPolymat.size fold_right]; f_equal; lia).
  assert (LB : length (ablocks im) = length bs) by (destruct W as [L _]; rewrite L, P; cbn; lia).
  unfold sget. rewrite (get_ok bs i (NFObj 0 0 [])) by exact Hi. cbn [bind]. unfold arr_item. rewrite P, pyget_nat, (get_ok _ _ []) by lia. cbn [bind]. rewrite HB.
  rewrite (projlen_eq im HD) in PL. injection PL as <-. rewrite get_map, (get_ok _ _ []) by lia. cbn [bind]. rewrite HB.
  destruct (projectivise_item im i W V (NZ _ V)) as (x & EP & PX). destruct (projective_slice im i W V (all_nonzero_bany im i W NZ V)) as (_ & DS & _ & _).
  set (pl := (Z.of_nat _ - Z.of_nat _)%Z) in *. eexists _, _, _, (nth i bs (NFObj 0 0 []), x, 1%Q). split; [reflexivity|]. split; [reflexivity|]. split; [exact EP|]. split.
  - destruct (span_unique im i x _ PX DS) as [D _]. unfold iok, ok_image, stag_span, iimage. cbn [fst snd]. rewrite <- D, Nat2Z.id. destruct PX as ((Wx & Px & _) & A & B & C & _). rewrite A, B, C. auto 10.
  - exists (nth i bs (NFObj 0 0 [])), x, pl. split; [now apply nth_error_nth'|]. split; [exact PX|]. split; [exact DS|]. reflexivity.
Qed.
Lemma soffs_ok bs im pls : wfa im -> apre im = [length bs] -> aD im <> 0 -> all_nonzero im -> aI im = I -> aJ im = J -> adt im = t -> projlen im = Ok pls ->
  forall l, (forall i, In i l -> i < length bs) -> forall s h, st_ok rint size rand I J t s h ->
  exists s' es, foldM (fun s i => e <- sget bs im pls i ;; soff s e) l s = Ok s' /\ Forall2 (soffer bs im) l es /\ st_ok rint size rand I J t s' (h ++ es).
Proof.
  intros W P HD NZ E1 E2 E3 PL. induction l as [|i l IH]; intros Hl s h SO; cbn [foldM].
  - exists s, []. rewrite app_nil_r. split; [reflexivity|]. split; [constructor|exact SO].
  - destruct (sget_ok bs im pls i W P HD NZ E1 E2 E3 PL (Hl i (or_introl eq_refl))) as (b & img & tag & x & G & <- & PJ & X & O). rewrite G. cbn [bind]. unfold soff at 1.
    destruct (st_offer_ok rint size rand I J t s h tag x img Hsize SO X PJ) as (s1 & EO & SO1). rewrite EO. cbn [bind].
    destruct (IH (fun j Hj => Hl j (or_intror Hj)) s1 _ SO1) as (s2 & es & F1 & F2 & F3). exists s2, (Offered tag x :: es). split; [exact F1|]. split; [now constructor|]. now rewrite <- app_assoc in F3.
Qed.
Lemma st_add_fold s bs im : st_add rint crit s bs im = (_ <- image_stats_check bs im ;; keep <- crit bs im ;; pls <- projlen im ;;
  foldM (fun s i => e <- sget bs im pls i ;; soff s e) (filter (fun i => nth i keep false) (seq 0 (length keep))) s).
Proof.
  unfold st_add. destruct (image_stats_check bs im); [|reflexivity]. cbn [bind]. destruct (crit bs im) as [keep|]; [|reflexivity]. cbn [bind]. destruct (projlen im) as [pls|]; [|reflexivity]. cbn [bind].
  generalize (filter (fun i => nth i keep false) (seq 0 (length keep))) as l. intros l. revert s. induction l as [|i l IH]; intros s; cbn [foldM]; [reflexivity|].
  assert (E : forall s, (braid <- get bs i ;; image <- arr_item im (Z.of_nat i) ;; pl <- get pls i ;; st_offer rint s braid image (canonical_length braid, pl)) = (e <- sget bs im pls i ;; soff s e)).
  { intros s0. unfold sget. destruct (get bs i); [|reflexivity]. cbn [bind]. destruct (arr_item im (Z.of_nat i)); [|reflexivity]. cbn [bind]. destruct (get pls i); reflexivity. }
  rewrite E. destruct (e <- sget bs im pls i ;; soff s e); [|reflexivity]. cbn [bind]. apply IH.
Qed.
Lemma st_add_inv s h bs im s' : sop_ok I J t (SAdd bs im) -> st_ok rint size rand I J t s h -> st_add rint crit s bs im = Ok s' ->
  exists es, soffers crit bs im es /\ st_ok rint size rand I J t s' (h ++ es).
Proof.
  intros (W & E1 & E2 & E3 & NZ) SO. rewrite st_add_fold. unfold image_stats_check. destruct (apre im) as [|m [|? ?]] eqn:P; try discriminate. destruct (Nat.eqb_spec m (length bs)) as [->|]; [|discriminate]. cbn [assert_ bind].
  destruct (Nat.eq_dec (aD im) 0) as [Z|HD]; [unfold valmin, argmax_axis; rewrite Z; discriminate|]. rewrite (valmin_eq im HD). cbn [bind]. destruct (forallb _ _) eqn:FB; [|discriminate]. cbn [assert_ bind].
  destruct (crit bs im) as [keep|] eqn:K; [|discriminate]. cbn [bind]. rewrite (projlen_eq im HD). cbn [bind]. set (pls := map _ (ablocks im)). set (l := filter _ _). intros H.
  assert (LB : length (ablocks im) = length bs) by (destruct W as [L _]; rewrite L, P; cbn; lia).
  assert (Hl : forall i, In i l -> i < length bs).
  { apply (foldM_gets (sget bs im pls) soff) in H; [|reflexivity]. destruct H as (es & F & _). clear - F. induction F as [|i e l es H F IH]; [intros i []|]. intros j [<-|Hj]; [|now apply IH]. unfold sget in H. destruct (get bs i) eqn:G; [|discriminate]. now apply get_Ok_lt in G. }
  destruct (soffs_ok bs im pls W P HD NZ E1 E2 E3 (projlen_eq im HD) l Hl s h SO) as (s2 & es & F1 & F2 & F3). rewrite F1 in H. injection H as <-. exists es. split; [|exact F3]. exists keep. split; [exact K|exact F2].
Qed.
(** a batch as add_braids_images expects it: one image for each braid, each with a
    constant term, and a criterion which gives one answer for each pair *)
Definition sadd_ok (o : sop) : Prop :=
  match o with
  | SAdd bs im => apre im = [length bs] /\ aD im <> 0 /\ (forall i, i < length bs -> least_degree (acoef im [i]) (aI im) (aJ im) 0) /\ exists keep, crit bs im = Ok keep /\ length keep <= length bs
  | SDiscard _ => True
  end.
Lemma st_add_total s h bs im : sop_ok I J t (SAdd bs im) -> sadd_ok (SAdd bs im) -> st_ok rint size rand I J t s h ->
  exists s' es, st_add rint crit s bs im = Ok s' /\ soffers crit bs im es /\ st_ok rint size rand I J t s' (h ++ es).
Proof.
  intros (W & E1 & E2 & E3 & NZ) (P & HD & LD & keep & K & LK) SO. rewrite st_add_fold. unfold image_stats_check. rewrite P, Nat.eqb_refl. cbn [assert_ bind]. rewrite (valmin_eq im HD). cbn [bind].
  assert (LB : length (ablocks im) = length bs) by (destruct W as [L _]; rewrite L, P; cbn; lia).
  assert (FB : forallb (Z.eqb 0) (map (fun b => Z.of_nat (lo im b)) (ablocks im)) = true).
  { apply forallb_forall. intros z Hz. apply in_map_iff in Hz. destruct Hz as (b & <- & Hb). apply In_nth_error in Hb. destruct Hb as [i Hi]. assert (Li : i < length bs) by (rewrite <- LB; apply nth_error_Some; congruence).
    assert (V : valid_index (apre im) [i]) by (rewrite P; apply valid_one; exists i; auto). assert (HB : b = block im [i]). { unfold block. rewrite P. cbn [ravel ModelPolymat.size fold_right]. replace (i * 1 + 0) with i by lia. symmetry. now apply nth_error_nth. }
    destruct (lo_least im [i] W V (NZ _ V)) as (L & _). rewrite <- HB in L. rewrite (least_unique _ _ _ _ _ L (LD i Li)). reflexivity. }
  rewrite FB. cbn [assert_ bind]. rewrite K. cbn [bind]. rewrite (projlen_eq im HD). cbn [bind]. set (l := filter _ _).
  assert (Hl : forall i, In i l -> i < length bs) by (intros i Hi; apply filter_In in Hi; destruct Hi as [Hi _]; apply in_seq in Hi; lia).
  destruct (soffs_ok bs im _ W P HD NZ E1 E2 E3 (projlen_eq im HD) l Hl s h SO) as (s2 & es & F1 & F2 & F3). rewrite F1. exists s2, es. split; [reflexivity|]. split; [|exact F3]. exists keep. split; [exact K|exact F2].
Qed.
Lemma st_run_inv os : forall s0 h0 s, st_ok rint size rand I J t s0 h0 -> Forall (sop_ok I J t) os -> st_run rint crit s0 os = Ok s ->
  exists h, st_ok rint size rand I J t s (h0 ++ h) /\ forall os0, shistory crit os0 h0 -> shistory crit (os0 ++ os) (h0 ++ h).
Proof.
  induction os as [|o os IH]; intros s0 h0 s SO F; unfold st_run; cbn [foldM].
  - intros [= <-]. exists []. rewrite app_nil_r. split; [exact SO|]. intros os0. now rewrite app_nil_r.
  - inversion F as [|? ? Fo F']; subst. destruct (st_apply rint crit s0 o) as [s1|] eqn:E; [|discriminate]. cbn [bind]. intros H.
    assert (S : exists h1, st_ok rint size rand I J t s1 (h0 ++ h1) /\ forall os0, shistory crit os0 h0 -> shistory crit (os0 ++ [o]) (h0 ++ h1)).
    { destruct o as [bs im|tag]; cbn [st_apply] in E.
      - destruct (st_add_inv s0 h0 bs im s1 Fo SO E) as (es & O & SO1). exists es. split; [exact SO1|]. intros os0 H0. now constructor.
      - injection E as <-. exists [Dropped tag]. split; [now apply st_discard_ok|]. intros os0 H0. now constructor. }
    destruct S as (h1 & SO1 & H1). destruct (IH s1 _ s SO1 F' H) as (h & SO2 & H2). exists (h1 ++ h). rewrite app_assoc. split; [exact SO2|]. intros os0 H0. change (o :: os) with ([o] ++ os). rewrite app_assoc. now apply H2, H1.
Qed.
Lemma st_init_ok : st_ok rint size rand I J t (strk_init size rand) [].
Proof. split; [reflexivity|]. split; [reflexivity|]. split; [reflexivity|]. intros tag. reflexivity. Qed.
Lemma st_new_run os s : Forall (sop_ok I J t) os -> st_run rint crit (strk_init size rand) os = Ok s -> exists h, shistory crit os h /\ st_ok rint size rand I J t s h.
Proof. intros F H. destruct (st_run_inv os _ [] s st_init_ok F H) as (h & SO & HH). exists h. split; [exact (HH [] (SH_nil crit))|exact SO]. Qed.
End SRun.

(** what the API shows of a bucket *)
Definition scontains (s : strk) (tag : stag) (items : list item) : Prop :=
  exists images, st_braids_images s tag = Ok (map ibraid items, images) /\ apre images = [length items] /\
    forall k x, nth_error items k = Some x -> arr_item images (Z.of_nat k) = Ok (iimage x).
Lemma sbinv_contains size I J D t s tag b items : dget stag_eqb (st_buckets s) tag = Some b -> sbinv size I J D t b items -> scontains s tag items.
Proof.
  intros G [B Ln E1 E2 E3 E4 P Lb Im OK]. unfold scontains, st_braids_images. rewrite G, B, map_length. eexists. split; [reflexivity|]. cbn [take_items apre]. rewrite Lb. split; [f_equal; lia|].
  intros k x Hk. assert (Lk : k < length items) by (apply nth_error_Some; congruence). unfold arr_item. cbn [take_items apre ablocks aI aJ aD adt]. rewrite pyget_nat. unfold get. rewrite nth_error_firstn by exact Lk. rewrite (Im k x Hk). cbn [bind].
  rewrite Forall_forall in OK. destruct (OK x) as (W & Px & X1 & X2 & X3 & X4); [eapply nth_error_In; exact Hk|]. rewrite E1, E2, E3, E4. f_equal.
  destruct (iimage x) as [pre I' J' D' t' bl]. cbn [apre aI aJ aD adt ablocks] in *. subst. f_equal. destruct W as [L _]. cbn in L. destruct bl as [|c [|? ?]]; try discriminate. reflexivity.
Qed.

(** C69 for braidsearch: at most bucket_size pairs, namely the smaller of the size
    and the number of different braids offered; braids and images are parallel *)
Theorem C69_braidsearch rint crit size rand I J t os s : 1 <= size -> Forall (sop_ok I J t) os -> st_run rint crit (strk_init size rand) os = Ok s ->
  exists h, shistory crit os h /\
    forall tag b, dget stag_eqb (st_buckets s) tag = Some b ->
      exists items, scontains s tag items /\ sb_braids b = map ibraid items /\ length items = Nat.min size (length (firsts (since stagdec tag h))) /\ 1 <= length items <= size.
Proof.
  intros Hs F H. destruct (st_new_run rint crit size rand I J t Hs os s F H) as (h & HH & (_ & _ & _ & SO)). exists h. split; [exact HH|]. intros tag b G. specialize (SO tag). rewrite G in SO. destruct SO as (NE & B & _ & _).
  exists (held rint size rand tag h). split; [eapply sbinv_contains; eassumption|]. split; [apply B|]. pose proof (held_len rint size rand tag h Hs) as L. split; [exact L|].
  pose proof (firsts_nil _ NE) as NF. destruct (firsts (since stagdec tag h)); [contradiction|]. cbn [length] in L. lia.
Qed.
(** the stored pairs are among those offered since the bucket was last discarded;
    without a random generator they are the first bucket_size different ones *)
Theorem C70_stored_braidsearch rint crit size rand I J t os s : 1 <= size -> Forall (sop_ok I J t) os -> st_run rint crit (strk_init size rand) os = Ok s ->
  exists h, shistory crit os h /\
    forall tag b, dget stag_eqb (st_buckets s) tag = Some b ->
      exists items rest, scontains s tag items /\ Permutation (since stagdec tag h) (items ++ rest) /\ (rand = false -> items = firstn size (firsts (since stagdec tag h))).
Proof.
  intros Hs F H. destruct (st_new_run rint crit size rand I J t Hs os s F H) as (h & HH & (_ & _ & _ & SO)). exists h. split; [exact HH|]. intros tag b G. specialize (SO tag). rewrite G in SO. destruct SO as (NE & B & _ & _).
  destruct (held_props rint size rand tag h Hs) as ((rest & P) & _ & _ & Gr). exists (held rint size rand tag h), rest. split; [eapply sbinv_contains; eassumption|]. split; [exact P|exact Gr].
Qed.
Theorem C71_braidsearch rint crit size rand I J t os s : 1 <= size -> Forall (sop_ok I J t) os -> st_run rint crit (strk_init size rand) os = Ok s ->
  exists h, shistory crit os h /\
    forall tag, (dget stag_eqb (st_buckets s) tag = None <-> since stagdec tag h = []) /\
      (since stagdec tag h <> [] -> dget stag_eqb (st_counts s) tag = Some (length (since stagdec tag h))).
Proof.
  intros Hs F H. destruct (st_new_run rint crit size rand I J t Hs os s F H) as (h & HH & (_ & _ & _ & SO)). exists h. split; [exact HH|]. intros tag. specialize (SO tag). destruct (dget stag_eqb (st_buckets s) tag) as [b|].
  - destruct SO as (NE & _ & _ & C). split; [split; [discriminate|contradiction]|]. auto.
  - split; [tauto|contradiction].
Qed.
Lemma since_in2 tag x h : In x (since stagdec tag h) -> In (Offered tag x) h.
Proof.
  induction h as [|e h IH] using rev_ind; [intros []|]. rewrite since_snoc2. destruct e as [t y|t]; cbn [note]; intros H; apply in_app_iff; destruct (stagdec t tag) as [->|N]; auto.
  - apply in_app_iff in H. destruct H as [H|[<-|[]]]; [auto|]. right. now left.
  - destruct H.
Qed.
Lemma shistory_in crit os h tag x : shistory crit os h -> In (Offered tag x) h -> exists bs im i, In (SAdd bs im) os /\ soffer bs im i (Offered tag x).
Proof.
  intros H. induction H as [|os h bs im es H IH [keep [_ O]]|os h tg H IH]; intros Hin.
  - destruct Hin.
  - apply in_app_iff in Hin. destruct Hin as [Hin|Hin].
    + destruct (IH Hin) as (bs' & im' & i & H1 & H2). exists bs', im', i. split; [apply in_app_iff; now left|exact H2].
    + assert (exists i, soffer bs im i (Offered tag x)) as [i Hi] by (clear - O Hin; induction O as [|i e l es H O IH]; [destruct Hin|]; destruct Hin as [->|Hin]; [eauto|auto]). exists bs, im, i. split; [apply in_app_iff; right; now left|exact Hi].
  - apply in_app_iff in Hin. destruct Hin as [Hin|[Hin|[]]]; [|discriminate]. destruct (IH Hin) as (bs' & im' & i & H1 & H2). exists bs', im', i. split; [apply in_app_iff; now left|exact H2].
Qed.
Theorem C70_images_braidsearch rint crit size rand I J t os s (rho : nfobj -> nat -> nat -> Z -> Z) : 1 <= size -> Forall (sop_ok I J t) os ->
  (forall bs im i b, In (SAdd bs im) os -> nth_error bs i = Some b -> up_to_power (acoef im [i]) (rho b) I J) ->
  st_run rint crit (strk_init size rand) os = Ok s ->
  forall tag b, dget stag_eqb (st_buckets s) tag = Some b -> exists items, scontains s tag items /\
    forall x, In x items ->
      projective (iimage x) /\ aI (iimage x) = I /\ aJ (iimage x) = J /\ adt (iimage x) = t /\ up_to_power (acoef (iimage x) []) (rho (ibraid x)) I J /\
      tag = (length (o_factors (ibraid x)), Z.of_nat (aD (iimage x))).
Proof.
  intros Hs F HR H tag b G. destruct (st_new_run rint crit size rand I J t Hs os s F H) as (h & HH & (_ & _ & _ & SO)). specialize (SO tag). rewrite G in SO. destruct SO as (NE & B & _ & _).
  destruct (held_props rint size rand tag h Hs) as ((rest & P) & _). exists (held rint size rand tag h). split; [eapply sbinv_contains; eassumption|]. intros x Hx.
  assert (Hi : In x (since stagdec tag h)) by (apply (Permutation_in _ (Permutation_sym P)), in_app_iff; now left).
  destruct (shistory_in _ _ _ _ _ HH (since_in2 _ _ _ Hi)) as (bs & im & i & Ha & (b' & y & v & Hb & Py & Dv & [= -> ->])). cbn [ibraid iimage fst snd] in *.
  rewrite Forall_forall in F. destruct (F _ Ha) as (W & E1 & E2 & E3 & _). pose proof Py as (Pj & X1 & X2 & X3 & q & Sh). rewrite E1, E2 in Sh.
  split; [exact Pj|]. split; [congruence|]. split; [congruence|]. split; [congruence|]. split; [eapply shift_power; [exact Sh|eapply HR; eassumption]|].
  destruct (span_unique im i y v Py Dv) as [D _]. now rewrite D.
Qed.
Theorem shistory_unique crit os h : shistory crit os h -> forall h', shistory crit os h' -> h = h'.
Proof.
  intros H. induction H as [|os h bs im es H IH O|os h tag H IH]; intros h' H'.
  - inversion H' as [E|? ? ? ? ? ? ? E|? ? ? ? E]; [reflexivity|now apply app_eq_nil in E|now apply app_eq_nil in E].
  - inversion H' as [E|os' h1 bs' im' es' H1 O1 E|? ? ? ? E]; [symmetry in E; now apply app_eq_nil in E| |apply app_inj_tail in E; destruct E; discriminate].
    apply app_inj_tail in E. destruct E as [-> [= -> ->]]. f_equal; [now apply IH|]. destruct O as (keep & K & O), O1 as (keep' & K' & O1). rewrite K in K'. injection K' as <-. clear - O O1. revert es' O1. induction O as [|i e l es H O IH]; intros es' O1; inversion O1; subst; [reflexivity|]. f_equal; [|now apply IH].
    destruct H as (b & x & v & A1 & A2 & A3 & ->), H2 as (b' & x' & v' & B1 & B2 & B3 & ->). rewrite A1 in B1. injection B1 as <-. rewrite (projective_unique _ _ _ _ A2 B2). do 2 f_equal. destruct (span_unique _ _ _ _ B2 B3) as [<- _]. destruct (span_unique _ _ _ _ B2 A3) as [<- _]. reflexivity.
  - inversion H' as [E|? ? ? ? ? ? ? E|os' h1 tag' H1 E]; [symmetry in E; now apply app_eq_nil in E|apply app_inj_tail in E; destruct E; discriminate|].
    apply app_inj_tail in E. destruct E as [-> [= ->]]. f_equal. now apply IH.
Qed.
Theorem C69_total_braidsearch rint crit size rand I J t os : 1 <= size -> Forall (sop_ok I J t) os -> Forall (sadd_ok crit) os ->
  exists s, st_run rint crit (strk_init size rand) os = Ok s.
Proof.
  intros Hs F FA. destruct (foldM_total (st_apply rint crit) (fun s => exists h, st_ok rint size rand I J t s h) os) with (s := strk_init size rand) as (s & E & _); [| |now exists s].
  - intros s o (h & SO) Ho. rewrite Forall_forall in F, FA. specialize (F o Ho). specialize (FA o Ho). destruct o as [bs im|tag]; cbn [st_apply].
    + destruct (st_add_total rint crit size rand I J t Hs s h bs im F FA SO) as (s' & es & E & _ & SO'). exists s'. split; [exact E|]. now exists (h ++ es).
    + exists (st_discard s tag). split; [reflexivity|]. exists (h ++ [Dropped tag]). now apply st_discard_ok.
  - exists []. apply st_init_ok.
Qed.

(** ** C72: the distribution of the reservoir *)
Definition sdecide (size : nat) (_ : nat) (j : nat) : option nat := if j <=? size then Some (j - 1) else None.
Lemma ndraws_indep rint rint' size rand h : ndraws rint size rand h = ndraws rint' size rand h.
Proof. induction h as [|e h IH] using rev_ind; [reflexivity|]. rewrite !ndraws_snoc, IH. reflexivity. Qed.
(** the values drawn at the positions [pos], starting with the one from 1..m *)
Fixpoint drawn (rint : nat -> nat) (m : nat) (pos : list nat) : list nat := match pos with [] => [] | p :: ps => randint1 rint p m :: drawn rint (S m) ps end.
Lemma drawn_length rint pos : forall m, length (drawn rint m pos) = length pos.
Proof. induction pos as [|p ps IH]; intros m; cbn; [reflexivity|]. now rewrite IH. Qed.
Lemma drawn_snoc rint pos p : forall m, drawn rint m (pos ++ [p]) = drawn rint m pos ++ [randint1 rint p (m + length pos)].
Proof. induction pos as [|q ps IH]; intros m; cbn [app drawn length]; [now rewrite Nat.add_0_r|]. rewrite IH. cbn [app]. replace (m + S (length ps)) with (S m + length ps) by lia. reflexivity. Qed.
Lemma held_replay size tag h : 1 <= size -> NoDup (map ibraid (since stagdec tag h)) ->
  exists pos, NoDup pos /\ (forall p rint, In p pos -> p < ndraws rint size true h) /\ length pos = length (since stagdec tag h) - size /\
    forall rint, held rint size true tag h = replay (sdecide size) (S size) (firstn size (since stagdec tag h)) (skipn size (since stagdec tag h)) (drawn rint (S size) pos).
Proof.
  intros Hs. induction h as [|e h IH] using rev_ind; intros ND.
  - exists []. split; [constructor|]. split; [intros p rint []|]. split; [reflexivity|]. intros rint. cbn. now rewrite firstn_nil, skipn_nil.
  - rewrite since_snoc2 in ND |- *.
    assert (KEEP : forall pos, NoDup pos /\ (forall p rint, In p pos -> p < ndraws rint size true h) -> NoDup pos /\ (forall p rint, In p pos -> p < ndraws rint size true (h ++ [e]))).
    { intros pos [H1 H2]. split; [exact H1|]. intros p rint Hp. specialize (H2 p rint Hp). rewrite ndraws_snoc. destruct e; [destruct (_ && _)|]; lia. }
    destruct e as [t x|t]; cbn [note] in *; destruct (stagdec t tag) as [->|NT].
    + rewrite map_app in ND. cbn [map] in ND. pose proof (NoDup_remove_1 _ _ _ ND) as N1. pose proof (NoDup_remove_2 _ _ _ ND) as N2. rewrite app_nil_r in N1, N2.
      destruct (IH N1) as (pos & P1 & P2 & P3 & P4). clear IH. pose proof (firsts_nodup _ N1) as FN. set (L := since stagdec tag h) in *. rewrite app_length. cbn [length].
      destruct (Nat.le_gt_cases size (length L)) as [Fu|NF].
      * exists (pos ++ [ndraws (fun _ => 0) size true h]). split; [|split; [|split]].
        -- apply NoDup_app_intro; [exact P1|constructor; [intros []|constructor]|]. intros p Hp [<-|[]]. specialize (P2 _ (fun _ => 0) Hp). lia.
        -- intros p rint Hp. rewrite ndraws_snoc. fold L. rewrite FN, (proj2 (Nat.leb_le _ _) Fu). cbn [andb]. apply in_app_iff in Hp. destruct Hp as [Hp|[<-|[]]]; [specialize (P2 _ rint Hp); lia|]. rewrite (ndraws_indep (fun _ => 0) rint). lia.
        -- rewrite app_length. cbn [length]. lia.
        -- intros rint. rewrite held_snoc. destruct (stagdec tag tag) as [_|]; [|congruence]. fold L. rewrite firstn_snoc, (proj2 (Nat.ltb_ge _ _) Fu). rewrite skipn_app. replace (size - length L) with 0 by lia. cbn [skipn].
           rewrite drawn_snoc, replay_snoc by (rewrite drawn_length, skipn_length; lia). rewrite <- P4. unfold put, sdecide, place1. rewrite FN, (proj2 (Nat.leb_le _ _) Fu). cbn zeta. rewrite (ndraws_indep (fun _ => 0) rint).
           replace (S size + length pos) with (length L + 1) by lia. destruct (_ <=? _); reflexivity.
      * assert (pos = []) as -> by (destruct pos; [reflexivity|cbn in P3; lia]). exists []. split; [constructor|]. split; [intros p rint []|]. split; [cbn; lia|]. intros rint. rewrite held_snoc. destruct (stagdec tag tag) as [_|]; [|congruence]. fold L.
        specialize (P4 rint). rewrite (firstn_all2 L), (skipn_all2 L) in P4 by lia. cbn [replay drawn] in P4. unfold place1. rewrite FN, (proj2 (Nat.leb_gt _ _) NF). rewrite P4. destruct (in_dec nfdec (ibraid x) (map ibraid L)); [contradiction|].
        rewrite firstn_all2, skipn_all2 by (rewrite app_length; cbn; lia). reflexivity.
    + destruct (IH ND) as (pos & P1 & P2 & P3 & P4). exists pos. destruct (KEEP pos (conj P1 P2)) as [K1 K2]. split; [exact K1|]. split; [exact K2|]. split; [exact P3|]. intros rint. rewrite held_snoc. destruct (stagdec t tag); [contradiction|apply P4].
    + exists []. split; [constructor|]. split; [intros p rint []|]. split; [reflexivity|]. intros rint. rewrite held_snoc. destruct (stagdec tag tag) as [_|]; [|congruence]. now rewrite firstn_nil, skipn_nil.
    + destruct (IH ND) as (pos & P1 & P2 & P3 & P4). exists pos. destruct (KEEP pos (conj P1 P2)) as [K1 K2]. split; [exact K1|]. split; [exact K2|]. split; [exact P3|]. intros rint. rewrite held_snoc. destruct (stagdec t tag); [contradiction|apply P4].
Qed.
(** the generator that returns js at the positions pos and [base] elsewhere; js are
    values of randint(1, m), so the residue is j - 1 *)
Fixpoint override (base : nat -> nat) (pos js : list nat) (k : nat) : nat :=
  match pos, js with p :: ps, j :: js' => if k =? p then j - 1 else override base ps js' k | _, _ => base k end.
Lemma drawn_override base pos : forall m js, NoDup pos -> length js = length pos -> (forall i j, nth_error js i = Some j -> 1 <= j <= m + i) -> drawn (override base pos js) m pos = js.
Proof.
  induction pos as [|p ps IH]; intros m [|j js] ND L H; cbn in L; try discriminate; [reflexivity|]. cbn [drawn]. inversion ND as [|? ? Np ND']; subst. f_equal.
  - unfold randint1. cbn [override]. rewrite Nat.eqb_refl. specialize (H 0 j eq_refl). rewrite Nat.mod_small by lia. lia.
  - transitivity (drawn (override base ps js) (S m) ps); [|apply IH; auto; intros i j' Hj; specialize (H (S i) j' Hj); lia].
    assert (G : forall qs mm, (forall q, In q qs -> q <> p) -> drawn (override base (p :: ps) (j :: js)) mm qs = drawn (override base ps js) mm qs).
    { induction qs as [|q qs IHq]; intros mm Hq; cbn [drawn]; [reflexivity|]. f_equal; [|apply IHq; intros r Hr; apply Hq; now right]. unfold randint1. cbn [override]. destruct (Nat.eqb_spec q p) as [E|_]; [|reflexivity]. now elim (Hq q (or_introl eq_refl)). }
    apply G. intros q Hq ->. contradiction.
Qed.
Lemma replay_map {W A B} (f : A -> B) (decide : nat -> W -> option nat) xs : forall t items ws, map f (replay decide t items xs ws) = replay decide t (map f items) (map f xs) ws.
Proof. induction xs as [|x xs IH]; intros t items [|w ws]; cbn [replay map]; try reflexivity. rewrite IH. f_equal. unfold put. destruct (decide t w); [|reflexivity]. now rewrite upd_map. Qed.
Lemma count_one (l : list nat) j : NoDup l -> In j l -> count (fun w => w =? j) l = 1.
Proof.
  intros N. induction N as [|x l Hx N IH]; intros Hj; [destruct Hj|]. unfold count in *. cbn [filter]. destruct (Nat.eqb_spec x j) as [->|NE].
  - cbn [length]. f_equal. rewrite (count_false (fun w => w =? j) l) || idtac. change (count (fun w => w =? j) l = 0). apply count_false. intros w Hw. apply Nat.eqb_neq. intros ->. contradiction.
  - destruct Hj as [Hj|Hj]; [contradiction|]. now apply IH.
Qed.
Lemma sfair size t : size < t -> fair (fun t => seq 1 t) (sdecide size) size t.
Proof.
  intros H. exists 1. split; [rewrite seq_length; lia|]. split.
  - intros i Hi. rewrite (count_ext _ (fun w => w =? S i)).
    + apply count_one; [apply seq_NoDup|]. apply in_seq. lia.
    + intros w Hw. apply in_seq in Hw. unfold sdecide. destruct (Nat.leb_spec w size), (Nat.eqb_spec w (S i)); try (apply Nat.eqb_eq; lia); try (apply Nat.eqb_neq; lia); lia || reflexivity.
  - intros w j Hw. apply in_seq in Hw. unfold sdecide. destruct (Nat.leb_spec w size); [|discriminate]. intros [= <-]. lia.
Qed.
(** is the braid among the braids of the bucket after the run? *)
Definition stored (r : res strk) (tag : stag) (b : nfobj) : bool :=
  match r with Ok s => match st_braids_images s tag with Ok (bs, _) => if in_dec nfdec b bs then true else false | Err _ => false end | Err _ => false end.
(** C72, braidsearch.Tracker with a random generator.  Of the draws, those at the
    positions pos belong to the bucket; whatever the other draws are (base), of all
    the values that the N - size draws of the bucket can take (the one for the t-th
    offer in 1..t) a fraction size/N leads to x being stored. *)
Theorem C72_braidsearch crit size I J t os h tag x : 1 <= size -> Forall (sop_ok I J t) os -> Forall (sadd_ok crit) os -> shistory crit os h ->
  NoDup (map ibraid (since stagdec tag h)) -> size <= length (since stagdec tag h) -> In x (since stagdec tag h) ->
  let N := length (since stagdec tag h) in
  exists pos, NoDup pos /\ length pos = N - size /\
    forall base, let draws := sequences (fun t => seq 1 t) (S size) (N - size) in
      count (fun js => stored (st_run (override base pos js) crit (strk_init size true) os) tag (ibraid x)) draws * N = length draws * size.
Proof.
  intros Hs F FA HH ND HN Hx N. destruct (held_replay size tag h Hs ND) as (pos & P1 & _ & P3 & P4). exists pos. split; [exact P1|]. split; [exact P3|]. intros base draws. set (L := since stagdec tag h) in *.
  pose proof (replay_uniform (fun t => seq 1 t) nfdec (sdecide size) size (map ibraid (firstn size L)) (map ibraid (skipn size L)) Hs) as RU.
  rewrite map_length, firstn_length, map_length, skipn_length, <- map_app, firstn_skipn in RU. specialize (RU ltac:(lia) ND (fun t Ht => sfair size t ltac:(lia)) (ibraid x) (in_map ibraid _ _ Hx)).
  fold N in RU. replace (size + (N - size)) with N in RU by lia. fold draws in RU. rewrite <- RU. f_equal. apply count_ext. intros js Hj. apply in_sequences in Hj. destruct Hj as [Lj Hj].
  destruct (C69_total_braidsearch (override base pos js) crit size true I J t os Hs F FA) as (s & Es). rewrite Es. destruct (st_new_run _ _ _ _ I J t Hs os s F Es) as (h' & HH' & (_ & _ & _ & SO)).
  rewrite (shistory_unique _ _ _ HH' _ HH) in SO. specialize (SO tag). fold L in SO. unfold stored, st_braids_images. destruct (dget stag_eqb (st_buckets s) tag) as [b|]; [|rewrite SO in Hx; destruct Hx].
  destruct SO as (_ & B & _). rewrite (sbi_braids _ _ _ _ _ _ _ B), P4. fold L. rewrite replay_map. rewrite drawn_override; [reflexivity|exact P1|lia|]. intros i j Hi. specialize (Hj i j Hi). apply in_seq in Hj. lia.
Qed.

(** ** concrete cases *)
Definition ex_images : parr := mkA [3] 1 1 3 I64 [[1; 2; 0]%Z; [5; 0; 0]%Z; [3; 1; 0]%Z].
Definition ex_sops : list sop := [SAdd [ex_braid 1; ex_braid 2; ex_braid 3] ex_images; SDiscard (1, 1%Z); SAdd [ex_braid 4; ex_braid 2; ex_braid 5] ex_images].
Definition every (bs : list nfobj) (_ : parr) : res (list bool) := Ok (map (fun _ => true) bs).
Lemma ex_images_ok : wfa ex_images /\ all_nonzero ex_images /\ forall i, i < 3 -> least_degree (acoef ex_images [i]) 1 1 0.
Proof.
  split; [split; [reflexivity|]; split; repeat constructor; cbn; lia|]. assert (H : forall i, i < 3 -> acoef ex_images [i] 0 0 0 <> 0%Z) by (intros [|[|[|i]]] Hi; try lia; discriminate). split.
  - intros idx V. apply valid_one in V. destruct V as (k & -> & Hk). exists 0, 0, 0. split; [cbn; lia|]. split; [cbn; lia|]. now apply H.
  - intros i Hi. split; [exists 0, 0; split; [lia|]; split; [lia|now apply H]|]. intros; lia.
Qed.
Theorem C72_case : Forall (sop_ok 1 1 I64) ex_sops /\ Forall (sadd_ok every) ex_sops /\
  (exists h, shistory every ex_sops h /\ length (since stagdec (1, 2%Z) h) = 4 /\ NoDup (map ibraid (since stagdec (1, 2%Z) h))) /\
  match st_run (fun _ => 1) every (strk_init 2 true) ex_sops with
  | Ok s => map (fun '(t, b) => (t, sb_braids b)) (st_buckets s) = [((1, 2%Z), [ex_braid 1; ex_braid 5]); ((1, 1%Z), [ex_braid 2])] /\ dget stag_eqb (st_counts s) (1, 2%Z) = Some 4
  | Err _ => False
  end.
Proof.
  destruct ex_images_ok as (W & NZ & LD). assert (F : Forall (sop_ok 1 1 I64) ex_sops).
  { constructor; [|constructor; [exact Logic.I|constructor; [|constructor]]]; (split; [exact W|]; split; [reflexivity|]; split; [reflexivity|]; split; [reflexivity|exact NZ]). }
  assert (FA : Forall (sadd_ok every) ex_sops). { constructor; [|constructor; [exact Logic.I|constructor; [|constructor]]]; (split; [reflexivity|]; split; [discriminate|]; split; [exact LD|]; eexists; split; [reflexivity|]; cbn; lia). }
  split; [exact F|]. split; [exact FA|]. split; [|vm_compute; split; reflexivity].
  destruct (C69_total_braidsearch (fun _ => 0) every 4 false 1 1 I64 ex_sops ltac:(lia) F FA) as (s & Es).
  destruct (st_new_run (fun _ => 0) every 4 false 1 1 I64 ltac:(lia) ex_sops _ F Es) as (h & HH & (_ & _ & _ & SO)). exists h. split; [exact HH|].
  specialize (SO (1, 2%Z)). destruct (held_props (fun _ => 0) 4 false (1, 2%Z) h ltac:(lia)) as ((rest & P) & _). vm_compute in Es. injection Es as <-. cbn in SO. destruct SO as (_ & B & _ & C).
  pose proof (sbi_braids _ _ _ _ _ _ _ B) as Hb. cbn [sb_braids] in Hb. injection C as C. set (L := since stagdec (1, 2%Z) h) in *. set (items := held (fun _ => 0) 4 false (1, 2%Z) h) in *. split; [exact (eq_sym C)|].
  assert (length items = 4) as Li by (rewrite <- (map_length ibraid), <- Hb; reflexivity). assert (rest = []) as -> by (apply Permutation_length in P; rewrite app_length in P; destruct rest; [reflexivity|cbn in P; lia]). rewrite app_nil_r in P.
  apply (Permutation_NoDup (Permutation_map ibraid (Permutation_sym P))). rewrite <- Hb. repeat constructor; cbn; intros HI; repeat destruct HI as [HI|HI]; try discriminate; contradiction.
Qed.
(** bucket_size 0, an image without a constant term *)
Theorem C69_braidsearch_refuted :
  st_run (fun _ => 0) every (strk_init 0 true) [SAdd [ex_braid 1; ex_braid 2; ex_braid 3] ex_images] = Err IndexError /\
  st_run (fun _ => 0) every (strk_init 2 true) [SAdd [ex_braid 1; ex_braid 2; ex_braid 3] ex_batch] = Err AssertionError.
Proof. split; vm_compute; reflexivity. Qed.
(** a bucket may hold the same braid twice once it is full *)
Theorem C70_duplicates_refuted : match st_run (fun _ => 0) every (strk_init 2 true) (ex_sops ++ ex_sops) with
  | Ok s => map (fun '(t, b) => (t, sb_braids b)) (st_buckets s) = [((1, 2%Z), [ex_braid 5; ex_braid 3]); ((1, 1%Z), [ex_braid 2])]
  | Err _ => False end /\
  match st_run (fun k => k) every (strk_init 2 true) [SAdd [ex_braid 1; ex_braid 2; ex_braid 3] ex_images; SAdd [ex_braid 4; ex_braid 2; ex_braid 4] ex_images] with
  | Ok s => map (fun '(t, b) => (t, sb_braids b)) (st_buckets s) = [((1, 2%Z), [ex_braid 4; ex_braid 4]); ((1, 1%Z), [ex_braid 2])]
  | Err _ => False end.
Proof. split; vm_compute; reflexivity. Qed.
