(** PropsTracker.v – properties C69, C70, C71, C73, C74 of bucketing.Tracker: what
    the buckets contain after any sequence of additions and discards, for every
    reservoir method and all random draws; and C75, batched. *)
From Verif Require Import Base ModelPerm ModelBraid ModelPoly ModelMatrix ModelPolymat SpecPolymat PolymatTheory PropsPolymat PropsPolymat2 ModelTracker SpecTracker TrackerTheory TrackerRun.
From Coq Require Import QArith Permutation Sorted.
Local Open Scope nat_scope.

(** ** C75 *)
Lemma batched_loop_spec {X} k (xs : list X) : 1 <= k -> forall chunk, length chunk < k -> let cs := batched_loop k xs chunk in
  concat cs = chunk ++ xs /\ (forall c, In c cs -> 1 <= length c <= k) /\ (forall i c, nth_error cs i = Some c -> S i < length cs -> length c = k).
Proof.
  intros Hk. induction xs as [|x xs IH]; intros chunk Hc; cbn [batched_loop].
  - destruct (Nat.ltb_spec 0 (length chunk)) as [H|H]; cbn.
    + split; [reflexivity|]. split; [intros c [<-|[]]; lia|]. intros [|i] c; cbn; [lia|destruct i; discriminate].
    + destruct chunk; [|cbn in H; lia]. split; [reflexivity|]. split; [intros c []|]. intros [|i]; discriminate.
  - rewrite app_length. cbn [length]. destruct (Nat.eqb_spec (length chunk + 1) k) as [E|N].
    + destruct (IH [] ltac:(cbn; lia)) as (A & B & C). split; [cbn; rewrite A; cbn; now rewrite <- app_assoc|]. split.
      * intros c [<-|H]; [rewrite app_length; cbn; lia|now apply B].
      * intros [|i] c; cbn; [intros [= <-] _; rewrite app_length; cbn; lia|]. intros H1 H2. apply (C i); [exact H1|]. lia.
    + destruct (IH (chunk ++ [x]) ltac:(rewrite app_length; cbn; lia)) as (A & B & C). split; [rewrite A; now rewrite <- app_assoc|]. now split.
Qed.
Theorem C75_batched {X} (xs : list X) (k : Z) :
  ((k < 1)%Z -> batched xs k = Err AssertionError) /\
  ((1 <= k)%Z -> exists chunks, batched xs k = Ok chunks /\ concat chunks = xs /\
     (forall c, In c chunks -> c <> [] /\ (Z.of_nat (length c) <= k)%Z) /\
     (forall i c, nth_error chunks i = Some c -> S i < length chunks -> Z.of_nat (length c) = k)).
Proof.
  unfold batched. split; intros H.
  - destruct (Z.leb_spec 1 k); [lia|reflexivity].
  - destruct (Z.leb_spec 1 k); [|lia]. cbn [assert_ bind]. eexists. split; [reflexivity|].
    destruct (batched_loop_spec (Z.to_nat k) xs ltac:(lia) [] ltac:(cbn; lia)) as (A & B & C). split; [exact A|]. split.
    + intros c Hc. specialize (B c Hc). split; [intros ->; cbn in B; lia|lia].
    + intros i c H1 H2. rewrite (C i c H1 H2). lia.
Qed.
Theorem C75_case : batched [1;2;3;4;5;6;7] 3 = Ok [[1;2;3];[4;5;6];[7]].
Proof. reflexivity. Qed.

(** ** the invariant of a tracker *)
Fixpoint first_proj (stats : list stat) : nat := match stats with [] => 0 | s :: ss => if is_projlen s then 0 else S (first_proj ss) end.
Definition span_of (stats : list stat) (tag : list Z) : nat := Z.to_nat (nth (first_proj stats) tag 0%Z).
Lemma proj_stat cls bs im i stats tag : existsb is_projlen stats = true -> Forall2 (stat_value cls bs im i) stats tag -> degree_span im i (nth (first_proj stats) tag 0%Z).
Proof.
  intros E F. induction F as [|s v ss tag H F IH]; [discriminate|]. cbn [existsb first_proj] in *. destruct (is_projlen s) eqn:P; cbn [orb nth] in *.
  - destruct s; try discriminate. exact H.
  - now apply IH.
Qed.
Lemma span_unique im i x v : projective_of im i x -> degree_span im i v -> Z.of_nat (aD x) = v /\ 1 <= aD x.
Proof.
  intros ((W & P & L & G) & E1 & E2 & E3 & s & S) (a & b & La & Gb & ->). rewrite E1, E2 in L, G.
  assert (D1 : 1 <= aD x). { destruct (aD x) eqn:E; [|lia]. destruct L as [(p & q & Hp & Hq & N) _]. rewrite acoef_over in N by lia. lia. }
  assert (Ls : least_degree (acoef im [i]) (aI im) (aJ im) s).
  { split.
    - destruct L as [(p & q & Hp & Hq & N) _]. exists p, q. split; [exact Hp|]. split; [exact Hq|]. rewrite S by assumption. unfold shift. rewrite Nat.ltb_irrefl, Nat.sub_diag. exact N.
    - intros p q e Hp Hq He. rewrite S by assumption. unfold shift. destruct (Nat.ltb_spec e s); [reflexivity|lia]. }
  assert (Gs : greatest_degree (acoef im [i]) (aI im) (aJ im) (s + (aD x - 1))).
  { split.
    - destruct G as [(p & q & Hp & Hq & N) _]. exists p, q. split; [exact Hp|]. split; [exact Hq|]. rewrite S by assumption. unfold shift. destruct (Nat.ltb_spec (s + (aD x - 1)) s); [lia|]. now replace (s + (aD x - 1) - s) with (aD x - 1) by lia.
    - intros p q e Hp Hq He. rewrite S by assumption. unfold shift. destruct (Nat.ltb_spec e s); [reflexivity|]. apply acoef_over. lia. }
  pose proof (least_unique _ _ _ _ _ La Ls). pose proof (greatest_unique _ _ _ _ _ Gb Gs). lia.
Qed.
Section Run.
Variables (cls : Z) (rnd : nat -> Q) (rint : nat -> nat) (cap : nat) (stats : list stat) (m : method) (w : option (list nfobj -> parr -> res (list Q))).
Variables (I J : nat) (t : dtype).
Definition ev_ok (e : event (list Z)) : Prop := match e with Offered tag x => iok I J (span_of stats tag) t x | Dropped _ => True end.
Definition bucket_ok (tag : list Z) (L : list item) (b : bucket) : Prop :=
  exists items, binv cap tag I J (span_of stats tag) t b items /\ hinv_of m (b_heap b) items /\ holds_of m cap items L /\
    b_count b = length L /\ b_weight b = total_weight L.
Definition tr_ok (tr : tracker) (h : list (event (list Z))) : Prop :=
  tr_capacity tr = cap /\ tr_stats tr = stats /\ tr_method tr = m /\ tr_weight tr = w /\
  forall tag, match dget tag_eqb (tr_buckets tr) tag with
    | None => since tagdec tag h = []
    | Some b => since tagdec tag h <> [] /\ bucket_ok tag (since tagdec tag h) b
    end.
Lemma since_snoc tag h e : since tagdec tag (h ++ [e]) = note tagdec tag (since tagdec tag h) e.
Proof. unfold since. now rewrite fold_left_app. Qed.
Lemma offer_inv tr h tag x tr' : tr_ok tr h -> iok I J (span_of stats tag) t x -> offer rnd rint tr (ibraid x) (iimage x) tag (iweight x) = Ok tr' -> tr_ok tr' (h ++ [Offered tag x]).
Proof.
  intros (E1 & E2 & E3 & E4 & HB) X. unfold offer.
  set (bs := match dget tag_eqb (tr_buckets tr) tag with Some _ => _ | None => _ end).
  assert (K : exists b items, dget tag_eqb bs tag = Some b /\ binv cap tag I J (span_of stats tag) t b items /\ hinv_of m (b_heap b) items /\ holds_of m cap items (since tagdec tag h) /\
     b_count b = length (since tagdec tag h) /\ b_weight b = total_weight (since tagdec tag h) /\ forall tag', tag <> tag' -> dget tag_eqb bs tag' = dget tag_eqb (tr_buckets tr) tag').
  { unfold bs. pose proof (HB tag) as Ht. destruct (dget tag_eqb (tr_buckets tr) tag) as [b|] eqn:G.
    - destruct Ht as [_ (items & B & Hi & Ho & C & Wt)]. exists b, items. repeat (split; [assumption|]). auto.
    - exists (bucket_create tag (tr_capacity tr) (iimage x)), []. rewrite Ht. split; [rewrite (dget_dset _ tagdec tag_eqb_iff); now destruct (tagdec tag tag)|].
      destruct X as (W & P & X1 & X2 & X3 & X4). rewrite E1. pose proof (binv_create cap tag (iimage x)) as B. rewrite X1, X2, X3, X4 in B. split; [exact B|].
      split; [intros _; split; constructor|]. split; [split; [cbn; lia|]; destruct m; cbn; [now rewrite firstn_nil|exists []; constructor|exists []; constructor|exists []; split; [constructor|intros ? ? []]]|]. split; [reflexivity|]. split; [reflexivity|].
      intros tag' N. rewrite (dget_dset _ tagdec tag_eqb_iff). now destruct (tagdec tag tag'). }
  destruct K as (b & items & G & B & Hi & Ho & C & Wt & OT). unfold dgetE. rewrite G. cbn [bind].
  destruct (place rnd rint (tr_method tr) (tr_draws tr) _ _ _ _) as [[b' k']|] eqn:EP; [|discriminate]. cbn [bind]. intros [= <-].
  rewrite E3 in EP. eapply place_inv in EP; [|apply binv_show; exact B|exact Hi|exact Ho|exact X]. destruct EP as (items' & B' & Hi' & Ho' & C' & W').
  split; [exact E1|]. split; [exact E2|]. split; [exact E3|]. split; [exact E4|]. intros tag'. cbn [with_buckets tr_buckets]. rewrite (dget_dset _ tagdec tag_eqb_iff), since_snoc. cbn [note].
  destruct (tagdec tag tag') as [<-|N].
  - split; [intros Z; now apply app_eq_nil in Z|]. exists items'. split; [exact B'|]. split; [exact Hi'|]. split; [exact Ho'|]. rewrite C', W'. cbn [show_reservoir b_count b_weight].
    rewrite C, Wt, app_length. split; [reflexivity|]. unfold total_weight. now rewrite fold_left_app.
  - rewrite OT by exact N. apply HB.
Qed.
Lemma offers_inv es : forall tr h tr', Forall (fun e => iok I J (span_of stats (fst e)) t (snd e)) es -> tr_ok tr h -> foldM (offer_ev rnd rint) es tr = Ok tr' -> tr_ok tr' (h ++ map to_event es).
Proof.
  induction es as [|e es IH]; intros tr h tr' F TO; cbn [foldM map].
  - intros [= <-]. now rewrite app_nil_r.
  - inversion F as [|? ? X F']; subst. destruct (offer_ev rnd rint tr e) as [tr1|] eqn:E; [|discriminate]. cbn [bind]. intros H.
    change (h ++ to_event e :: map to_event es) with (h ++ [to_event e] ++ map to_event es). rewrite app_assoc. eapply IH; [exact F'| |exact H]. destruct e as [tag x]. now apply (offer_inv tr).
Qed.
Hypothesis PL : existsb is_projlen stats = true.
Lemma offers_ok bs im es : wfa im -> aI im = I -> aJ im = J -> adt im = t -> offers cls stats w bs im (map to_event es) -> Forall (fun e => iok I J (span_of stats (fst e)) t (snd e)) es.
Proof.
  intros W E1 E2 E3 [L F]. rewrite map_length in L. apply Forall_forall. intros e He. apply In_nth_error in He. destruct He as [i Hi].
  assert (Li : i < length bs) by (rewrite <- L; apply nth_error_Some; congruence). destruct (F i Li) as (tag & b & x & q & H1 & H2 & H3 & H4 & H5).
  rewrite nth_error_map, Hi in H1. cbn in H1. destruct e as [tag' [[b' x'] q']]. cbn in H1. injection H1 as -> -> -> ->.
  destruct (span_unique im i x _ H4 (proj_stat _ _ _ _ _ _ PL H3)) as [D _]. unfold iok, ok_image, iimage, span_of. cbn [fst snd]. rewrite <- D, Nat2Z.id.
  destruct H4 as ((Wx & Px & _) & A & B & C & _). rewrite A, B, C. auto 10.
Qed.
Lemma run_inv os tr : forall h0 tr0, tr_ok tr0 h0 -> (exists os0, history cls stats w os0 h0) -> Forall (op_ok I J t) os -> run_ops cls rnd rint tr0 os = Ok tr ->
  exists h, tr_ok tr (h0 ++ h) /\ forall os0, history cls stats w os0 h0 -> history cls stats w (os0 ++ os) (h0 ++ h).
Proof.
  induction os as [|o os IH]; intros h0 tr0 TO HH F; unfold run_ops; cbn [foldM].
  - intros [= <-]. exists []. rewrite app_nil_r. split; [exact TO|]. intros os0. now rewrite app_nil_r.
  - inversion F as [|? ? Fo F']; subst. destruct (apply_op cls rnd rint tr0 o) as [tr1|] eqn:E; [|discriminate]. cbn [bind]. intros H.
    assert (S : exists h1, tr_ok tr1 (h0 ++ h1) /\ forall os0, history cls stats w os0 h0 -> history cls stats w (os0 ++ [o]) (h0 ++ h1)).
    { destruct o as [bs im|tag]; cbn [apply_op] in E.
      - destruct Fo as (W & E1 & E2 & E3). apply add_inv in E; [|exact W]. destruct E as [_ [es [OF E]]]. destruct TO as (T1 & T2 & T3 & T4 & TB). rewrite T2, T4 in OF.
        exists (map to_event es). split; [|intros os0 H0; now constructor]. eapply offers_inv; [eapply offers_ok; eauto| |exact E]. now repeat (split; [assumption|]).
      - injection E as <-. exists [Dropped tag]. split; [|intros os0 H0; now constructor]. destruct TO as (T1 & T2 & T3 & T4 & TB). repeat (split; [assumption|]).
        intros tag'. cbn [discard_bucket with_buckets tr_buckets]. rewrite (dget_ddel _ tagdec tag_eqb_iff), since_snoc. cbn [note]. destruct (tagdec tag tag'); [reflexivity|apply TB]. }
    destruct S as [h1 [TO1 H1]]. destruct (IH (h0 ++ h1) tr1 TO1) as [h [TO2 H2]]; [destruct HH as [os0 H0]; exists (os0 ++ [o]); now apply H1|exact F'|exact H|].
    exists (h1 ++ h). rewrite app_assoc. split; [exact TO2|]. intros os0 H0. change (o :: os) with ([o] ++ os). rewrite app_assoc. apply H2, H1, H0.
Qed.
End Run.

(** ** the theorems *)
(** what the API shows of a bucket: braids_images() and the weights *)
Definition contains (b : bucket) (items : list item) : Prop :=
  fst (braids_images b) = map ibraid items /\ apre (snd (braids_images b)) = [length items] /\
  (forall k x, nth_error items k = Some x -> arr_item (snd (braids_images b)) (Z.of_nat k) = Ok (iimage x)) /\
  firstn (length items) (b_weights b) = map iweight items.
(** a run of a new tracker *)
Definition new_run (cls : Z) (rnd : nat -> Q) (rint : nat -> nat) (cap : nat) (stats : list stat) (m : method) (w : option (list nfobj -> parr -> res (list Q))) (os : list op) : res tracker :=
  tr <- tracker_init cap stats m w ;; run_ops cls rnd rint tr os.
Lemma nth_error_firstn {A} (l : list A) n k : k < n -> nth_error (firstn n l) k = nth_error l k.
Proof. revert n k; induction l as [|x l IH]; intros [|n] [|k] H; cbn; try lia; auto. apply IH. lia. Qed.
Lemma nth_error_ext' {A} (l l' : list A) : length l = length l' -> (forall k, k < length l -> nth_error l k = nth_error l' k) -> l = l'.
Proof. revert l'; induction l as [|x l IH]; intros [|y l'] L H; try discriminate; [reflexivity|]. cbn in L. assert (E : x = y) by (specialize (H 0 ltac:(cbn; lia)); cbn in H; congruence). subst. f_equal. apply IH; [lia|]. intros k Hk. apply (H (S k)). cbn. lia. Qed.
Lemma binv_contains cap tag I J D t b items : binv cap tag I J D t b items -> contains b items.
Proof.
  intros [bi_tag0 bi_cap0 bi_len0 bi_braids0 bi_I0 bi_J0 bi_D0 bi_t0 bi_pre0 bi_blocks0 bi_image0 bi_wlen0 bi_weight0 bi_ok0]. unfold contains, braids_images, b_size. cbn [fst snd]. rewrite bi_braids0, map_length. split; [reflexivity|]. cbn [take_items apre]. rewrite bi_blocks0. split; [f_equal; lia|]. split.
  - intros k x Hk. assert (Lk : k < length items) by (apply nth_error_Some; congruence). unfold arr_item. cbn [take_items apre ablocks aI aJ aD adt]. rewrite pyget_nat. unfold get. rewrite nth_error_firstn by exact Lk. rewrite (bi_image0 k x Hk). cbn [bind].
    rewrite Forall_forall in bi_ok0. destruct (bi_ok0 x) as (W & P & X1 & X2 & X3 & X4); [eapply nth_error_In; exact Hk|]. rewrite bi_I0, bi_J0, bi_D0, bi_t0. f_equal.
    destruct (iimage x) as [pre I' J' D' t' bl]. cbn [apre aI aJ aD adt ablocks] in *. subst. f_equal. destruct W as [L _]. cbn in L. destruct bl as [|c [|? ?]]; try discriminate. reflexivity.
  - apply nth_error_ext'; [rewrite firstn_length, map_length; lia|]. intros k Hk. rewrite firstn_length in Hk. rewrite nth_error_firstn by lia. destruct (nth_error items k) as [x|] eqn:E; [|apply nth_error_None in E; lia]. rewrite (bi_weight0 k x E), nth_error_map, E. reflexivity.
Qed.
Lemma new_run_ok cls rnd rint cap stats m w I J t os tr : Forall (op_ok I J t) os -> new_run cls rnd rint cap stats m w os = Ok tr ->
  existsb is_projlen stats = true /\ existsb is_length stats = true /\ exists h, history cls stats w os h /\ tr_ok cap stats m w I J t tr h.
Proof.
  intros F. unfold new_run, tracker_init. destruct (existsb is_length stats) eqn:E1; [|discriminate]. destruct (existsb is_projlen stats) eqn:E2; [|discriminate]. cbn [assert_ bind]. intros H.
  split; [reflexivity|]. split; [reflexivity|]. eapply (run_inv cls rnd rint cap stats m w I J t E2 os tr []) in H; [| |exists []; constructor|exact F].
  - destruct H as [h [TO H]]. exists h. split; [apply (H [] (H_nil _ _ _))|exact TO].
  - repeat (split; [reflexivity|]). intros tag. reflexivity.
Qed.

(** C69: every bucket holds at most capacity pairs, exactly the smaller of the
    capacity and the number of offers; braids, images and weights are parallel *)
Theorem C69_bucketing cls rnd rint cap stats m w I J t os tr : Forall (op_ok I J t) os -> new_run cls rnd rint cap stats m w os = Ok tr ->
  exists h, history cls stats w os h /\
    forall tag b, dget tag_eqb (tr_buckets tr) tag = Some b -> b_tag b = tag /\
      exists items, contains b items /\ length items = Nat.min cap (length (since tagdec tag h)) /\ length (b_braids b) = length items /\ length (b_weights b) = cap.
Proof.
  intros F H. destruct (new_run_ok _ _ _ _ _ _ _ _ _ _ _ _ F H) as (_ & _ & h & HH & TO). exists h. split; [exact HH|]. intros tag b G. destruct TO as (_ & _ & _ & _ & TO). specialize (TO tag). rewrite G in TO.
  destruct TO as [_ (items & B & _ & Ho & _)]. split; [apply B|]. exists items. split; [now apply binv_contains in B|]. split; [apply Ho|]. split; [rewrite (bi_braids _ _ _ _ _ _ _ _ B); apply map_length|apply B].
Qed.
(** C70: what is stored was offered with that tag, each offer at most once *)
Theorem C70_stored cls rnd rint cap stats m w I J t os tr : Forall (op_ok I J t) os -> new_run cls rnd rint cap stats m w os = Ok tr ->
  exists h, history cls stats w os h /\
    forall tag b, dget tag_eqb (tr_buckets tr) tag = Some b -> exists items rest, contains b items /\ Permutation (since tagdec tag h) (items ++ rest).
Proof.
  intros F H. destruct (new_run_ok _ _ _ _ _ _ _ _ _ _ _ _ F H) as (_ & _ & h & HH & TO). exists h. split; [exact HH|]. intros tag b G. destruct TO as (_ & _ & _ & _ & TO). specialize (TO tag). rewrite G in TO.
  destruct TO as [_ (items & B & _ & Ho & _)]. destruct (holds_perm _ _ _ _ Ho) as [rest P]. exists items, rest. split; [now apply binv_contains in B|exact P].
Qed.
(** C71: reservoir_count and reservoir_weight *)
Theorem C71_bucketing cls rnd rint cap stats m w I J t os tr : Forall (op_ok I J t) os -> new_run cls rnd rint cap stats m w os = Ok tr ->
  exists h, history cls stats w os h /\
    forall tag, (dget tag_eqb (tr_buckets tr) tag = None <-> since tagdec tag h = []) /\
      forall b, dget tag_eqb (tr_buckets tr) tag = Some b -> b_count b = length (since tagdec tag h) /\ b_weight b = total_weight (since tagdec tag h).
Proof.
  intros F H. destruct (new_run_ok _ _ _ _ _ _ _ _ _ _ _ _ F H) as (_ & _ & h & HH & TO). exists h. split; [exact HH|]. intros tag. destruct TO as (_ & _ & _ & _ & TO). specialize (TO tag).
  destruct (dget tag_eqb (tr_buckets tr) tag) as [b|] eqn:G.
  - destruct TO as [N (items & _ & _ & _ & C & W)]. split; [split; [discriminate|contradiction]|]. intros b' [= <-]. now split.
  - split; [tauto|discriminate].
Qed.
(** C73: EvictMin *)
Theorem C73_evict_min cls rnd rint cap stats w I J t os tr : Forall (op_ok I J t) os -> new_run cls rnd rint cap stats EvictMin w os = Ok tr ->
  exists h, history cls stats w os h /\
    forall tag b, dget tag_eqb (tr_buckets tr) tag = Some b -> exists items rest, contains b items /\ Permutation (since tagdec tag h) (items ++ rest) /\
      length items = Nat.min cap (length (since tagdec tag h)) /\ forall x y, In x items -> In y rest -> (iweight y <= iweight x)%Q.
Proof.
  intros F H. destruct (new_run_ok _ _ _ _ _ _ _ _ _ _ _ _ F H) as (_ & _ & h & HH & TO). exists h. split; [exact HH|]. intros tag b G. destruct TO as (_ & _ & _ & _ & TO). specialize (TO tag). rewrite G in TO.
  destruct TO as [_ (items & B & _ & [L [rest [P Q]]] & _)]. exists items, rest. split; [now apply binv_contains in B|]. split; [exact P|]. split; [exact L|exact Q].
Qed.
(** C74: GreedyFirst *)
Theorem C74_greedy_first cls rnd rint cap stats w I J t os tr : Forall (op_ok I J t) os -> new_run cls rnd rint cap stats GreedyFirst w os = Ok tr ->
  exists h, history cls stats w os h /\
    forall tag b, dget tag_eqb (tr_buckets tr) tag = Some b -> contains b (firstn cap (since tagdec tag h)).
Proof.
  intros F H. destruct (new_run_ok _ _ _ _ _ _ _ _ _ _ _ _ F H) as (_ & _ & h & HH & TO). exists h. split; [exact HH|]. intros tag b G. destruct TO as (_ & _ & _ & _ & TO). specialize (TO tag). rewrite G in TO.
  destruct TO as [_ (items & B & _ & [_ ->] & _)]. now apply binv_contains in B.
Qed.

(** ** the images and tags of the stored pairs *)
(** the entries of a matrix of Laurent polynomials (given by their coefficients) are
    those of the polynomial matrix f times a power of v *)
Definition up_to_power (f : nat -> nat -> nat -> Z) (rho : nat -> nat -> Z -> Z) (I J : nat) : Prop :=
  exists s : Z, forall i j k, i < I -> j < J -> rho i j k = if (k <? s)%Z then 0%Z else f i j (Z.to_nat (k - s)).
Lemma since_in tag x h : In x (since tagdec tag h) -> In (Offered tag x) h.
Proof.
  induction h as [|e h IH] using rev_ind; [intros []|]. rewrite since_snoc. destruct e as [t y|t]; cbn [note]; intros H; apply in_app_iff; destruct (tagdec t tag) as [->|N]; auto.
  - apply in_app_iff in H. destruct H as [H|[<-|[]]]; [auto|]. right. now left.
  - destruct H.
Qed.
Lemma history_in cls stats w os h tag x : history cls stats w os h -> In (Offered tag x) h -> exists bs im i, In (Add bs im) os /\ nth_error bs i = Some (ibraid x) /\
  Forall2 (stat_value cls bs im i) stats tag /\ projective_of im i (iimage x) /\ weight_value w bs im i (iweight x).
Proof.
  intros H. induction H as [|os h bs im es H IH [L O]|os h tg H IH]; intros Hin.
  - destruct Hin.
  - apply in_app_iff in Hin. destruct Hin as [Hin|Hin].
    + destruct (IH Hin) as (bs' & im' & i & H1 & H2). exists bs', im', i. split; [apply in_app_iff; now left|exact H2].
    + apply In_nth_error in Hin. destruct Hin as [i Hi]. assert (Li : i < length bs) by (rewrite <- L; apply nth_error_Some; congruence).
      destruct (O i Li) as (tag' & b & y & q & E1 & E2 & E3 & E4 & E5). rewrite Hi in E1. injection E1 as -> ->. exists bs, im, i. split; [apply in_app_iff; right; now left|]. auto.
  - apply in_app_iff in Hin. destruct Hin as [Hin|[Hin|[]]]; [|discriminate]. destruct (IH Hin) as (bs' & im' & i & H1 & H2). exists bs', im', i. split; [apply in_app_iff; now left|exact H2].
Qed.
Lemma shift_power f g rho I J s : same_poly f (shift s g) I J -> up_to_power f rho I J -> up_to_power g rho I J.
Proof.
  intros S [a H]. exists (a + Z.of_nat s)%Z. intros i j k Hi Hj. rewrite H by assumption. destruct (Z.ltb_spec k a); destruct (Z.ltb_spec k (a + Z.of_nat s)); try lia.
  - rewrite S by assumption. unfold shift. destruct (Nat.ltb_spec (Z.to_nat (k - a)) s); [reflexivity|lia].
  - rewrite S by assumption. unfold shift. destruct (Nat.ltb_spec (Z.to_nat (k - a)) s); [lia|]. f_equal. lia.
Qed.
(** C70: if every added pair has image = rho(braid) up to a power of v, the same
    holds of every stored pair; the stored image has no superfluous degrees and the
    tag consists of the statistics of the braid and of the image *)
Theorem C70_images cls rnd rint cap stats m w I J t os tr (rho : nfobj -> nat -> nat -> Z -> Z) :
  Forall (op_ok I J t) os ->
  (forall bs im i b, In (Add bs im) os -> nth_error bs i = Some b -> up_to_power (acoef im [i]) (rho b) I J) ->
  new_run cls rnd rint cap stats m w os = Ok tr ->
  forall tag b, dget tag_eqb (tr_buckets tr) tag = Some b -> exists items, contains b items /\
    forall x, In x items ->
      projective (iimage x) /\ aI (iimage x) = I /\ aJ (iimage x) = J /\ adt (iimage x) = t /\ up_to_power (acoef (iimage x) []) (rho (ibraid x)) I J /\
      Forall2 (fun s v => (s = CanonicalLength -> v = Z.of_nat (length (o_factors (ibraid x)))) /\ (s = ProjectiveLength -> v = Z.of_nat (aD (iimage x)))) stats tag.
Proof.
  intros F HR H tag b G. destruct (new_run_ok _ _ _ _ _ _ _ _ _ _ _ _ F H) as (_ & _ & h & HH & TO). destruct TO as (_ & _ & _ & _ & TO). specialize (TO tag). rewrite G in TO.
  destruct TO as [_ (items & B & _ & Ho & _)]. exists items. split; [now apply binv_contains in B|]. intros x Hx. destruct (holds_perm _ _ _ _ Ho) as [rest P].
  assert (Hs : In x (since tagdec tag h)) by (apply (Permutation_in _ (Permutation_sym P)), in_app_iff; now left).
  destruct (history_in _ _ _ _ _ _ _ HH (since_in _ _ _ Hs)) as (bs & im & i & Ha & Hb & Ht & Hp & _).
  rewrite Forall_forall in F. destruct (F _ Ha) as (W & E1 & E2 & E3). pose proof Hp as (Pj & X1 & X2 & X3 & s & Sh). rewrite E1, E2 in Sh.
  split; [exact Pj|]. split; [congruence|]. split; [congruence|]. split; [congruence|]. split.
  - eapply shift_power; [exact Sh|]. eapply HR; eassumption.
  - clear - Ht Hp Hb. induction Ht as [|st v ss tg Hv Ht IH]; constructor; [|exact IH]. split; intros ->; cbn [stat_value] in Hv.
    + destruct Hv as (b0 & Hb0 & ->). rewrite Hb in Hb0. injection Hb0 as <-. reflexivity.
    + symmetry. now apply (span_unique im i).
Qed.

(** ** the history is determined by the calls *)
Lemma projective_unique im i x y : projective_of im i x -> projective_of im i y -> x = y.
Proof.
  intros Hx Hy. assert (DS : exists v, degree_span im i v).
  { destruct Hx as ((W & P & L & G) & E1 & E2 & E3 & s & S). rewrite E1, E2 in L, G. exists (Z.of_nat (s + (aD x - 1)) - Z.of_nat s + 1)%Z. exists s, (s + (aD x - 1)). split; [|split; [|reflexivity]].
    - split.
      + destruct L as [(p & q & Hp & Hq & N) _]. exists p, q. split; [exact Hp|]. split; [exact Hq|]. rewrite S by assumption. unfold shift. rewrite Nat.ltb_irrefl, Nat.sub_diag. exact N.
      + intros p q e Hp Hq He. rewrite S by assumption. unfold shift. destruct (Nat.ltb_spec e s); [reflexivity|lia].
    - split.
      + destruct G as [(p & q & Hp & Hq & N) _]. exists p, q. split; [exact Hp|]. split; [exact Hq|]. rewrite S by assumption. unfold shift. destruct (Nat.ltb_spec (s + (aD x - 1)) s); [lia|]. now replace (s + (aD x - 1) - s) with (aD x - 1) by lia.
      + intros p q e Hp Hq He. rewrite S by assumption. unfold shift. destruct (Nat.ltb_spec e s); [reflexivity|]. apply acoef_over. lia. }
  destruct DS as [v DS]. destruct (span_unique _ _ _ _ Hx DS) as [Dx _]. destruct (span_unique _ _ _ _ Hy DS) as [Dy _].
  assert (LS : forall z, projective_of im i z -> forall s, same_poly (acoef im [i]) (shift s (acoef z [])) (aI im) (aJ im) -> least_degree (acoef im [i]) (aI im) (aJ im) s).
  { intros z ((W & P & L & G) & E1 & E2 & E3 & _) s S. rewrite E1, E2 in L. split.
    - destruct L as [(p & q & Hp & Hq & N) _]. exists p, q. split; [exact Hp|]. split; [exact Hq|]. rewrite S by assumption. unfold shift. rewrite Nat.ltb_irrefl, Nat.sub_diag. exact N.
    - intros p q e Hp Hq He. rewrite S by assumption. unfold shift. destruct (Nat.ltb_spec e s); [reflexivity|lia]. }
  pose proof Hx as (Px & X1 & X2 & X3 & s & Sx). pose proof Hy as (Py & Y1 & Y2 & Y3 & s' & Sy).
  assert (s = s') as <-. { apply (least_unique (acoef im [i]) (aI im) (aJ im)); [apply (LS x)|apply (LS y)]; auto. }
  destruct Px as (Wx & PX & _). destruct Py as (Wy & PY & _). apply arr_ext; auto; try congruence; [lia|].
  rewrite PX, X1, X2. intros idx p q d V Hp Hq. inversion V; subst. specialize (Sx p q (s + d) Hp Hq). specialize (Sy p q (s + d) Hp Hq). unfold shift in Sx, Sy. destruct (Nat.ltb_spec (s + d) s); [lia|].
  replace (s + d - s) with d in * by lia. congruence.
Qed.
Lemma stat_unique cls bs im i s v v' : stat_value cls bs im i s v -> stat_value cls bs im i s v' -> v = v'.
Proof.
  destruct s; cbn [stat_value].
  - congruence.
  - intros (b & E1 & ->) (b' & E2 & ->). congruence.
  - intros (a & b & La & Gb & ->) (a' & b' & La' & Gb' & ->). now rewrite (least_unique _ _ _ _ _ La La'), (greatest_unique _ _ _ _ _ Gb Gb').
  - congruence.
  - intros (vs & E1 & E2) (vs' & E3 & E4). congruence.
Qed.
Theorem history_unique cls stats w os h : history cls stats w os h -> forall h', history cls stats w os h' -> h = h'.
Proof.
  intros H. induction H as [|os h bs im es H IH O|os h tag H IH]; intros h' H'.
  - inversion H' as [E|? ? ? ? ? ? ? E|? ? ? ? E]; [reflexivity|now apply app_eq_nil in E|now apply app_eq_nil in E].
  - inversion H' as [E|os' h1 bs' im' es' H1 O1 E|? ? ? ? E]; [symmetry in E; now apply app_eq_nil in E| |apply app_inj_tail in E; destruct E; discriminate].
    apply app_inj_tail in E. destruct E as [-> [= -> ->]]. f_equal; [now apply IH|]. destruct O as [L O], O1 as [L1 O1]. apply nth_error_ext'; [lia|]. intros k Hk. rewrite L in Hk.
    destruct (O k Hk) as (t1 & b1 & x1 & q1 & A1 & A2 & A3 & A4 & A5). destruct (O1 k Hk) as (t2 & b2 & x2 & q2 & B1 & B2 & B3 & B4 & B5). rewrite A1, B1. f_equal.
    assert (Et : t1 = t2). { clear - A3 B3. revert t2 B3. induction A3 as [|s v ss tg Hv A3 IHA]; intros t2 B3; inversion B3; subst; [reflexivity|]. f_equal; [eapply stat_unique; eassumption|now apply IHA]. }
    rewrite (projective_unique _ _ _ _ A4 B4), Et. f_equal. f_equal; [f_equal; congruence|]. unfold weight_value in *. destruct w; [destruct A5 as (? & ? & ?), B5 as (? & ? & ?); congruence|congruence].
  - inversion H' as [E|? ? ? ? ? ? ? E|os' h1 tag' H1 E]; [symmetry in E; now apply app_eq_nil in E|apply app_inj_tail in E; destruct E; discriminate|].
    apply app_inj_tail in E. destruct E as [-> [= ->]]. f_equal. now apply IH.
Qed.

(** ** no call fails *)
Lemma foldM_total {S X} (f : S -> X -> res S) (P : S -> Prop) l : (forall s x, P s -> In x l -> exists s', f s x = Ok s' /\ P s') -> forall s, P s -> exists s', foldM f l s = Ok s' /\ P s'.
Proof.
  induction l as [|x l IH]; intros H s Hs; cbn [foldM]; [eauto|]. destruct (H s x Hs (or_introl eq_refl)) as [s1 [E1 H1]]. rewrite E1. cbn [bind]. apply IH; [|exact H1]. intros s2 y H2 Hy. apply H; [exact H2|now right].
Qed.
(** the batch is as add_braids_images expects it, and the supplied statistics and weights succeed on it *)
Definition add_ok (stats : list stat) (w : option (list nfobj -> parr -> res (list Q))) (o : op) : Prop :=
  match o with
  | Add bs im => apre im = [length bs] /\ aD im <> 0 /\ all_nonzero im /\
      (forall f, In (OtherStat f) stats -> exists vs, f bs im = Ok vs /\ length bs <= length vs) /\
      (forall f, w = Some f -> exists ws, f bs im = Ok ws /\ length bs <= length ws)
  | Discard _ => True
  end.
Lemma total_weight_pos L : (forall x, In x L -> (0 < iweight x)%Q) -> L <> [] -> (0 < total_weight L)%Q.
Proof.
  intros H N. unfold total_weight. assert (G : forall l s, (0 <= s)%Q -> (forall x, In x l -> (0 < iweight x)%Q) -> (s <= fold_left (fun s x => (s + iweight x)%Q) l s)%Q).
  { clear. induction l as [|x l IH]; intros s Hs Hl; cbn [fold_left]; [apply Qle_refl|]. pose proof (Hl x (or_introl eq_refl)) as Hx.
    apply Qle_trans with (s + iweight x)%Q; [rewrite <- (Qplus_0_r s) at 1; apply Qplus_le_compat; [apply Qle_refl|now apply Qlt_le_weak]|]. apply IH; [|intros; apply Hl; now right].
    rewrite <- (Qplus_0_r 0). apply Qplus_le_compat; [exact Hs|now apply Qlt_le_weak]. }
  destruct L as [|x L]; [contradiction|]. cbn [fold_left]. pose proof (H x (or_introl eq_refl)) as Hx. apply Qlt_le_trans with (0 + iweight x)%Q; [now rewrite Qplus_0_l|]. apply G; [rewrite Qplus_0_l; now apply Qlt_le_weak|]. intros; apply H; now right.
Qed.
Theorem C69_total cls rnd rint cap stats m w I J t os : 1 <= cap -> existsb is_length stats = true -> existsb is_projlen stats = true ->
  Forall (op_ok I J t) os -> Forall (add_ok stats w) os ->
  (m = AChao -> forall bs im i q, In (Add bs im) os -> i < length bs -> weight_value w bs im i q -> (0 < q)%Q) ->
  exists tr, new_run cls rnd rint cap stats m w os = Ok tr.
Proof.
  intros Hc E1 E2 F FA HW. unfold new_run, tracker_init. rewrite E1, E2. cbn [assert_ bind]. unfold run_ops.
  set (pos := fun h : list (event (list Z)) => m = AChao -> forall tag x, In (Offered tag x) h -> (0 < iweight x)%Q).
  destruct (foldM_total (apply_op cls rnd rint) (fun tr => exists h, tr_ok cap stats m w I J t tr h /\ pos h) os) with (s := mkT cap stats m w [] 0) as [tr [E _]]; [| |now exists tr].
  2: { exists []. split; [repeat (split; [reflexivity|]); intros tag; reflexivity|]. intros _ tag x []. }
  intros tr0 o [h [TO PO]] Ho. rewrite Forall_forall in F, FA. specialize (F o Ho). specialize (FA o Ho). destruct o as [bs im|tag]; cbn [apply_op].
  - destruct F as (W & D1 & D2 & D3). destruct FA as (P & HD & NZ & HS & HWt). destruct TO as (T1 & T2 & T3 & T4 & TB).
    destruct (add_total cls rnd rint tr0 bs im W P HD NZ) as [es [OF EQ]]; [now rewrite T2|now rewrite T4|]. rewrite EQ. rewrite T2, T4 in OF.
    pose proof (offers_ok cls stats w I J t E2 bs im es W D1 D2 D3 OF) as FE.
    assert (PE : m = AChao -> forall e, In e es -> (0 < iweight (snd e))%Q).
    { intros Em e He. destruct OF as [L O]. rewrite map_length in L. apply In_nth_error in He. destruct He as [i Hi]. assert (Li : i < length bs) by (rewrite <- L; apply nth_error_Some; congruence).
      destruct (O i Li) as (tg & b & x & q & A1 & A2 & A3 & A4 & A5). rewrite nth_error_map, Hi in A1. cbn in A1. destruct e as [tg' x']. cbn in A1. injection A1 as -> ->. cbn. eapply HW; eauto. }
    clear EQ OF. revert tr0 h T1 T2 T3 T4 TB PO FE PE. clear - Hc E2. induction es as [|e es IH]; intros tr0 h T1 T2 T3 T4 TB PO FE PE; cbn [foldM].
    + exists tr0. split; [reflexivity|]. exists h. split; [now repeat (split; [assumption|])|exact PO].
    + inversion FE as [|? ? Fe FE']; subst. assert (TO : tr_ok (tr_capacity tr0) (tr_stats tr0) (tr_method tr0) (tr_weight tr0) I J t tr0 h) by now repeat (split; [reflexivity|]).
      assert (EX : exists tr1, offer_ev rnd rint tr0 e = Ok tr1).
      { destruct e as [tag x]. unfold offer_ev, offer. cbn [fst snd] in *. pose proof (TB tag) as Ht.
        set (bs := match dget tag_eqb (tr_buckets tr0) tag with Some _ => _ | None => _ end).
        assert (K : exists b items, dget tag_eqb bs tag = Some b /\ binv (tr_capacity tr0) tag I J (span_of (tr_stats tr0) tag) t b items /\ hinv_of (tr_method tr0) (b_heap b) items /\ b_weight b = total_weight (since tagdec tag h)).
        { unfold bs. destruct (dget tag_eqb (tr_buckets tr0) tag) as [b|] eqn:G.
          - destruct Ht as [_ (items & B & Hi & Hl & C & Wt)]. exists b, items. auto.
          - exists (bucket_create tag (tr_capacity tr0) (iimage x)), []. rewrite Ht. split; [rewrite (dget_dset _ tagdec tag_eqb_iff); now destruct (tagdec tag tag)|].
            destruct Fe as (W & P & X1 & X2 & X3 & X4). pose proof (binv_create (tr_capacity tr0) tag (iimage x)) as B. rewrite X1, X2, X3, X4 in B. split; [exact B|]. split; [intros _; split; constructor|reflexivity]. }
        destruct K as (b & items & G & B & Hi & Wt). unfold dgetE. rewrite G. cbn [bind].
        destruct (place_total rnd rint (tr_method tr0) (tr_draws tr0) (tr_capacity tr0) tag I J (span_of (tr_stats tr0) tag) t (show_reservoir b (iweight x)) items x (binv_show _ _ _ _ _ _ _ _ _ B) Hi Fe Hc) as (b' & k' & E).
        - cbn. lia.
        - intros Em. cbn [show_reservoir b_weight]. rewrite Wt. intros Z. specialize (PE Em _ (or_introl eq_refl)). cbn [snd] in PE.
          assert (Q : (0 < total_weight (since tagdec tag h ++ [x]))%Q).
          { apply total_weight_pos; [|intros Z'; now apply app_eq_nil in Z']. intros y Hy. apply in_app_iff in Hy. destruct Hy as [Hy|[<-|[]]]; [|exact PE]. eapply PO; [exact Em|]. apply since_in. exact Hy. }
          unfold total_weight in Q, Z. rewrite fold_left_app in Q. cbn [fold_left] in Q. rewrite Z in Q. now apply Qlt_irrefl in Q.
        - rewrite E. cbn [bind]. eauto. }
      destruct EX as [tr1 EX]. rewrite EX. cbn [bind].
      assert (TO1 : tr_ok (tr_capacity tr0) (tr_stats tr0) (tr_method tr0) (tr_weight tr0) I J t tr1 (h ++ [to_event e])) by (destruct e as [tag x]; now apply (offer_inv rnd rint _ _ _ _ _ _ _ tr0)).
      destruct TO1 as (U1 & U2 & U3 & U4 & UB). apply (IH tr1 (h ++ [to_event e])); auto.
      * intros Em tag x Hx. apply in_app_iff in Hx. destruct Hx as [Hx|[Hx|[]]]; [now apply (PO Em tag)|]. destruct e as [tg y]. injection Hx as _ <-. now apply (PE Em (tg, y) (or_introl eq_refl)).
      * intros Em e' He'. apply PE; [exact Em|now right].
  - destruct TO as (T1 & T2 & T3 & T4 & TB). eexists. split; [reflexivity|]. exists (h ++ [Dropped tag]). split.
    + repeat (split; [assumption|]). intros tag'. cbn [discard_bucket with_buckets tr_buckets]. rewrite (dget_ddel _ tagdec tag_eqb_iff), since_snoc. cbn [note]. destruct (tagdec tag tag'); [reflexivity|apply TB].
    + intros Em tag' x Hx. apply in_app_iff in Hx. destruct Hx as [Hx|[Hx|[]]]; [now apply (PO Em tag')|discriminate].
Qed.

(** ** a concrete history: two batches and a discard between them *)
Definition ex_batch : parr := mkA [3] 1 1 3 I64 [[0; 1; 2]%Z; [0; 5; 0]%Z; [3; 1; 0]%Z].
Definition ex_braid (k : Z) : nfobj := NFObj 3 0 [k].
Definition ex_weight : option (list nfobj -> parr -> res (list Q)) := Some (fun bs _ => Ok (map (fun b => inject_Z (nth 0 (o_factors b) 0%Z)) bs)).
Definition ex_ops : list op := [Add [ex_braid 1; ex_braid 2; ex_braid 3] ex_batch; Discard [1; 1]%Z; Add [ex_braid 4; ex_braid 2; ex_braid 2] ex_batch].
Lemma ex_batch_wf : wfa ex_batch.
Proof. split; [reflexivity|]. split; repeat constructor; cbn; lia. Qed.
Theorem C69_case : Forall (op_ok 1 1 I64) ex_ops /\ Forall (add_ok [CanonicalLength; ProjectiveLength] ex_weight) ex_ops /\
  match new_run 0 (fun _ => 0%Q) (fun _ => 0) 2 [CanonicalLength; ProjectiveLength] EvictMin ex_weight ex_ops with
  | Ok tr => map (fun '(t, b) => (t, b_braids b, b_count b)) (tr_buckets tr) = [([1; 2]%Z, [ex_braid 4; ex_braid 3], 4); ([1; 1]%Z, [ex_braid 2], 1)]
  | Err _ => False
  end.
Proof.
  assert (A : add_ok [CanonicalLength; ProjectiveLength] ex_weight (Add [ex_braid 1; ex_braid 2; ex_braid 3] ex_batch) /\ add_ok [CanonicalLength; ProjectiveLength] ex_weight (Add [ex_braid 4; ex_braid 2; ex_braid 2] ex_batch)).
  { assert (NZ : all_nonzero ex_batch). { intros idx V. apply valid_one in V. destruct V as [k [-> Hk]]. exists 0, 0, 1. split; [cbn; lia|]. split; [cbn; lia|]. destruct k as [|[|[|k]]]; [discriminate|discriminate|discriminate|lia]. }
    split; (split; [reflexivity|]; split; [discriminate|]; split; [exact NZ|]; split; [intros f [H|[H|[]]]; discriminate|intros f [= <-]; eexists; split; [reflexivity|]; cbn; lia]). }
  split; [|split]; [| |vm_compute; reflexivity].
  - constructor; [split; [apply ex_batch_wf|auto]|]. constructor; [exact Logic.I|]. constructor; [split; [apply ex_batch_wf|auto]|constructor].
  - constructor; [apply A|]. constructor; [exact Logic.I|]. constructor; [apply A|constructor].
Qed.
(** with capacity 0, and with AChao when all weights are zero, an addition fails *)
Theorem C69_capacity_zero_refuted : let add m w := new_run 0 (fun _ => 0%Q) (fun _ => 0) 0 [CanonicalLength; ProjectiveLength] m w [Add [ex_braid 1; ex_braid 2; ex_braid 3] ex_batch] in
  add Uniform None = Err ValueError /\ add AChao None = Err ValueError /\ add EvictMin None = Err IndexError.
Proof. repeat split; vm_compute; reflexivity. Qed.
Theorem C69_zero_weight_refuted :
  new_run 0 (fun _ => 0%Q) (fun _ => 0) 1 [CanonicalLength; ProjectiveLength] AChao (Some (fun bs _ => Ok (map (fun _ => 0%Q) bs))) [Add [ex_braid 1; ex_braid 2; ex_braid 3] ex_batch] = Err ZeroDivisionError.
Proof. vm_compute. reflexivity. Qed.
