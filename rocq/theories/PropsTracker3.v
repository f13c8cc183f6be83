(** PropsTracker3.v – C72 for bucketing.Tracker with the Uniform method. *)
From Verif Require Import Base ModelPerm ModelBraid ModelPoly ModelMatrix ModelPolymat SpecPolymat PolymatTheory PropsPolymat PropsPolymat2 ModelPolyRep ModelTracker SpecTracker TrackerTheory TrackerRun PropsTracker TrackerRun2 SampleTheory PropsTracker2.
From Coq Require Import QArith Permutation.
Local Open Scope nat_scope.
Local Arguments Nat.ltb : simpl never.
Local Arguments Nat.leb : simpl never.

Definition ratio (a b : nat) : Q := (inject_Z (Z.of_nat a) / inject_Z (Z.of_nat b))%Q.
Section USim.
Variables (rnd : nat -> Q) (rint : nat -> nat) (cap : nat).
Definition uplace (k : nat) (L items : list item) (x : item) : list item :=
  if cap <=? length L then if Qle_bool (rnd k) (ratio cap (length L + 1)) then upd items (rint (k + 1) mod cap) x else items else items ++ [x].
Definition usim : Type := list (event (list Z)) * nat * (list Z -> list item).
Definition usim_step (s : usim) (e : event (list Z)) : usim :=
  let '(h, k, f) := s in
  match e with
  | Dropped t => (h ++ [e], k, fun t' => if tagdec t t' then [] else f t')
  | Offered t x => let L := since tagdec t h in (h ++ [e], if cap <=? length L then k + 2 else k, fun t' => if tagdec t t' then uplace k L (f t) x else f t')
  end.
Definition usim_of (h : list (event (list Z))) : usim := fold_left usim_step h ([], 0, fun _ => []).
Definition udraws (h : list (event (list Z))) : nat := snd (fst (usim_of h)).
Definition uheld (tag : list Z) (h : list (event (list Z))) : list item := snd (usim_of h) tag.
Lemma usim_hist h : fst (fst (usim_of h)) = h.
Proof.
  induction h as [|e h IH] using rev_ind; [reflexivity|]. unfold usim_of in *. rewrite fold_left_app. cbn [fold_left]. destruct (fold_left usim_step h _) as [[h' k] f]. cbn in IH. subst h'. destruct e; reflexivity.
Qed.
Lemma udraws_snoc h e : udraws (h ++ [e]) = match e with Offered t _ => if cap <=? length (since tagdec t h) then udraws h + 2 else udraws h | Dropped _ => udraws h end.
Proof.
  unfold udraws, usim_of. rewrite fold_left_app. cbn [fold_left]. pose proof (usim_hist h) as E. unfold usim_of in E. destruct (fold_left usim_step h _) as [[h' k] f]. cbn in E. subst h'. destruct e; reflexivity.
Qed.
Lemma uheld_snoc tag h e : uheld tag (h ++ [e]) = match e with
  | Offered t x => if tagdec t tag then uplace (udraws h) (since tagdec t h) (uheld t h) x else uheld tag h
  | Dropped t => if tagdec t tag then [] else uheld tag h end.
Proof.
  unfold uheld, udraws, usim_of. rewrite fold_left_app. cbn [fold_left]. pose proof (usim_hist h) as E. unfold usim_of in E. destruct (fold_left usim_step h _) as [[h' k] f]. cbn in E. subst h'. destruct e; reflexivity.
Qed.
Lemma uheld_len tag h : length (uheld tag h) = Nat.min cap (length (since tagdec tag h)).
Proof.
  induction h as [|e h IH] using rev_ind; [cbn; lia|]. rewrite since_snoc, uheld_snoc. destruct e as [t x|t]; cbn [note]; destruct (tagdec t tag) as [->|N]; try exact IH; [|cbn; lia].
  unfold uplace. rewrite app_length. cbn [length]. destruct (Nat.leb_spec cap (length (since tagdec tag h))).
  - destruct (Qle_bool _ _); rewrite ?upd_length; lia.
  - rewrite app_length. cbn [length]. lia.
Qed.

Variables (stats : list stat) (w : option (list nfobj -> parr -> res (list Q))) (I J : nat) (t : dtype).
Hypothesis Hcap : 1 <= cap.
Definition u_ok (tr : tracker) (h : list (event (list Z))) : Prop :=
  tr_capacity tr = cap /\ tr_stats tr = stats /\ tr_method tr = Uniform /\ tr_weight tr = w /\ tr_draws tr = udraws h /\
  forall tag, match dget tag_eqb (tr_buckets tr) tag with
    | None => since tagdec tag h = []
    | Some b => since tagdec tag h <> [] /\ binv cap tag I J (span_of stats tag) t b (uheld tag h) /\ b_count b = length (since tagdec tag h)
    end.
Lemma u_offer_ok tr h e : u_ok tr h -> iok I J (span_of stats (fst e)) t (snd e) -> exists tr', offer_ev rnd rint tr e = Ok tr' /\ u_ok tr' (h ++ [to_event e]).
Proof.
  destruct e as [tag x]. cbn [fst snd]. intros (E1 & E2 & E3 & E4 & E5 & HB) X. unfold offer_ev, offer. cbn [fst snd].
  set (bs := match dget tag_eqb (tr_buckets tr) tag with Some _ => _ | None => _ end).
  assert (K : exists b, dget tag_eqb bs tag = Some b /\ binv cap tag I J (span_of stats tag) t b (uheld tag h) /\ b_count b = length (since tagdec tag h) /\ forall tag', tag <> tag' -> dget tag_eqb bs tag' = dget tag_eqb (tr_buckets tr) tag').
  { unfold bs. pose proof (HB tag) as Ht. destruct (dget tag_eqb (tr_buckets tr) tag) as [b|] eqn:G.
    - destruct Ht as (_ & B & C). exists b. auto.
    - exists (bucket_create tag (tr_capacity tr) (iimage x)). assert (HE : uheld tag h = []) by (apply length_zero_iff_nil; rewrite uheld_len, Ht; cbn; lia). rewrite Ht, HE. split; [rewrite (dget_dset _ tagdec tag_eqb_iff); now destruct (tagdec tag tag)|].
      destruct X as (W & P & X1 & X2 & X3 & X4). rewrite E1. pose proof (binv_create cap tag (iimage x)) as B. rewrite X1, X2, X3, X4 in B. split; [exact B|]. split; [reflexivity|].
      intros tag' N. rewrite (dget_dset _ tagdec tag_eqb_iff). now destruct (tagdec tag tag'). }
  destruct K as (b & G & B & C & OT). unfold dgetE. rewrite G. cbn [bind]. rewrite E3. pose proof (binv_show _ _ _ _ _ _ _ _ (iweight x) B) as B'. pose proof (uheld_len tag h) as UL.
  assert (DONE : forall b' k', binv cap tag I J (span_of stats tag) t b' (uplace (udraws h) (since tagdec tag h) (uheld tag h) x) -> b_count b' = b_count (show_reservoir b (iweight x)) -> k' = (if cap <=? length (since tagdec tag h) then udraws h + 2 else udraws h) ->
      u_ok (with_buckets tr (dset tag_eqb bs tag b') k') (h ++ [Offered tag x])).
  { intros b' k' B1 C1 Ek. split; [exact E1|]. split; [exact E2|]. split; [exact E3|]. split; [exact E4|]. split; [cbn [with_buckets tr_draws]; rewrite udraws_snoc; exact Ek|].
    intros tag'. cbn [with_buckets tr_buckets]. rewrite (dget_dset _ tagdec tag_eqb_iff), since_snoc, uheld_snoc. cbn [note]. destruct (tagdec tag tag') as [<-|N].
    - split; [intros Z; now apply app_eq_nil in Z|]. split; [exact B1|]. rewrite C1. cbn [show_reservoir b_count]. rewrite C, app_length. cbn. lia.
    - rewrite OT by exact N. apply HB. }
  unfold place. assert (Fu : b_is_full (show_reservoir b (iweight x)) = (length (uheld tag h) =? cap)) by (unfold b_is_full; now rewrite (bi_braids _ _ _ _ _ _ _ _ B'), map_length, (bi_cap _ _ _ _ _ _ _ _ B')). rewrite Fu.
  assert (CN : b_count (show_reservoir b (iweight x)) = length (since tagdec tag h) + 1) by (cbn [show_reservoir b_count]; lia).
  destruct (Nat.eqb_spec (length (uheld tag h)) cap) as [Ec|Nc]; cbn [negb].
  - assert (LF : (cap <=? length (since tagdec tag h)) = true) by (apply Nat.leb_le; lia). rewrite CN. rewrite (proj2 (Nat.eqb_neq _ _)) by lia. rewrite (bi_cap _ _ _ _ _ _ _ _ B'). fold (ratio cap (length (since tagdec tag h) + 1)). rewrite E5.
    destruct (Qle_bool (rnd (udraws h)) (ratio cap (length (since tagdec tag h) + 1))) eqn:Q.
    + unfold randrange. rewrite (proj2 (Nat.eqb_neq _ _)) by lia. cbn [bind]. destruct (replace_inv _ _ _ _ _ _ _ _ x (rint (udraws h + 1) mod cap) B' X) as (b2 & R1 & R2 & R3 & _); [rewrite Ec; apply Nat.mod_upper_bound; lia|].
      rewrite R1. cbn [bind]. eexists. split; [reflexivity|]. apply DONE; [|exact R3|now rewrite LF]. unfold uplace. rewrite LF, Q. exact R2.
    + cbn [bind]. eexists. split; [reflexivity|]. apply DONE; [|reflexivity|now rewrite LF]. unfold uplace. rewrite LF, Q. exact B'.
  - assert (LT : length (uheld tag h) < cap) by (pose proof (bi_len _ _ _ _ _ _ _ _ B); lia). assert (LF : (cap <=? length (since tagdec tag h)) = false) by (apply Nat.leb_gt; lia).
    destruct (append_inv _ _ _ _ _ _ _ _ x B' X LT) as (b2 & R1 & R2 & R3 & _). rewrite R1. cbn [bind]. eexists. split; [reflexivity|]. apply DONE; [|exact R3|now rewrite LF]. unfold uplace. rewrite LF. exact R2.
Qed.
Lemma u_offers_ok es : forall tr h, u_ok tr h -> Forall (fun e => iok I J (span_of stats (fst e)) t (snd e)) es -> exists tr', foldM (offer_ev rnd rint) es tr = Ok tr' /\ u_ok tr' (h ++ map to_event es).
Proof.
  induction es as [|e es IH]; intros tr h U F; cbn [foldM map]; [exists tr; now rewrite app_nil_r|]. inversion F as [|? ? Fe F']; subst. destruct (u_offer_ok tr h e U Fe) as (tr1 & E & U1). rewrite E. cbn [bind].
  destruct (IH tr1 _ U1 F') as (tr2 & E2 & U2). exists tr2. split; [exact E2|]. now rewrite <- app_assoc in U2.
Qed.
Variable cls : Z.
Hypothesis (SL : existsb is_length stats = true) (SP : existsb is_projlen stats = true).
Lemma u_run os : Forall (op_ok I J t) os -> Forall (add_ok stats w) os -> exists tr h, new_run cls rnd rint cap stats Uniform w os = Ok tr /\ history cls stats w os h /\ u_ok tr h.
Proof.
  intros F FA. unfold new_run, tracker_init. rewrite SL, SP. cbn [assert_ bind]. induction os as [|o os IH] using rev_ind.
  - do 2 eexists. split; [reflexivity|]. split; [constructor|]. repeat (split; [reflexivity|]). intros tag. reflexivity.
  - apply Forall_app in F, FA. destruct F as [F Fo], FA as [FA Fa]. inversion Fo; inversion Fa; subst. destruct (IH F FA) as (tr & h & E & HH & U). unfold run_ops in *. rewrite foldM_app, E. cbn [bind foldM]. destruct o as [bs im|tag]; cbn [apply_op].
    + destruct H1 as (W & D1 & D2 & D3). destruct H5 as (P & HD & NZ & HS & HWt). pose proof U as (T1 & T2 & T3 & T4 & _). destruct (add_total cls rnd rint tr bs im W P HD NZ) as (es & OF & EQ); [now rewrite T2|now rewrite T4|]. rewrite EQ. rewrite T2, T4 in OF.
      destruct (u_offers_ok es tr h U (offers_ok cls stats w I J t SP bs im es W D1 D2 D3 OF)) as (tr' & E' & U'). rewrite E'. cbn [bind]. do 2 eexists. split; [reflexivity|]. split; [now constructor; [exact HH|exact OF]|exact U'].
    + do 2 eexists. split; [reflexivity|]. split; [constructor; exact HH|]. destruct U as (T1 & T2 & T3 & T4 & T5 & TB). repeat (split; [assumption|]). split; [rewrite udraws_snoc; exact T5|].
      intros tag'. cbn [discard_bucket with_buckets tr_buckets]. rewrite (dget_ddel _ tagdec tag_eqb_iff), since_snoc, uheld_snoc. cbn [note]. destruct (tagdec tag tag'); [reflexivity|apply TB].
Qed.
End USim.

Definition udecide (cap : nat) (t : nat) (d : Q * nat) : option nat := if Qle_bool (fst d) (ratio cap t) then Some (snd d) else None.
Lemma udraws_indep rnd rint rnd' rint' cap h : udraws rnd rint cap h = udraws rnd' rint' cap h.
Proof. induction h as [|e h IH] using rev_ind; [reflexivity|]. rewrite !udraws_snoc, IH. reflexivity. Qed.
Definition udrawn (rnd : nat -> Q) (rint : nat -> nat) (cap : nat) (pos : list nat) : list (Q * nat) := map (fun p => (rnd p, rint (p + 1) mod cap)) pos.
Lemma uheld_replay cap tag h : 1 <= cap ->
  exists pos, NoDup pos /\ (forall p, In p pos -> ~ In (p + 1) pos) /\ (forall p rnd rint, In p pos -> p + 2 <= udraws rnd rint cap h) /\ length pos = length (since tagdec tag h) - cap /\
    forall rnd rint, uheld rnd rint cap tag h = replay (udecide cap) (S cap) (firstn cap (since tagdec tag h)) (skipn cap (since tagdec tag h)) (udrawn rnd rint cap pos).
Proof.
  intros Hs. induction h as [|e h IH] using rev_ind.
  - exists []. split; [constructor|]. split; [intros p []|]. split; [intros p rnd rint []|]. split; [reflexivity|]. intros rnd rint. cbn. now rewrite firstn_nil, skipn_nil.
  - rewrite since_snoc. destruct IH as (pos & P1 & P2 & P3 & P4 & P5).
    assert (K : forall p rnd rint, In p pos -> p + 2 <= udraws rnd rint cap (h ++ [e])). { intros p rnd rint Hp. specialize (P3 p rnd rint Hp). rewrite udraws_snoc. destruct e; [destruct (_ <=? _)|]; lia. }
    destruct e as [t x|t]; cbn [note] in *; destruct (tagdec t tag) as [->|NT].
    + set (L := since tagdec tag h) in *. rewrite app_length. cbn [length]. destruct (Nat.le_gt_cases cap (length L)) as [Fu|NF].
      * exists (pos ++ [udraws (fun _ => 0%Q) (fun _ => 0) cap h]). split; [|split; [|split; [|split]]].
        -- apply NoDup_app_intro; [exact P1|constructor; [intros []|constructor]|]. intros p Hp [<-|[]]. specialize (P3 _ (fun _ => 0%Q) (fun _ => 0) Hp). lia.
        -- intros p Hp Hp1. apply in_app_iff in Hp, Hp1. destruct Hp as [Hp|[<-|[]]], Hp1 as [Hp1|[Hp1|[]]]; [now apply (P2 p)|specialize (P3 _ (fun _ => 0%Q) (fun _ => 0) Hp)|specialize (P3 _ (fun _ => 0%Q) (fun _ => 0) Hp1)|]; lia.
        -- intros p rnd rint Hp. apply in_app_iff in Hp. destruct Hp as [Hp|[<-|[]]]; [now apply K|]. rewrite udraws_snoc. fold L. rewrite (proj2 (Nat.leb_le _ _) Fu). rewrite (udraws_indep (fun _ => 0%Q) (fun _ => 0) rnd rint). lia.
        -- rewrite app_length. cbn [length]. lia.
        -- intros rnd rint. rewrite uheld_snoc. destruct (tagdec tag tag) as [_|]; [|congruence]. fold L. rewrite firstn_snoc, (proj2 (Nat.ltb_ge _ _) Fu). rewrite skipn_app. replace (cap - length L) with 0 by lia. cbn [skipn].
           unfold udrawn. rewrite map_app. cbn [map]. rewrite replay_snoc by (rewrite map_length, skipn_length; lia). unfold udrawn in P5. rewrite <- P5. unfold put, udecide, uplace. cbn [fst snd]. rewrite (proj2 (Nat.leb_le _ _) Fu). rewrite (udraws_indep (fun _ => 0%Q) (fun _ => 0) rnd rint).
           rewrite skipn_length. replace (S cap + (length L - cap)) with (length L + 1) by lia. destruct (Qle_bool _ _); reflexivity.
      * assert (pos = []) as -> by (destruct pos; [reflexivity|cbn in P4; lia]). exists []. split; [constructor|]. split; [intros p []|]. split; [intros p rnd rint []|]. split; [cbn; lia|]. intros rnd rint. rewrite uheld_snoc. destruct (tagdec tag tag) as [_|]; [|congruence]. fold L.
        specialize (P5 rnd rint). rewrite (firstn_all2 L), (skipn_all2 L) in P5 by lia. cbn [replay udrawn map] in P5. unfold uplace. rewrite (proj2 (Nat.leb_gt _ _) NF). rewrite P5.
        rewrite firstn_all2, skipn_all2 by (rewrite app_length; cbn; lia). reflexivity.
    + exists pos. split; [exact P1|]. split; [exact P2|]. split; [exact K|]. split; [exact P4|]. intros rnd rint. rewrite uheld_snoc. destruct (tagdec t tag); [contradiction|apply P5].
    + exists []. split; [constructor|]. split; [intros p []|]. split; [intros p rnd rint []|]. split; [reflexivity|]. intros rnd rint. rewrite uheld_snoc. destruct (tagdec tag tag) as [_|]; [|congruence]. now rewrite firstn_nil, skipn_nil.
    + exists pos. split; [exact P1|]. split; [exact P2|]. split; [exact K|]. split; [exact P4|]. intros rnd rint. rewrite uheld_snoc. destruct (tagdec t tag); [contradiction|apply P5].
Qed.
(** [vals] at the positions [pos], [base] elsewhere *)
Fixpoint over {X} (base : nat -> X) (pos : list nat) (vals : list X) (k : nat) : X :=
  match pos, vals with p :: ps, v :: vs => if k =? p then v else over base ps vs k | _, _ => base k end.
Lemma udrawn_over base basei cap pos : forall ws, NoDup pos -> length ws = length pos -> (forall d, In d ws -> snd d < cap) ->
  udrawn (over base pos (map fst ws)) (over basei (map S pos) (map snd ws)) cap pos = ws.
Proof.
  assert (G : forall {X} (b : nat -> X) ps vs p v, ~ In p ps -> forall qs, incl qs ps -> map (over b (p :: ps) (v :: vs)) qs = map (over b ps vs) qs).
  { intros X b ps vs p v Np qs Hq. apply map_ext_in. intros q Hin. cbn [over]. destruct (Nat.eqb_spec q p) as [->|]; [elim Np; now apply Hq|reflexivity]. }
  induction pos as [|p ps IH]; intros [|d ws] ND L H; cbn in L; try discriminate; [reflexivity|]. inversion ND as [|? ? Np ND']; subst. unfold udrawn in *. cbn [map]. f_equal.
  - cbn [over]. rewrite Nat.eqb_refl. replace (p + 1) with (S p) by lia. rewrite Nat.eqb_refl. rewrite Nat.mod_small by (apply H; now left). now destruct d.
  - transitivity (map (fun p0 => (over base ps (map fst ws) p0, over basei (map S ps) (map snd ws) (p0 + 1) mod cap)) ps); [|apply IH; auto; intros d' Hd; apply H; now right].
    apply map_ext_in. intros q Hq. f_equal.
    + cbn [over]. destruct (Nat.eqb_spec q p) as [->|]; [contradiction|reflexivity].
    + cbn [over]. destruct (Nat.eqb_spec (q + 1) (S p)) as [E|]; [|reflexivity]. assert (q = p) by lia. subst. contradiction.
Qed.
Lemma count_prod {V W} (p : V -> bool) (q : W -> bool) l l' : count (fun d => p (fst d) && q (snd d)) (list_prod l l') = count p l * count q l'.
Proof.
  induction l as [|v l IH]; cbn [list_prod]; [reflexivity|]. rewrite count_app, count_map, IH. cbn [fst snd]. replace (count p (v :: l)) with ((if p v then 1 else 0) + count p l) by (unfold count; cbn; now destruct (p v)).
  destruct (p v); cbn [andb]; [change (fun v0 => q v0) with q; lia|]. rewrite (count_false (fun _ => false)) by reflexivity. lia.
Qed.
Lemma ufair us cap t : 1 <= cap -> count (fun u => Qle_bool u (ratio cap t)) us * t = length us * cap -> fair (fun _ => list_prod us (seq 0 cap)) (udecide cap) cap t.
Proof.
  intros Hc H. exists (count (fun u => Qle_bool u (ratio cap t)) us). split; [rewrite prod_length, seq_length; lia|]. split.
  - intros i Hi. rewrite (count_ext _ (fun d => Qle_bool (fst d) (ratio cap t) && Nat.eqb i (snd d))).
    + rewrite (count_prod (fun u => Qle_bool u (ratio cap t)) (Nat.eqb i)). rewrite (count_ext (Nat.eqb i) (fun w => w =? i)) by (intros; apply Nat.eqb_sym). rewrite count_one; [lia|apply seq_NoDup|apply in_seq; lia].
    + intros d _. unfold udecide. destruct (Qle_bool (fst d) (ratio cap t)); reflexivity.
  - intros d j Hd. unfold udecide. destruct (Qle_bool _ _); [|discriminate]. intros [= <-]. destruct d as [u i]. apply in_prod_iff in Hd. destruct Hd as [_ Hd]. apply in_seq in Hd. cbn. lia.
Qed.
Definition bstored (r : res tracker) (tag : list Z) (b : nfobj) : bool :=
  match r with Ok tr => match dget tag_eqb (tr_buckets tr) tag with Some bk => if in_dec nfdec b (fst (braids_images bk)) then true else false | None => false end | Err _ => false end.
(** C72 for bucketing.Tracker(..., Uniform): if the values us of random.random() are
    distributed so that u <= cap/s has probability exactly cap/s, and randrange is
    uniform, every one of the N distinct pairs is stored with probability cap/N,
    whatever the other draws (base, basei) are. *)
Theorem C72_bucketing_partial cls cap stats w I J t os h tag x us : 1 <= cap -> existsb is_length stats = true -> existsb is_projlen stats = true ->
  Forall (op_ok I J t) os -> Forall (add_ok stats w) os -> history cls stats w os h ->
  NoDup (map ibraid (since tagdec tag h)) -> cap <= length (since tagdec tag h) -> In x (since tagdec tag h) ->
  let N := length (since tagdec tag h) in
  (forall s, cap < s <= N -> count (fun u => Qle_bool u (ratio cap s)) us * s = length us * cap) ->
  exists pos, NoDup pos /\ length pos = N - cap /\
    forall base basei, let draws := sequences (fun _ => list_prod us (seq 0 cap)) (S cap) (N - cap) in
      count (fun ws => bstored (new_run cls (over base pos (map fst ws)) (over basei (map S pos) (map snd ws)) cap stats Uniform w os) tag (ibraid x)) draws * N = length draws * cap.
Proof.
  intros Hc SL SP F FA HH ND HN Hx N HU. destruct (uheld_replay cap tag h Hc) as (pos & P1 & _ & _ & P4 & P5). exists pos. split; [exact P1|]. split; [exact P4|]. intros base basei draws. set (L := since tagdec tag h) in *.
  pose proof (replay_uniform (fun _ => list_prod us (seq 0 cap)) nfdec (udecide cap) cap (map ibraid (firstn cap L)) (map ibraid (skipn cap L)) Hc) as RU.
  rewrite map_length, firstn_length, map_length, skipn_length, <- map_app, firstn_skipn in RU. specialize (RU ltac:(lia) ND (fun t Ht => ufair us cap t Hc (HU t ltac:(unfold N; lia))) (ibraid x) (in_map ibraid _ _ Hx)).
  fold N in RU. replace (cap + (N - cap)) with N in RU by lia. fold draws in RU. rewrite <- RU. f_equal. apply count_ext. intros ws Hj. apply in_sequences in Hj. destruct Hj as [Lj Hj].
  destruct (u_run (over base pos (map fst ws)) (over basei (map S pos) (map snd ws)) cap stats w I J t Hc cls SL SP os F FA) as (tr & h' & Es & HH' & (_ & _ & _ & _ & _ & TB)). rewrite Es.
  rewrite (history_unique _ _ _ _ _ HH' _ HH) in TB. specialize (TB tag). fold L in TB. unfold bstored. destruct (dget tag_eqb (tr_buckets tr) tag) as [b|]; [|rewrite TB in Hx; destruct Hx].
  destruct TB as (_ & B & _). unfold braids_images. cbn [fst]. rewrite (bi_braids _ _ _ _ _ _ _ _ B), P5. fold L. rewrite replay_map. rewrite udrawn_over; [reflexivity|exact P1|unfold N in Lj; lia|]. intros d Hd. apply In_nth_error in Hd. destruct Hd as [i Hi]. specialize (Hj i d Hi). destruct d as [u k]. apply in_prod_iff in Hj. destruct Hj as [_ Hj]. apply in_seq in Hj. cbn. lia.
Qed.
(** such values exist: the midpoints of M intervals, if M is a multiple of s *)
Definition midpoints (M : nat) : list Q := map (fun a => Qmake (Z.of_nat (2 * a + 1)) (Pos.of_nat (2 * M))) (seq 0 M).
Definition grid (M : nat) : list Q := map (fun a => Qmake (Z.of_nat a) (Pos.of_nat M)) (seq 0 M).
Lemma qle_ratio a m c s : 1 <= m -> 1 <= s -> Qle_bool (Qmake (Z.of_nat a) (Pos.of_nat m)) (ratio c s) = (a * s <=? c * m).
Proof.
  intros Hm Hs. apply eq_true_iff_eq. rewrite Qle_bool_iff, Nat.leb_le. unfold ratio. assert (E : (inject_Z (Z.of_nat c) / inject_Z (Z.of_nat s) == Qmake (Z.of_nat c) (Pos.of_nat s))%Q).
  { unfold Qdiv, Qmult, Qinv, inject_Z, Qeq. destruct (Z.of_nat s) as [|p|p] eqn:Es; cbn [Qnum Qden]; try lia. assert (Pos.of_nat s = p) as -> by (apply Pos2Nat.inj; rewrite Nat2Pos.id by lia; lia). rewrite Z.mul_1_r, Pos.mul_1_l. reflexivity. }
  rewrite E. unfold Qle. cbn [Qnum Qden]. rewrite <- !positive_nat_Z, !Nat2Pos.id by lia. rewrite <- !Nat2Z.inj_mul, <- Nat2Z.inj_le. tauto.
Qed.
Lemma count_below m k : k <= m -> count (fun a => a <? k) (seq 0 m) = k.
Proof.
  intros H. replace m with (k + (m - k)) by lia. rewrite seq_app, count_app. rewrite count_true by (intros a Ha; apply in_seq in Ha; apply Nat.ltb_lt; lia). rewrite count_false by (intros a Ha; apply in_seq in Ha; apply Nat.ltb_ge; lia). rewrite seq_length. lia.
Qed.
Theorem C72_midpoints M cap s q : 1 <= s -> M = q * s -> 1 <= q -> cap <= s -> count (fun u => Qle_bool u (ratio cap s)) (midpoints M) * s = length (midpoints M) * cap.
Proof.
  intros Hs -> Hq Hc. unfold midpoints. rewrite map_length, seq_length, count_map. rewrite (count_ext _ (fun a => a <? q * cap)).
  - rewrite count_below by nia. nia.
  - intros a _. rewrite qle_ratio by nia. apply eq_true_iff_eq. rewrite Nat.leb_le, Nat.ltb_lt. split; intros; nia.
Qed.
(** random.random() takes the values a/M, 0 <= a < M = 2^53: u <= cap/s is then too
    likely by 1/M when s divides M *)
Theorem C72_grid_refuted M cap s q : 1 <= s -> M = q * s -> 1 <= q -> cap < s -> count (fun u => Qle_bool u (ratio cap s)) (grid M) * s = length (grid M) * cap + s.
Proof.
  intros Hs -> Hq Hc. unfold grid. rewrite map_length, seq_length, count_map. rewrite (count_ext _ (fun a => a <? q * cap + 1)).
  - rewrite count_below by nia. nia.
  - intros a _. rewrite qle_ratio by nia. apply eq_true_iff_eq. rewrite Nat.leb_le, Nat.ltb_lt. split; intros; nia.
Qed.
(** with capacity 1 and two offers (here with M = 8 values) the second pair is stored
    in 5 of 8 cases *)
Theorem C72_uniform_refuted : let stats := [CanonicalLength; ProjectiveLength] in let os := [Add [ex_braid 1; ex_braid 2; ex_braid 3] ex_images] in
  count (fun u => bstored (new_run 0 (fun _ => u) (fun _ => 0) 1 stats Uniform None os) [1; 2]%Z (ex_braid 3)) (grid 8) = 5.
Proof. vm_compute. reflexivity. Qed.
