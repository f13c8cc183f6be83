(** PropsTracker4.v – C102: the chances of bucketing.Tracker with the AChao method. *)
From Verif Require Import Base ModelPerm ModelBraid ModelPoly ModelMatrix ModelPolymat SpecPolymat PolymatTheory PropsPolymat PropsPolymat2 ModelPolyRep ModelTracker SpecTracker TrackerTheory TrackerRun PropsTracker TrackerRun2 SampleTheory PropsTracker2 PropsTracker3.
From Coq Require Import QArith Permutation.
Local Open Scope nat_scope.
Local Arguments Nat.ltb : simpl never.
Local Arguments Nat.leb : simpl never.

Section CSim.
Variables (rnd : nat -> Q) (rint : nat -> nat) (cap : nat).
Definition cplace (k : nat) (L items : list item) (x : item) : list item :=
  if cap <=? length L then if Qle_bool (rnd k) (iweight x / total_weight (L ++ [x]))%Q then upd items (rint (k + 1) mod cap) x else items else items ++ [x].
Definition csim : Type := list (event (list Z)) * nat * (list Z -> list item).
Definition csim_step (s : csim) (e : event (list Z)) : csim :=
  let '(h, k, f) := s in
  match e with
  | Dropped t => (h ++ [e], k, fun t' => if tagdec t t' then [] else f t')
  | Offered t x => let L := since tagdec t h in (h ++ [e], if cap <=? length L then k + 2 else k, fun t' => if tagdec t t' then cplace k L (f t) x else f t')
  end.
Definition csim_of (h : list (event (list Z))) : csim := fold_left csim_step h ([], 0, fun _ => []).
Definition cdraws (h : list (event (list Z))) : nat := snd (fst (csim_of h)).
Definition cheld (tag : list Z) (h : list (event (list Z))) : list item := snd (csim_of h) tag.
Lemma csim_hist h : fst (fst (csim_of h)) = h.
Proof.
  induction h as [|e h IH] using rev_ind; [reflexivity|]. unfold csim_of in *. rewrite fold_left_app. cbn [fold_left]. destruct (fold_left csim_step h _) as [[h' k] f]. cbn in IH. subst h'. destruct e; reflexivity.
Qed.
Lemma cdraws_snoc h e : cdraws (h ++ [e]) = match e with Offered t _ => if cap <=? length (since tagdec t h) then cdraws h + 2 else cdraws h | Dropped _ => cdraws h end.
Proof.
  unfold cdraws, csim_of. rewrite fold_left_app. cbn [fold_left]. pose proof (csim_hist h) as E. unfold csim_of in E. destruct (fold_left csim_step h _) as [[h' k] f]. cbn in E. subst h'. destruct e; reflexivity.
Qed.
Lemma cheld_snoc tag h e : cheld tag (h ++ [e]) = match e with
  | Offered t x => if tagdec t tag then cplace (cdraws h) (since tagdec t h) (cheld t h) x else cheld tag h
  | Dropped t => if tagdec t tag then [] else cheld tag h end.
Proof.
  unfold cheld, cdraws, csim_of. rewrite fold_left_app. cbn [fold_left]. pose proof (csim_hist h) as E. unfold csim_of in E. destruct (fold_left csim_step h _) as [[h' k] f]. cbn in E. subst h'. destruct e; reflexivity.
Qed.
Lemma cheld_len tag h : length (cheld tag h) = Nat.min cap (length (since tagdec tag h)).
Proof.
  induction h as [|e h IH] using rev_ind; [cbn; lia|]. rewrite since_snoc, cheld_snoc. destruct e as [t x|t]; cbn [note]; destruct (tagdec t tag) as [->|N]; try exact IH; [|cbn; lia].
  unfold cplace. rewrite app_length. cbn [length]. destruct (Nat.leb_spec cap (length (since tagdec tag h))).
  - destruct (Qle_bool _ _); rewrite ?upd_length; lia.
  - rewrite app_length. cbn [length]. lia.
Qed.

Variables (stats : list stat) (w : option (list nfobj -> parr -> res (list Q))) (I J : nat) (t : dtype).
Hypothesis Hcap : 1 <= cap.
Definition c_ok (tr : tracker) (h : list (event (list Z))) : Prop :=
  tr_capacity tr = cap /\ tr_stats tr = stats /\ tr_method tr = AChao /\ tr_weight tr = w /\ tr_draws tr = cdraws h /\
  forall tag, match dget tag_eqb (tr_buckets tr) tag with
    | None => since tagdec tag h = []
    | Some b => since tagdec tag h <> [] /\ binv cap tag I J (span_of stats tag) t b (cheld tag h) /\ b_count b = length (since tagdec tag h) /\ b_weight b = total_weight (since tagdec tag h)
    end.
Definition positive (h : list (event (list Z))) : Prop := forall tag x, In (Offered tag x) h -> (0 < iweight x)%Q.
Lemma positive_app h h' : positive (h ++ h') -> positive h.
Proof. intros P tag x H. apply (P tag x), in_app_iff. now left. Qed.
Lemma c_offer_ok tr h e : c_ok tr h -> positive (h ++ [to_event e]) -> iok I J (span_of stats (fst e)) t (snd e) -> exists tr', offer_ev rnd rint tr e = Ok tr' /\ c_ok tr' (h ++ [to_event e]).
Proof.
  destruct e as [tag x]. cbn [fst snd]. intros (E1 & E2 & E3 & E4 & E5 & HB) PO X. unfold offer_ev, offer. cbn [fst snd].
  set (bs := match dget tag_eqb (tr_buckets tr) tag with Some _ => _ | None => _ end).
  assert (K : exists b, dget tag_eqb bs tag = Some b /\ binv cap tag I J (span_of stats tag) t b (cheld tag h) /\ b_count b = length (since tagdec tag h) /\ b_weight b = total_weight (since tagdec tag h) /\ forall tag', tag <> tag' -> dget tag_eqb bs tag' = dget tag_eqb (tr_buckets tr) tag').
  { unfold bs. pose proof (HB tag) as Ht. destruct (dget tag_eqb (tr_buckets tr) tag) as [b|] eqn:G.
    - destruct Ht as (_ & B & C & Cw). exists b. auto.
    - exists (bucket_create tag (tr_capacity tr) (iimage x)). assert (HE : cheld tag h = []) by (apply length_zero_iff_nil; rewrite cheld_len, Ht; cbn; lia). rewrite Ht, HE. split; [rewrite (dget_dset _ tagdec tag_eqb_iff); now destruct (tagdec tag tag)|].
      destruct X as (W & P & X1 & X2 & X3 & X4). rewrite E1. pose proof (binv_create cap tag (iimage x)) as B. rewrite X1, X2, X3, X4 in B. split; [exact B|]. split; [reflexivity|]. split; [reflexivity|].
      intros tag' N. rewrite (dget_dset _ tagdec tag_eqb_iff). now destruct (tagdec tag tag'). }
  destruct K as (b & G & B & C & Cw & OT). unfold dgetE. rewrite G. cbn [bind]. rewrite E3. pose proof (binv_show _ _ _ _ _ _ _ _ (iweight x) B) as B'. pose proof (cheld_len tag h) as UL.
  assert (DONE : forall b' k', binv cap tag I J (span_of stats tag) t b' (cplace (cdraws h) (since tagdec tag h) (cheld tag h) x) -> b_count b' = b_count (show_reservoir b (iweight x)) -> b_weight b' = b_weight (show_reservoir b (iweight x)) -> k' = (if cap <=? length (since tagdec tag h) then cdraws h + 2 else cdraws h) ->
      c_ok (with_buckets tr (dset tag_eqb bs tag b') k') (h ++ [Offered tag x])).
  { intros b' k' B1 C1 W1 Ek. split; [exact E1|]. split; [exact E2|]. split; [exact E3|]. split; [exact E4|]. split; [cbn [with_buckets tr_draws]; rewrite cdraws_snoc; exact Ek|].
    intros tag'. cbn [with_buckets tr_buckets]. rewrite (dget_dset _ tagdec tag_eqb_iff), since_snoc, cheld_snoc. cbn [note]. destruct (tagdec tag tag') as [<-|N].
    - split; [intros Z; now apply app_eq_nil in Z|]. split; [exact B1|]. rewrite C1, W1. cbn [show_reservoir b_count b_weight]. rewrite C, Cw, app_length. split; [cbn; lia|]. unfold total_weight. now rewrite fold_left_app.
    - rewrite OT by exact N. apply HB. }
  unfold place. assert (Fu : b_is_full (show_reservoir b (iweight x)) = (length (cheld tag h) =? cap)) by (unfold b_is_full; now rewrite (bi_braids _ _ _ _ _ _ _ _ B'), map_length, (bi_cap _ _ _ _ _ _ _ _ B')). rewrite Fu.
  assert (CN : b_weight (show_reservoir b (iweight x)) = total_weight (since tagdec tag h ++ [x])) by (cbn [show_reservoir b_weight]; rewrite Cw; unfold total_weight; now rewrite fold_left_app).
  assert (NZ : Qeq_bool (total_weight (since tagdec tag h ++ [x])) 0 = false).
  { apply not_true_iff_false. intros Z. apply Qeq_bool_iff in Z. assert (P0 : (0 < total_weight (since tagdec tag h ++ [x]))%Q).
    { apply total_weight_pos; [|intros Z'; now apply app_eq_nil in Z']. intros y Hy. apply in_app_iff in Hy. destruct Hy as [Hy|[<-|[]]]; [|apply (PO tag x), in_app_iff; right; now left]. apply (PO tag y), in_app_iff. left. now apply since_in. }
    rewrite Z in P0. now apply Qlt_irrefl in P0. }
  destruct (Nat.eqb_spec (length (cheld tag h)) cap) as [Ec|Nc]; cbn [negb].
  - assert (LF : (cap <=? length (since tagdec tag h)) = true) by (apply Nat.leb_le; lia). rewrite CN, NZ. rewrite (bi_cap _ _ _ _ _ _ _ _ B'), E5.
    destruct (Qle_bool (rnd (cdraws h)) (iweight x / total_weight (since tagdec tag h ++ [x]))%Q) eqn:Q.
    + unfold randrange. rewrite (proj2 (Nat.eqb_neq _ _)) by lia. cbn [bind]. destruct (replace_inv _ _ _ _ _ _ _ _ x (rint (cdraws h + 1) mod cap) B' X) as (b2 & R1 & R2 & R3 & R4 & _); [rewrite Ec; apply Nat.mod_upper_bound; lia|].
      rewrite R1. cbn [bind]. eexists. split; [reflexivity|]. apply DONE; [|exact R3|exact R4|now rewrite LF]. unfold cplace. rewrite LF, Q. exact R2.
    + cbn [bind]. eexists. split; [reflexivity|]. apply DONE; [|reflexivity|reflexivity|now rewrite LF]. unfold cplace. rewrite LF, Q. exact B'.
  - assert (LT : length (cheld tag h) < cap) by (pose proof (bi_len _ _ _ _ _ _ _ _ B); lia). assert (LF : (cap <=? length (since tagdec tag h)) = false) by (apply Nat.leb_gt; lia).
    destruct (append_inv _ _ _ _ _ _ _ _ x B' X LT) as (b2 & R1 & R2 & R3 & R4 & _). rewrite R1. cbn [bind]. eexists. split; [reflexivity|]. apply DONE; [|exact R3|exact R4|now rewrite LF]. unfold cplace. rewrite LF. exact R2.
Qed.
Lemma c_offers_ok es : forall tr h, c_ok tr h -> positive (h ++ map to_event es) -> Forall (fun e => iok I J (span_of stats (fst e)) t (snd e)) es -> exists tr', foldM (offer_ev rnd rint) es tr = Ok tr' /\ c_ok tr' (h ++ map to_event es).
Proof.
  induction es as [|e es IH]; intros tr h U PO F; cbn [foldM map]; [exists tr; now rewrite app_nil_r|]. inversion F as [|? ? Fe F']; subst. change (h ++ map to_event (e :: es)) with (h ++ [to_event e] ++ map to_event es) in PO. rewrite app_assoc in PO.
  destruct (c_offer_ok tr h e U (positive_app _ _ PO) Fe) as (tr1 & E & U1). rewrite E. cbn [bind].
  destruct (IH tr1 _ U1 PO F') as (tr2 & E2 & U2). exists tr2. split; [exact E2|]. now rewrite <- app_assoc in U2.
Qed.
Variable cls : Z.
Hypothesis (SL : existsb is_length stats = true) (SP : existsb is_projlen stats = true).
Lemma c_run os : Forall (op_ok I J t) os -> Forall (add_ok stats w) os -> forall h, history cls stats w os h -> positive h -> exists tr, new_run cls rnd rint cap stats AChao w os = Ok tr /\ c_ok tr h.
Proof.
  intros F FA. unfold new_run, tracker_init. rewrite SL, SP. cbn [assert_ bind]. induction os as [|o os IH] using rev_ind; intros h' HH' PO.
  - eexists. split; [reflexivity|]. rewrite (history_unique _ _ _ _ _ HH' [] ltac:(constructor)). repeat (split; [reflexivity|]). intros tag. reflexivity.
  - apply Forall_app in F, FA. destruct F as [F Fo], FA as [FA Fa]. inversion Fo; inversion Fa; subst.
    assert (Q : exists h es0, history cls stats w os h /\ h' = h ++ es0).
    { inversion HH' as [E|os0 bs im h es0 H0 OF E|os0 tag h H0 E]; [now destruct os|apply app_inj_tail in E; destruct E as [-> _]; eauto..]. }
    destruct Q as (h & es0 & HH & Eh). subst h'. destruct (IH F FA h HH (positive_app _ _ PO)) as (tr & E & U). unfold run_ops in *. rewrite foldM_app, E. cbn [bind foldM]. destruct o as [bs im|tag]; cbn [apply_op].
    + destruct H1 as (W & D1 & D2 & D3). destruct H5 as (P & HD & NZ & HS & HWt). pose proof U as (T1 & T2 & T3 & T4 & _). destruct (add_total cls rnd rint tr bs im W P HD NZ) as (es & OF & EQ); [now rewrite T2|now rewrite T4|]. rewrite EQ. rewrite T2, T4 in OF.
      assert (HN : history cls stats w (os ++ [Add bs im]) (h ++ map to_event es)) by (constructor; [exact HH|exact OF]). rewrite (history_unique _ _ _ _ _ HH' _ HN) in PO |- *.
      destruct (c_offers_ok es tr h U PO (offers_ok cls stats w I J t SP bs im es W D1 D2 D3 OF)) as (tr' & E' & U'). rewrite E'. cbn [bind]. eexists. split; [reflexivity|]. exact U'.
    + assert (HN : history cls stats w (os ++ [Discard tag]) (h ++ [Dropped tag])) by (constructor; exact HH). rewrite (history_unique _ _ _ _ _ HH' _ HN) in PO |- *.
      eexists. split; [reflexivity|]. destruct U as (T1 & T2 & T3 & T4 & T5 & TB). repeat (split; [assumption|]). split; [rewrite cdraws_snoc; exact T5|].
      intros tag'. cbn [discard_bucket with_buckets tr_buckets]. rewrite (dget_ddel _ tagdec tag_eqb_iff), since_snoc, cheld_snoc. cbn [note]. destruct (tagdec tag tag'); [reflexivity|apply TB].
Qed.
End CSim.

(** ** the chances of a replay in which the draw at step t is accepted with chance
    a t and then replaces a position chosen uniformly among c *)
Fixpoint qprod (f : nat -> Q) (s k : nat) : Q := match k with 0 => 1%Q | S k' => (qprod f s k' * f (s + k')%nat)%Q end.
Lemma qprod_ext f g s k : (forall i, s <= i < s + k -> (f i == g i)%Q) -> (qprod f s k == qprod g s k)%Q.
Proof. induction k as [|k IH]; intros H; cbn [qprod]; [reflexivity|]. rewrite IH, (H (s + k)) by (intros; try apply H; lia). reflexivity. Qed.
Definition Qn (n : nat) : Q := inject_Z (Z.of_nat n).
Lemma Qn_mul a b : (Qn (a * b) == Qn a * Qn b)%Q.
Proof. unfold Qn. rewrite Nat2Z.inj_mul, inject_Z_mult. reflexivity. Qed.
Lemma Qn_sub a b : b <= a -> (Qn (a - b) == Qn a - Qn b)%Q.
Proof. intros H. unfold Qn, Qminus. rewrite Nat2Z.inj_sub by exact H. unfold Z.sub. rewrite inject_Z_plus, inject_Z_opp. reflexivity. Qed.
Lemma Qn_nz a : a <> 0 -> ~ (Qn a == 0)%Q.
Proof. intros H. unfold Qn, inject_Z, Qeq. cbn. lia. Qed.
Definition chance_of (c : nat) (a : nat -> Q) (N i : nat) : Q :=
  ((if i <? c then 1 else a i) * qprod (fun j => 1 - a j / Qn c) (Nat.max (S i) c) (N - Nat.max (S i) c))%Q.
Lemma chance_ext c a b N i : c <= N -> (forall j, c <= j < N -> (a j == b j)%Q) -> i < N -> (chance_of c a N i == chance_of c b N i)%Q.
Proof.
  intros Hc H Hi. unfold chance_of. rewrite (qprod_ext (fun j => 1 - a j / Qn c)%Q (fun j => 1 - b j / Qn c)%Q); [|intros j Hj; rewrite H by lia; reflexivity].
  destruct (Nat.ltb_spec i c); [reflexivity|]. rewrite H by lia. reflexivity.
Qed.

Section Weighted.
Context {A : Type} (dec : forall x y : A, {x = y} + {x <> y}).
Variables (us : list Q) (c : nat) (a : nat -> Q).
Hypothesis Hc : 1 <= c.
Hypothesis Hus : us <> [].
Definition adecide (t : nat) (d : Q * nat) : option nat := if Qle_bool (fst d) (a (t - 1)) then Some (snd d) else None.
Local Notation ch := (fun _ : nat => list_prod us (seq 0 c)).
Local Notation acc := (fun t => count (fun u => Qle_bool u (a (t - 1))) us).
Lemma acc_pos t i : i < c -> count (fun d => match adecide t d with Some j => Nat.eqb i j | None => false end) (ch t) = acc t.
Proof using All.
  intros Hi. rewrite (count_ext _ (fun d => Qle_bool (fst d) (a (t - 1)) && Nat.eqb i (snd d))).
  - rewrite (count_prod (fun u => Qle_bool u (a (t - 1))) (Nat.eqb i)). rewrite (count_ext (Nat.eqb i) (fun w => w =? i)) by (intros; apply Nat.eqb_sym). rewrite count_one; [lia|apply seq_NoDup|apply in_seq; lia].
  - intros d _. unfold adecide. destruct (Qle_bool (fst d) (a (t - 1))); reflexivity.
Qed.
Lemma acc_range t d j : In d (ch t) -> adecide t d = Some j -> j < c.
Proof using All. intros Hd. unfold adecide. destruct (Qle_bool _ _); [|discriminate]. intros [= <-]. destruct d as [u i]. apply in_prod_iff in Hd. destruct Hd as [_ Hd]. apply in_seq in Hd. cbn. lia. Qed.
Theorem replay_weighted items xs : length items = c -> NoDup (items ++ xs) ->
  (forall j, c <= j < c + length xs -> (Qn (count (fun u => Qle_bool u (a j)) us) == Qn (length us) * a j)%Q) ->
  forall i x, nth_error (items ++ xs) i = Some x ->
  (Qn (count (fun ws => kept dec x (replay adecide (S c) items xs ws)) (sequences ch (S c) (length xs))) == Qn (length (sequences ch (S c) (length xs))) * chance_of c a (c + length xs) i)%Q.
Proof using All.
  intros Li. induction xs as [|y xs IH] using rev_ind; intros N F i x Hx.
  - assert (Hi : i < c). { rewrite app_nil_r in Hx. rewrite <- Li. apply nth_error_Some. congruence. }
    cbn [sequences length]. unfold count. cbn [filter replay]. unfold chance_of. rewrite (proj2 (Nat.ltb_lt _ _) Hi). replace (c + 0 - Nat.max (S i) c) with 0 by lia. cbn [qprod].
    rewrite app_nil_r in Hx. apply nth_error_In in Hx. unfold kept. destruct (in_dec dec x items); [reflexivity|contradiction].
  - rewrite app_assoc in N, Hx. pose proof (NoDup_remove_1 _ _ _ N) as N1. rewrite app_nil_r in N1. pose proof (NoDup_remove_2 _ _ _ N) as N2. rewrite app_nil_r in N2.
    rewrite app_length. cbn [length]. rewrite Nat.add_1_r. rewrite sequences_succ. set (t := S c + length xs). cbv beta. rewrite prod_length, seq_length.
    assert (HA : (Qn (acc t) == Qn (length us) * a (c + length xs)%nat)%Q). { specialize (F (c + length xs)). rewrite app_length in F. cbn [length] in F. replace (t - 1) with (c + length xs) by (unfold t; lia). apply F. lia. }
    assert (LE : acc t <= length us) by apply count_le.
    assert (Nu : length us <> 0) by (destruct us; [contradiction|discriminate]).
    assert (Lx : length (items ++ xs) = c + length xs) by (rewrite app_length; lia).
    destruct (Nat.lt_ge_cases i (c + length xs)) as [Hi|Hi].
    + rewrite nth_error_app1 in Hx by lia. assert (NE : x <> y). { intros ->. apply N2. eapply nth_error_In; exact Hx. }
      rewrite (count_sequences _ _ _ _ (length us * c - acc t) (fun ws => kept dec x (replay adecide (S c) items xs ws))).
      * specialize (IH N1 (fun j Hj => F j ltac:(rewrite app_length; cbn; lia)) i x Hx). rewrite Qn_mul, Qn_sub, IH, HA by nia. rewrite !Qn_mul.
        assert (CE : (chance_of c a (c + S (length xs)) i == chance_of c a (c + length xs) i * (1 - a (c + length xs)%nat / Qn c))%Q).
        { unfold chance_of. replace (c + S (length xs) - Nat.max (S i) c) with (S (c + length xs - Nat.max (S i) c)) by lia. cbn [qprod]. replace (Nat.max (S i) c + (c + length xs - Nat.max (S i) c)) with (c + length xs) by lia. ring. }
        rewrite CE. field. apply Qn_nz. lia.
      * intros ws Hw. apply in_sequences in Hw. destruct Hw as [Lw _]. set (l := replay adecide (S c) items xs ws). assert (Ll : length l = c) by (unfold l; now rewrite replay_length). assert (Nl : NoDup l) by now apply replay_NoDup.
        assert (STEP : forall w, In w (ch t) -> kept dec x (replay adecide (S c) items (xs ++ [y]) (ws ++ [w])) = kept dec x l && negb (match adecide t w with Some j => if dec (nth j l y) x then true else false | None => false end)).
        { intros w Hw. rewrite replay_snoc by lia. fold l. fold t. unfold put. destruct (adecide t w) as [j|] eqn:Ed; [|now rewrite andb_true_r]. apply kept_upd_old; auto. rewrite Ll. eapply acc_range; eassumption. }
        fold t. rewrite (count_ext _ _ _ STEP). destruct (kept dec x l) eqn:K; cbn [andb]; [|now apply count_false].
        unfold kept in K. destruct (in_dec dec x l) as [I0|]; [|discriminate]. destruct (In_nth l x y I0) as [q [Hq Eq]].
        assert (ONE : count (fun w => match adecide t w with Some j => if dec (nth j l y) x then true else false | None => false end) (ch t) = acc t).
        { rewrite <- (acc_pos t q) by lia. apply count_ext. intros w Hw. destruct (adecide t w) as [j|] eqn:Ed; [|reflexivity]. pose proof (acc_range _ _ _ Hw Ed) as Hj. destruct (dec (nth j l y) x) as [E|E], (Nat.eqb_spec q j) as [->|Nq]; try reflexivity; [|contradiction].
          elim Nq. apply (NoDup_nth l y); auto; [lia|]. congruence. }
        pose proof (count_not (fun w => match adecide t w with Some j => if dec (nth j l y) x then true else false | None => false end) (ch t)) as CN. cbv beta in CN, ONE |- *. rewrite ONE, prod_length, seq_length in CN. lia.
    + assert (i = c + length xs). { assert (i < length ((items ++ xs) ++ [y])) by (apply nth_error_Some; congruence). rewrite app_length, Lx in H. cbn in H. lia. } subst i.
      rewrite nth_error_app2, Lx, Nat.sub_diag in Hx by lia. injection Hx as <-.
      rewrite (count_sequences _ _ _ _ (c * acc t) (fun _ => true)).
      * rewrite (count_true (fun _ => true)) by auto. rewrite !Qn_mul, HA. unfold chance_of. rewrite (proj2 (Nat.ltb_ge _ _)) by lia. replace (c + S (length xs) - Nat.max (S (c + length xs)) c) with 0 by lia. cbn [qprod]. ring.
      * intros ws Hw. apply in_sequences in Hw. destruct Hw as [Lw _]. cbv iota. fold t.
        rewrite <- (count_any ch adecide c t (acc t)); [|intros i2 Hi2; now apply acc_pos|intros; eapply acc_range; eassumption]. apply count_ext. intros w Hw. rewrite replay_snoc by lia. fold t. unfold put.
        destruct (adecide t w) as [j|] eqn:Ed.
        -- apply kept_upd_new. rewrite replay_length. rewrite Li. eapply acc_range; eassumption.
        -- unfold kept. destruct (in_dec dec y (replay adecide (S c) items xs ws)) as [C|C]; [|reflexivity]. apply replay_incl in C. contradiction.
Qed.
End Weighted.
Lemma replay_ext {W A} (d d' : nat -> W -> option nat) (xs : list A) : forall t items ws, (forall s w, t <= s < t + length xs -> d s w = d' s w) -> replay d t items xs ws = replay d' t items xs ws.
Proof.
  induction xs as [|x xs IH]; intros t items [|w ws] H; cbn [replay]; auto. unfold put. rewrite H by (cbn; lia). apply IH. intros s v Hs. apply H. cbn. lia.
Qed.

(** ** the specification: the j-th item offered to a full bucket is accepted with
    chance (its weight) / (all weights offered so far, including its own) and then
    replaces one of the c items held; item i survives every later acceptance with
    chance 1 - 1/c *)
Definition acceptance (L : list item) (j : nat) : Q := match nth_error L j with Some x => (iweight x / total_weight (firstn (S j) L))%Q | None => 0%Q end.
Definition inclusion (c : nat) (L : list item) (i : nat) : Q := chance_of c (acceptance L) (length L) i.

Lemma acceptance_app L x j : j < length L -> acceptance (L ++ [x]) j = acceptance L j.
Proof. intros H. unfold acceptance. rewrite nth_error_app1 by exact H. rewrite firstn_app. replace (S j - length L) with 0 by lia. cbn [firstn]. now rewrite app_nil_r. Qed.
Lemma acceptance_last L x : acceptance (L ++ [x]) (length L) = (iweight x / total_weight (L ++ [x]))%Q.
Proof. unfold acceptance. rewrite nth_error_app2, Nat.sub_diag by lia. cbn [nth_error]. rewrite firstn_all2 by (rewrite app_length; cbn; lia). reflexivity. Qed.
Lemma cdraws_indep rnd rint rnd' rint' cap h : cdraws rnd rint cap h = cdraws rnd' rint' cap h.
Proof. induction h as [|e h IH] using rev_ind; [reflexivity|]. rewrite !cdraws_snoc, IH. reflexivity. Qed.
Lemma cheld_replay cap tag h : 1 <= cap ->
  exists pos, NoDup pos /\ (forall p rnd rint, In p pos -> p + 2 <= cdraws rnd rint cap h) /\ length pos = length (since tagdec tag h) - cap /\
    forall rnd rint, cheld rnd rint cap tag h = replay (adecide (acceptance (since tagdec tag h))) (S cap) (firstn cap (since tagdec tag h)) (skipn cap (since tagdec tag h)) (udrawn rnd rint cap pos).
Proof.
  intros Hs. induction h as [|e h IH] using rev_ind.
  - exists []. split; [constructor|]. split; [intros p rnd rint []|]. split; [reflexivity|]. intros rnd rint. cbn. now rewrite firstn_nil, skipn_nil.
  - rewrite since_snoc. destruct IH as (pos & P1 & P3 & P4 & P5).
    assert (K : forall p rnd rint, In p pos -> p + 2 <= cdraws rnd rint cap (h ++ [e])). { intros p rnd rint Hp. specialize (P3 p rnd rint Hp). rewrite cdraws_snoc. destruct e; [destruct (_ <=? _)|]; lia. }
    destruct e as [t x|t]; cbn [note] in *; destruct (tagdec t tag) as [->|NT].
    + set (L := since tagdec tag h) in *. rewrite app_length. cbn [length]. destruct (Nat.le_gt_cases cap (length L)) as [Fu|NF].
      * exists (pos ++ [cdraws (fun _ => 0%Q) (fun _ => 0) cap h]). split; [|split; [|split]].
        -- apply NoDup_app_intro; [exact P1|constructor; [intros []|constructor]|]. intros p Hp [<-|[]]. specialize (P3 _ (fun _ => 0%Q) (fun _ => 0) Hp). lia.
        -- intros p rnd rint Hp. apply in_app_iff in Hp. destruct Hp as [Hp|[<-|[]]]; [now apply K|]. rewrite cdraws_snoc. fold L. rewrite (proj2 (Nat.leb_le _ _) Fu). rewrite (cdraws_indep (fun _ => 0%Q) (fun _ => 0) rnd rint). lia.
        -- rewrite app_length. cbn [length]. lia.
        -- intros rnd rint. rewrite cheld_snoc. destruct (tagdec tag tag) as [_|]; [|congruence]. fold L. rewrite firstn_snoc, (proj2 (Nat.ltb_ge _ _) Fu). rewrite skipn_app. replace (cap - length L) with 0 by lia. cbn [skipn].
           unfold udrawn. rewrite map_app. cbn [map]. rewrite replay_snoc by (rewrite map_length, skipn_length; lia).
           rewrite (replay_ext _ (adecide (acceptance L))) by (intros s d Hd; rewrite skipn_length in Hd; unfold adecide; rewrite acceptance_app by lia; reflexivity).
           unfold udrawn in P5. rewrite <- P5. unfold put, adecide, cplace. cbn [fst snd]. rewrite (proj2 (Nat.leb_le _ _) Fu). rewrite (cdraws_indep (fun _ => 0%Q) (fun _ => 0) rnd rint).
           rewrite skipn_length. replace (S cap + (length L - cap) - 1) with (length L) by lia. rewrite acceptance_last. destruct (Qle_bool _ _); reflexivity.
      * assert (pos = []) as -> by (destruct pos; [reflexivity|cbn in P4; lia]). exists []. split; [constructor|]. split; [intros p rnd rint []|]. split; [cbn; lia|]. intros rnd rint. rewrite cheld_snoc. destruct (tagdec tag tag) as [_|]; [|congruence]. fold L.
        specialize (P5 rnd rint). rewrite (firstn_all2 L), (skipn_all2 L) in P5 by lia. cbn [replay udrawn map] in P5. unfold cplace. rewrite (proj2 (Nat.leb_gt _ _) NF). rewrite P5.
        rewrite firstn_all2, skipn_all2 by (rewrite app_length; cbn; lia). reflexivity.
    + exists pos. split; [exact P1|]. split; [exact K|]. split; [exact P4|]. intros rnd rint. rewrite cheld_snoc. destruct (tagdec t tag); [contradiction|apply P5].
    + exists []. split; [constructor|]. split; [intros p rnd rint []|]. split; [reflexivity|]. intros rnd rint. rewrite cheld_snoc. destruct (tagdec tag tag) as [_|]; [|congruence]. now rewrite firstn_nil, skipn_nil.
    + exists pos. split; [exact P1|]. split; [exact K|]. split; [exact P4|]. intros rnd rint. rewrite cheld_snoc. destruct (tagdec t tag); [contradiction|apply P5].
Qed.

(** C102: if the values us of random.random() satisfy u <= q with probability exactly
    q for the thresholds q that occur, and randrange is uniform, the i-th of the N
    distinct pairs offered is stored with probability [inclusion cap L i], whatever
    the other draws are. *)
Theorem C102_chance cls cap stats w I J t os h tag us : 1 <= cap -> existsb is_length stats = true -> existsb is_projlen stats = true ->
  Forall (op_ok I J t) os -> Forall (add_ok stats w) os -> history cls stats w os h -> (forall tg x, In (Offered tg x) h -> (0 < iweight x)%Q) ->
  let L := since tagdec tag h in let N := length L in
  NoDup (map ibraid L) -> cap <= N -> us <> [] ->
  (forall j, cap <= j < N -> (Qn (count (fun u => Qle_bool u (acceptance L j)) us) == Qn (length us) * acceptance L j)%Q) ->
  exists pos, NoDup pos /\ length pos = N - cap /\
    forall i x base basei, nth_error L i = Some x -> let draws := sequences (fun _ => list_prod us (seq 0 cap)) (S cap) (N - cap) in
      (Qn (count (fun ws => bstored (new_run cls (over base pos (map fst ws)) (over basei (map S pos) (map snd ws)) cap stats AChao w os) tag (ibraid x)) draws) == Qn (length draws) * inclusion cap L i)%Q.
Proof.
  intros Hc SL SP F FA HH PO L N ND HN Hus HU. destruct (cheld_replay cap tag h Hc) as (pos & P1 & _ & P4 & P5). exists pos. split; [exact P1|]. split; [exact P4|]. intros i x base basei Hx draws. fold L in P4, P5.
  pose proof (replay_weighted nfdec us cap (acceptance L) Hc Hus (map ibraid (firstn cap L)) (map ibraid (skipn cap L))) as RU.
  rewrite map_length, firstn_length, map_length, skipn_length, <- map_app, firstn_skipn in RU. fold N in RU. replace (cap + (N - cap)) with N in RU by lia.
  specialize (RU ltac:(lia) ND HU i (ibraid x)). rewrite nth_error_map, Hx in RU. specialize (RU eq_refl). fold draws in RU. unfold inclusion. fold N. rewrite <- RU. assert (EQ : forall a b : nat, a = b -> (Qn a == Qn b)%Q) by (intros ? ? ->; reflexivity). apply EQ. apply count_ext. intros ws Hj. apply in_sequences in Hj. destruct Hj as [Lj Hj].
  destruct (c_run (over base pos (map fst ws)) (over basei (map S pos) (map snd ws)) cap stats w I J t Hc cls SL SP os F FA h HH PO) as (tr & Es & (_ & _ & _ & _ & _ & TB)). rewrite Es.
  specialize (TB tag). fold L in TB. unfold bstored. destruct (dget tag_eqb (tr_buckets tr) tag) as [b|]; [|rewrite TB in Hx; now destruct i].
  destruct TB as (_ & B & _). unfold braids_images. cbn [fst]. rewrite (bi_braids _ _ _ _ _ _ _ _ B), P5. fold L. rewrite replay_map. rewrite udrawn_over; [reflexivity|exact P1|lia|]. intros d Hd. apply In_nth_error in Hd. destruct Hd as [k Hk]. specialize (Hj k d Hk). destruct d as [u k']. apply in_prod_iff in Hj. destruct Hj as [_ Hj]. apply in_seq in Hj. cbn. lia.
Qed.

(** with capacity 1 the chances are proportional to the weights *)
Lemma total_snoc L x : total_weight (L ++ [x]) = (total_weight L + iweight x)%Q.
Proof. unfold total_weight. now rewrite fold_left_app. Qed.
Lemma inclusion_snoc_old c L x i : 1 <= c -> c <= length L -> i < length L -> (inclusion c (L ++ [x]) i == inclusion c L i * (1 - iweight x / total_weight (L ++ [x]) / Qn c))%Q.
Proof.
  intros Hc HL Hi. unfold inclusion, chance_of. rewrite app_length. cbn [length]. replace (length L + 1 - Nat.max (S i) c) with (S (length L - Nat.max (S i) c)) by lia. cbn [qprod]. replace (Nat.max (S i) c + (length L - Nat.max (S i) c)) with (length L) by lia.
  rewrite acceptance_last, acceptance_app by exact Hi. rewrite (qprod_ext _ (fun j => 1 - acceptance L j / Qn c)%Q) by (intros j Hj; rewrite acceptance_app by lia; reflexivity). ring.
Qed.
Lemma inclusion_snoc_new c L x : c <= length L -> (inclusion c (L ++ [x]) (length L) == iweight x / total_weight (L ++ [x]))%Q.
Proof.
  intros HL. unfold inclusion, chance_of. rewrite app_length. cbn [length]. replace (length L + 1 - Nat.max (S (length L)) c) with 0 by lia. cbn [qprod]. rewrite (proj2 (Nat.ltb_ge _ _)) by lia. rewrite acceptance_last. ring.
Qed.
Theorem C102_single L i x : (forall y, In y L -> (0 < iweight y)%Q) -> nth_error L i = Some x -> (inclusion 1 L i == iweight x / total_weight L)%Q.
Proof.
  revert i x. induction L as [|y L IH] using rev_ind; intros i x P H; [now destruct i|].
  assert (Py : (0 < total_weight (L ++ [y]))%Q) by (apply total_weight_pos; [exact P|intros Z; now apply app_eq_nil in Z]).
  assert (Li : i < length (L ++ [y])) by (apply nth_error_Some; congruence). rewrite app_length in Li. cbn in Li.
  destruct (Nat.eq_dec i (length L)) as [->|Ne].
  - rewrite nth_error_app2, Nat.sub_diag in H by lia. injection H as <-. destruct L as [|z L].
    + assert (I1 : (inclusion 1 ([] ++ [y]) (length (@nil item)) == 1)%Q) by (unfold inclusion, chance_of; cbn; reflexivity). rewrite I1. cbn [app] in Py |- *. assert (T1 : (total_weight [y] == iweight y)%Q) by (unfold total_weight; cbn [fold_left]; ring). rewrite T1 in *. field. intros Z. rewrite Z in Py. now apply Qlt_irrefl in Py.
    + apply inclusion_snoc_new. cbn. lia.
  - rewrite nth_error_app1 in H by lia. rewrite inclusion_snoc_old by lia. assert (PL : forall y0, In y0 L -> (0 < iweight y0)%Q) by (intros; apply P, in_app_iff; now left). rewrite (IH i x PL H).
    assert (PT : (0 < total_weight L)%Q) by (apply total_weight_pos; [exact PL|intros ->; now destruct i]).
    change (Qn 1) with 1%Q. rewrite total_snoc in *. field. split; intros Z; [rewrite Z in Py; now apply Qlt_irrefl in Py|rewrite Z in PT; now apply Qlt_irrefl in PT].
Qed.
(** with a larger capacity they are not: the last of N > cap items is stored with
    chance w / W, not cap w / W ... *)
Theorem C102_last_refuted cap L x : cap <= length L -> (inclusion cap (L ++ [x]) (length L) == iweight x / total_weight (L ++ [x]))%Q.
Proof. apply inclusion_snoc_new. Qed.

(** ... and a heavier item can be stored less often than a lighter one: capacity 2,
    braids 1, 3 and 4 offered with the tag (1, 2) with weights 1, 1 and 2; over the
    8 equally likely outcomes (M = 4 values of random(), 2 of randrange), braid 4
    is stored in half of them and braids 1 and 3 in three quarters *)
Definition heavy4 (bs : list nfobj) (_ : parr) : res (list Q) := Ok (map (fun b => match o_factors b with [4%Z] => 2%Q | _ => 1%Q end) bs).
Definition chao_ops : list op := [Add [ex_braid 1; ex_braid 2; ex_braid 3] ex_images; Add [ex_braid 4] (mkA [1] 1 1 3 I64 [[0; 1; 2]%Z])].
Theorem C102_heavier_refuted : let stats := [CanonicalLength; ProjectiveLength] in
  map (fun k => count (fun d => bstored (new_run 0 (fun _ => fst d) (fun _ => snd d) 2 stats AChao (Some heavy4) chao_ops) [1; 2]%Z (ex_braid k)) (list_prod (midpoints 4) (seq 0 2))) [1; 3; 4]%Z = [6; 6; 4].
Proof. vm_compute. reflexivity. Qed.
(** the hypotheses of C102_chance are met by this history, with capacity 2 and the
    four midpoints as values of random() *)
Theorem C102_case : let stats := [CanonicalLength; ProjectiveLength] in Forall (op_ok 1 1 I64) chao_ops /\ Forall (add_ok stats (Some heavy4)) chao_ops /\
  exists h, history 0 stats (Some heavy4) chao_ops h /\ (forall tg x, In (Offered tg x) h -> (0 < iweight x)%Q) /\
    let L := since tagdec [1; 2]%Z h in map ibraid L = [ex_braid 1; ex_braid 3; ex_braid 4] /\ map iweight L = [1; 1; 2]%Q /\ NoDup (map ibraid L) /\
    forall j, 2 <= j < length L -> (Qn (count (fun u => Qle_bool u (acceptance L j)) (midpoints 4)) == Qn (length (midpoints 4)) * acceptance L j)%Q.
Proof.
  intros stats. destruct ex_images_ok as (W & NZ & _).
  assert (W1 : wfa (mkA [1] 1 1 3 I64 [[0; 1; 2]%Z])) by (split; [reflexivity|]; split; repeat constructor; cbn; lia).
  assert (NZ1 : all_nonzero (mkA [1] 1 1 3 I64 [[0; 1; 2]%Z])). { intros idx V. apply valid_one in V. destruct V as [k [-> Hk]]. exists 0, 0, 1. split; [cbn; lia|]. split; [cbn; lia|]. destruct k as [|k]; [discriminate|lia]. }
  assert (F : Forall (op_ok 1 1 I64) chao_ops). { constructor; [split; [exact W|auto]|]. constructor; [split; [exact W1|auto]|constructor]. }
  assert (FA : Forall (add_ok stats (Some heavy4)) chao_ops).
  { constructor; [|constructor; [|constructor]]; (split; [reflexivity|]; split; [discriminate|]; split; [assumption|]; split; [intros f [H|[H|[]]]; discriminate|intros f [= <-]; eexists; split; [reflexivity|]; cbn; lia]). }
  split; [exact F|]. split; [exact FA|].
  destruct (u_run (fun _ => 0%Q) (fun _ => 0) 4 stats (Some heavy4) 1 1 I64 ltac:(lia) 0 eq_refl eq_refl chao_ops F FA) as (tr & h & E & HH & (_ & _ & _ & _ & _ & TB)).
  exists h. split; [exact HH|]. split.
  { intros tg x Hx. destruct (history_in _ _ _ _ _ _ _ HH Hx) as (bs & im & i & _ & _ & _ & _ & (vs & Ev & Hv)). injection Ev as <-. rewrite nth_error_map in Hv. destruct (nth_error bs i) as [b|]; [|discriminate]. injection Hv as <-. destruct (o_factors b) as [|[|p|p] [|? ?]]; try reflexivity. all: destruct p as [?|[?|[?|?|]|]|]; reflexivity. }
  intros L. specialize (TB [1; 2]%Z).
  assert (C : (match new_run 0 (fun _ => 0%Q) (fun _ => 0) 4 stats Uniform (Some heavy4) chao_ops with Ok tr => match dget tag_eqb (tr_buckets tr) [1; 2]%Z with Some b => (b_braids b, firstn 3 (b_weights b), b_count b) | None => ([], [], 0) end | Err _ => ([], [], 0) end) = ([ex_braid 1; ex_braid 3; ex_braid 4], [1; 1; 2]%Q, 3)) by (vm_compute; reflexivity).
  rewrite E in C. destruct (dget tag_eqb (tr_buckets tr) [1; 2]%Z) as [b|]; [|discriminate]. destruct TB as (_ & B & Ct). fold L in Ct. injection C as C1 C2 C3. rewrite C3 in Ct.
  assert (HL : uheld (fun _ => 0%Q) (fun _ => 0) 4 [1; 2]%Z h = L).
  { destruct (uheld_replay 4 [1; 2]%Z h ltac:(lia)) as (pos & _ & _ & _ & _ & R). rewrite R. fold L. rewrite (skipn_all2 L) by lia. cbn [replay]. apply firstn_all2. lia. }
  rewrite HL in B. assert (K1 : map ibraid L = [ex_braid 1; ex_braid 3; ex_braid 4]) by (rewrite <- (bi_braids _ _ _ _ _ _ _ _ B); exact C1).
  assert (K2 : map iweight L = [1; 1; 2]%Q).
  { pose proof (bi_weight _ _ _ _ _ _ _ _ B) as BW. destruct L as [|x0 [|x1 [|x2 [|? ?]]]]; try discriminate. pose proof (BW 0 _ eq_refl) as B0. pose proof (BW 1 _ eq_refl) as B1. pose proof (BW 2 _ eq_refl) as B2.
    destruct (b_weights b) as [|q0 [|q1 [|q2 ?]]]; cbn in C2, B0, B1, B2; try discriminate. cbn [map]. congruence. }
  split; [exact K1|]. split; [exact K2|]. split; [rewrite K1; repeat (constructor; [cbn; intuition discriminate|]); constructor|].
  intros j Hj. rewrite <- Ct in Hj. assert (j = 2) by lia. subst j. destruct L as [|x0 [|x1 [|x2 [|? ?]]]]; try discriminate. cbn [map] in K2. injection K2 as Q0 Q1 Q2.
  assert (A : acceptance [x0; x1; x2] 2 = (2 / (0 + 1 + 1 + 2))%Q) by (unfold acceptance, total_weight; cbn [nth_error firstn fold_left]; now rewrite Q0, Q1, Q2). rewrite A. vm_compute. reflexivity.
Qed.
