(** TrackerRun2.v – the buckets of braidsearch.Tracker as a function of the history
    and of the random draws. *)
From Verif Require Import Base ModelPerm ModelBraid ModelPoly ModelMatrix ModelPolymat SpecPolymat PolymatTheory PropsPolymat PropsPolymat2 ModelPolyRep ModelTracker SpecTracker TrackerTheory TrackerRun PropsTracker.
From Coq Require Import QArith Permutation.
Local Open Scope nat_scope.
Local Arguments Nat.ltb : simpl never.
Local Arguments Nat.leb : simpl never.

Definition stagdec (a b : stag) : {a = b} + {a <> b}.
Proof. decide equality; [apply Z.eq_dec|apply Nat.eq_dec]. Defined.
Lemma stag_eqb_iff a b : stag_eqb a b = true <-> a = b.
Proof. destruct a as [a1 a2], b as [b1 b2]. unfold stag_eqb. cbn. rewrite andb_true_iff, Nat.eqb_eq, Z.eqb_eq. split; [intros [-> ->]; reflexivity|intros [= -> ->]; auto]. Qed.
Definition nfdec (a b : nfobj) : {a = b} + {a <> b}.
Proof. decide equality; [apply (list_eq_dec Z.eq_dec)|apply Z.eq_dec|apply Nat.eq_dec]. Defined.
Lemma nf_eqb_iff a b : nf_eqb a b = true <-> a = b.
Proof. destruct a as [n k l], b as [n' k' l']. unfold nf_eqb. cbn. rewrite !andb_true_iff, Nat.eqb_eq, Z.eqb_eq, tag_eqb_iff. split; [intros [[-> ->] ->]; reflexivity|intros [= -> -> ->]; auto]. Qed.
Lemma existsb_nf b l : existsb (nf_eqb b) l = if in_dec nfdec b l then true else false.
Proof.
  destruct (in_dec nfdec b l) as [H|H].
  - apply existsb_exists. exists b. split; [exact H|now apply nf_eqb_iff].
  - destruct (existsb (nf_eqb b) l) eqn:E; [|reflexivity]. apply existsb_exists in E. destruct E as [c [Hc Ec]]. apply nf_eqb_iff in Ec. congruence.
Qed.

(** the items whose braid was not offered before *)
Definition add_first (acc : list item) (x : item) : list item := if in_dec nfdec (ibraid x) (map ibraid acc) then acc else acc ++ [x].
Definition firsts (L : list item) : list item := fold_left add_first L [].
Lemma firsts_snoc L x : firsts (L ++ [x]) = add_first (firsts L) x.
Proof. unfold firsts. now rewrite fold_left_app. Qed.
Lemma firsts_nodup L : NoDup (map ibraid L) -> firsts L = L.
Proof.
  induction L as [|x L IH] using rev_ind; intros N; [reflexivity|]. rewrite map_app in N. cbn in N. pose proof (NoDup_remove_1 _ _ _ N) as N1. pose proof (NoDup_remove_2 _ _ _ N) as N2. rewrite app_nil_r in N1, N2.
  rewrite firsts_snoc, IH by exact N1. unfold add_first. destruct (in_dec nfdec (ibraid x) (map ibraid L)); [contradiction|reflexivity].
Qed.
Lemma firsts_le L x : length (firsts L) <= length (firsts (L ++ [x])) <= S (length (firsts L)).
Proof. rewrite firsts_snoc. unfold add_first. destruct (in_dec nfdec _ _); rewrite ?app_length; cbn; lia. Qed.

(** the batch of images of a bucket holds the images of the items *)
Record sbinv (size : nat) (I J D : nat) (t : dtype) (b : sbucket) (items : list item) : Prop := mkSBI {
  sbi_braids : sb_braids b = map ibraid items; sbi_len : length items <= size;
  sbi_I : aI (sb_images b) = I; sbi_J : aJ (sb_images b) = J; sbi_D : aD (sb_images b) = D; sbi_t : adt (sb_images b) = t; sbi_pre : apre (sb_images b) = [size];
  sbi_blocks : length (ablocks (sb_images b)) = size;
  sbi_image : forall k x, nth_error items k = Some x -> nth_error (ablocks (sb_images b)) k = Some (block (iimage x) []);
  sbi_ok : Forall (iok I J D t) items }.
Lemma sb_append size I J D t b items x set' : sbinv size I J D t b items -> iok I J D t x -> length items < size ->
  exists A, set_item (sb_images b) (length (sb_braids b)) (iimage x) = Ok A /\ sbinv size I J D t (mkSB (sb_braids b ++ [ibraid x]) A set') (items ++ [x]).
Proof.
  intros [B Ln E1 E2 E3 E4 P Lb Im OK] X L. rewrite B, map_length. rewrite set_item_ok; [|lia|unfold iok in X; now rewrite E1, E2, E3, E4]. eexists. split; [reflexivity|].
  constructor; cbn [sb_braids sb_images aI aJ aD adt apre ablocks]; rewrite ?upd_length; auto.
  - now rewrite map_app.
  - rewrite app_length. cbn. lia.
  - intros k y [[Hk Hy]|[-> ->]]%nth_error_snoc; rewrite nth_error_upd.
    + destruct (Nat.eqb_spec (length items) k); [lia|]. now apply Im.
    + rewrite Nat.eqb_refl. rewrite (proj2 (Nat.ltb_lt _ _)) by lia. reflexivity.
  - apply Forall_app. split; [assumption|]. now constructor.
Qed.
Lemma sb_replace size I J D t b items x i : sbinv size I J D t b items -> iok I J D t x -> i < length items ->
  exists bs A, set_ (sb_braids b) i (ibraid x) = Ok bs /\ set_item (sb_images b) i (iimage x) = Ok A /\ sbinv size I J D t (mkSB bs A (sb_set b)) (upd items i x).
Proof.
  intros [B Ln E1 E2 E3 E4 P Lb Im OK] X L. rewrite B, set_ok by now rewrite map_length. rewrite set_item_ok; [|lia|unfold iok in X; now rewrite E1, E2, E3, E4]. do 2 eexists. split; [reflexivity|]. split; [reflexivity|].
  constructor; cbn [sb_braids sb_images aI aJ aD adt apre ablocks]; rewrite ?upd_length; auto.
  - apply upd_map.
  - intros k y. rewrite !nth_error_upd. destruct (Nat.eqb_spec i k) as [->|N]; cbn [andb]; [|apply Im].
    rewrite (proj2 (Nat.ltb_lt _ _) L). rewrite (proj2 (Nat.ltb_lt _ _)) by lia. congruence.
  - now apply Forall_upd.
Qed.
Lemma sb_create size x set' : 1 <= size -> wfa (iimage x) -> apre (iimage x) = [] ->
  exists A, set_item (zeros_batch size (aI (iimage x)) (aJ (iimage x)) (aD (iimage x)) (adt (iimage x))) 0 (iimage x) = Ok A /\
    sbinv size (aI (iimage x)) (aJ (iimage x)) (aD (iimage x)) (adt (iimage x)) (mkSB [ibraid x] A set') [x].
Proof.
  intros Hs W P. set (Z0 := zeros_batch _ _ _ _ _). assert (B0 : sbinv size (aI (iimage x)) (aJ (iimage x)) (aD (iimage x)) (adt (iimage x)) (mkSB [] Z0 []) []).
  { constructor; try reflexivity; cbn [sb_images Z0 zeros_batch ablocks length]; rewrite ?repeat_length; auto; try lia. intros [|k] y; discriminate. }
  apply (sb_append size _ _ _ _ _ [] x set' B0); [|cbn; lia]. unfold iok, ok_image. auto 10.
Qed.

Section Sim.
Variables (rint : nat -> nat) (size : nat) (rand : bool).
(** one offer of x to a bucket which has seen L and holds items; k draws were made before *)
Definition place1 (k : nat) (L items : list item) (x : item) : list item :=
  if size <=? length (firsts L) then
    if rand then let j := randint1 rint k (length L + 1) in if j <=? size then upd items (j - 1) x else items
    else items
  else if in_dec nfdec (ibraid x) (map ibraid items) then items else items ++ [x].
Definition sim : Type := list (event stag) * nat * (stag -> list item).
Definition sim_step (s : sim) (e : event stag) : sim :=
  let '(h, k, f) := s in
  match e with
  | Dropped t => (h ++ [e], k, fun t' => if stagdec t t' then [] else f t')
  | Offered t x => let L := since stagdec t h in
      (h ++ [e], if (size <=? length (firsts L)) && rand then S k else k, fun t' => if stagdec t t' then place1 k L (f t) x else f t')
  end.
Definition sim_of (h : list (event stag)) : sim := fold_left sim_step h ([], 0, fun _ => []).
Definition ndraws (h : list (event stag)) : nat := snd (fst (sim_of h)).
Definition held (tag : stag) (h : list (event stag)) : list item := snd (sim_of h) tag.
Lemma sim_hist h : fst (fst (sim_of h)) = h.
Proof.
  induction h as [|e h IH] using rev_ind; [reflexivity|]. unfold sim_of in *. rewrite fold_left_app. cbn [fold_left]. destruct (fold_left sim_step h _) as [[h' k] f]. cbn in IH. subst h'. destruct e; reflexivity.
Qed.
Lemma since_snoc2 tag h e : since stagdec tag (h ++ [e]) = note stagdec tag (since stagdec tag h) e.
Proof. unfold since. now rewrite fold_left_app. Qed.
Lemma ndraws_snoc h e : ndraws (h ++ [e]) = match e with Offered t _ => if (size <=? length (firsts (since stagdec t h))) && rand then S (ndraws h) else ndraws h | Dropped _ => ndraws h end.
Proof.
  unfold ndraws, sim_of. rewrite fold_left_app. cbn [fold_left]. pose proof (sim_hist h) as E. unfold sim_of in E. destruct (fold_left sim_step h _) as [[h' k] f]. cbn in E. subst h'. destruct e; reflexivity.
Qed.
Lemma held_snoc tag h e : held tag (h ++ [e]) = match e with
  | Offered t x => if stagdec t tag then place1 (ndraws h) (since stagdec t h) (held t h) x else held tag h
  | Dropped t => if stagdec t tag then [] else held tag h end.
Proof.
  unfold held, ndraws, sim_of. rewrite fold_left_app. cbn [fold_left]. pose proof (sim_hist h) as E. unfold sim_of in E. destruct (fold_left sim_step h _) as [[h' k] f]. cbn in E. subst h'. destruct e; reflexivity.
Qed.
Lemma held_props tag h : 1 <= size ->
  let L := since stagdec tag h in let items := held tag h in
  (exists rest, Permutation L (items ++ rest)) /\ length items = Nat.min size (length (firsts L)) /\
  (length (firsts L) <= size -> length items < size -> items = firsts L) /\ (rand = false -> items = firstn size (firsts L)).
Proof.
  intros Hs. cbn zeta. induction h as [|e h IH] using rev_ind.
  - split; [exists []; constructor|]. split; [cbn; lia|]. split; [reflexivity|]. intros _. cbn. now rewrite firstn_nil.
  - rewrite since_snoc2, held_snoc. destruct e as [t x|t]; cbn [note]; destruct (stagdec t tag) as [->|N]; try exact IH.
    2: { split; [exists []; constructor|]. split; [cbn; lia|]. split; [reflexivity|]. intros _. cbn. now rewrite firstn_nil. }
    destruct IH as ([rest P] & Ln & Nf & Gr). set (L := since stagdec tag h) in *. set (items := held tag h) in *. set (k := ndraws h). pose proof (firsts_le L x) as FL. unfold place1.
    destruct (Nat.leb_spec size (length (firsts L))) as [Full|NF].
    + assert (Li : length items = size) by lia. assert (SK : (exists rest0, Permutation (L ++ [x]) (items ++ rest0)) /\ length items = Nat.min size (length (firsts (L ++ [x])))).
      { split; [exists (rest ++ [x]); rewrite P; now rewrite app_assoc|lia]. }
      assert (FF : firstn size (firsts (L ++ [x])) = firstn size (firsts L)).
      { rewrite firsts_snoc. unfold add_first. destruct (in_dec nfdec _ _); [reflexivity|]. rewrite firstn_snoc. now rewrite (proj2 (Nat.ltb_ge _ _)) by exact Full. }
      destruct rand.
      * cbn zeta. set (j := randint1 rint k (length L + 1)). assert (Hj : 1 <= j) by (unfold j, randint1; lia). destruct (Nat.leb_spec j size) as [J|J].
        -- destruct (nth_error items (j - 1)) as [y|] eqn:Y; [|apply nth_error_None in Y; lia]. split; [exists (y :: rest); now apply perm_replace|]. rewrite upd_length. split; [lia|]. split; [intros; lia|discriminate].
        -- destruct SK as [SK1 SK2]. split; [exact SK1|]. split; [exact SK2|]. split; [intros; lia|discriminate].
      * destruct SK as [SK1 SK2]. split; [exact SK1|]. split; [exact SK2|]. split; [intros; lia|]. intros _. rewrite FF. now apply Gr.
    + assert (EI : items = firsts L) by (apply Nf; lia). rewrite firsts_snoc. unfold add_first. rewrite <- EI. destruct (in_dec nfdec (ibraid x) (map ibraid items)) as [D|D].
      * split; [exists (rest ++ [x]); rewrite P; now rewrite app_assoc|]. split; [lia|]. split; [auto|]. intros _. rewrite firstn_all2 by lia. reflexivity.
      * split; [exists rest; rewrite P, <- !app_assoc; apply Permutation_app_head, Permutation_app_comm|]. rewrite app_length. cbn [length]. split; [lia|]. split; [auto|]. intros _. rewrite firstn_all2 by (rewrite app_length; cbn; lia). reflexivity.
Qed.
Lemma held_len tag h : 1 <= size -> length (held tag h) = Nat.min size (length (firsts (since stagdec tag h))).
Proof. intros Hs. now destruct (held_props tag h Hs) as (_ & H & _). Qed.
Lemma firsts_nil L : L <> [] -> firsts L <> [].
Proof. destruct L as [|x L] using rev_ind; [congruence|]. intros _. rewrite firsts_snoc. unfold add_first. destruct (in_dec nfdec _ _) as [H|]; [|intros E; now apply app_eq_nil in E]. intros E. rewrite E in H. destruct H. Qed.

(** ** the tracker *)
Variables (I J : nat) (t : dtype).
Definition stag_span (tag : stag) : nat := Z.to_nat (snd tag).
Definition st_ok (s : strk) (h : list (event stag)) : Prop :=
  st_size s = size /\ st_rand s = rand /\ st_draws s = ndraws h /\
  forall tag, match dget stag_eqb (st_buckets s) tag with
    | None => since stagdec tag h = []
    | Some b => since stagdec tag h <> [] /\ sbinv size I J (stag_span tag) t b (held tag h) /\
        (length (held tag h) < size -> sb_set b = map ibraid (held tag h)) /\
        dget stag_eqb (st_counts s) tag = Some (length (since stagdec tag h))
    end.
Lemma st_offer_ok s h tag x image : 1 <= size -> st_ok s h -> iok I J (stag_span tag) t x -> projectivise image = Ok (iimage x) ->
  exists s', st_offer rint s (ibraid x) image tag = Ok s' /\ st_ok s' (h ++ [Offered tag x]).
Proof.
  intros Hs (E1 & E2 & E3 & HB) X PJ. unfold st_offer. pose proof (HB tag) as Ht. destruct (held_props tag h Hs) as (_ & Ln & Nf & _).
  assert (DS : forall V (d : list (stag * V)) v tag', dget stag_eqb (dset stag_eqb d tag v) tag' = if stagdec tag tag' then Some v else dget stag_eqb d tag') by (intros; apply (dget_dset _ stagdec stag_eqb_iff)).
  assert (OTHER : forall bk d n, (forall tag', tag' <> tag -> dget stag_eqb bk tag' = dget stag_eqb (st_buckets s) tag') -> (forall tag', tag' <> tag -> dget stag_eqb d tag' = dget stag_eqb (st_counts s) tag') ->
     n = (if (size <=? length (firsts (since stagdec tag h))) && rand then S (st_draws s) else st_draws s) ->
     (match dget stag_eqb bk tag with None => False | Some b => let items := place1 (ndraws h) (since stagdec tag h) (held tag h) x in
        sbinv size I J (stag_span tag) t b items /\ (length items < size -> sb_set b = map ibraid items) /\ dget stag_eqb d tag = Some (length (since stagdec tag h) + 1) end) ->
     st_ok (mkST size rand bk d n) (h ++ [Offered tag x])).
  { intros bk d n Hb Hd Hn Hm. split; [reflexivity|]. split; [reflexivity|]. split; [cbn [st_draws]; rewrite ndraws_snoc, <- E3; exact Hn|]. intros tag'. cbn [st_buckets st_counts]. rewrite since_snoc2, held_snoc. cbn [note].
    destruct (stagdec tag tag') as [<-|N].
    - destruct (dget stag_eqb bk tag) as [b|]; [|contradiction]. split; [intros Z; now apply app_eq_nil in Z|]. rewrite app_length. cbn [length]. exact Hm.
    - rewrite Hb, Hd by congruence. apply HB. }
  rewrite E1, E2. destruct (dget stag_eqb (st_buckets s) tag) as [b|] eqn:G.
  - destruct Ht as (NE & B & ST & CT). unfold dgetE. rewrite CT. cbn [bind]. rewrite (sbi_braids _ _ _ _ _ _ _ B), map_length.
    assert (CN : forall v tag', tag' <> tag -> dget stag_eqb (dset stag_eqb (st_counts s) tag v) tag' = dget stag_eqb (st_counts s) tag') by (intros v tag' N; rewrite DS; destruct (stagdec tag tag'); congruence).
    assert (CE : forall v, dget stag_eqb (dset stag_eqb (st_counts s) tag v) tag = Some v) by (intros v; rewrite DS; destruct (stagdec tag tag); congruence).
    destruct (Nat.eqb_spec (length (held tag h)) size) as [Fu|NF].
    + assert (LF : (size <=? length (firsts (since stagdec tag h))) = true) by (apply Nat.leb_le; lia).
      destruct rand eqn:ER.
      * cbn zeta. set (j := randint1 rint (st_draws s) (length (since stagdec tag h) + 1)).
        assert (PE : place1 (ndraws h) (since stagdec tag h) (held tag h) x = if j <=? size then upd (held tag h) (j - 1) x else held tag h).
        { unfold place1. rewrite LF, ER. cbn zeta. unfold j. now rewrite E3. }
        assert (Hj : 1 <= j) by (unfold j, randint1; lia). destruct (Nat.leb_spec j size) as [Hjs|Hjs].
        -- destruct (sb_replace _ _ _ _ _ _ _ x (j - 1) B X) as (bs & A & S1 & S2 & S3); [lia|]. rewrite <- (sbi_braids _ _ _ _ _ _ _ B), S1. cbn [bind]. rewrite PJ. cbn [bind]. rewrite S2. cbn [bind]. eexists. split; [reflexivity|].
           apply OTHER; [intros tag' N; rewrite DS; destruct (stagdec tag tag'); congruence|apply CN|rewrite LF; cbn; lia|]. rewrite DS. destruct (stagdec tag tag) as [_|]; [|congruence]. cbn zeta. rewrite PE. split; [exact S3|]. rewrite upd_length. split; [intros; lia|apply CE].
        -- eexists. split; [reflexivity|]. apply OTHER; [reflexivity|apply CN|rewrite LF; cbn; lia|]. rewrite G. cbn zeta. rewrite PE. split; [exact B|]. split; [exact ST|apply CE].
      * eexists. split; [reflexivity|]. apply OTHER; [reflexivity|apply CN|now rewrite LF|]. rewrite G. cbn zeta. unfold place1. rewrite LF, ER. split; [exact B|]. split; [exact ST|apply CE].
    + assert (LT : length (held tag h) < size) by (pose proof (sbi_len _ _ _ _ _ _ _ B); lia). assert (LF : (size <=? length (firsts (since stagdec tag h))) = false) by (apply Nat.leb_gt; lia).
      rewrite (ST LT), existsb_nf. assert (PE : place1 (ndraws h) (since stagdec tag h) (held tag h) x = if in_dec nfdec (ibraid x) (map ibraid (held tag h)) then held tag h else held tag h ++ [x]) by (unfold place1; now rewrite LF).
      destruct (in_dec nfdec (ibraid x) (map ibraid (held tag h))) as [D|D].
      * eexists. split; [reflexivity|]. apply OTHER; [reflexivity|apply CN|now rewrite LF|]. rewrite G. cbn zeta. rewrite PE. split; [exact B|]. split; [exact ST|apply CE].
      * rewrite PJ. cbn [bind]. destruct (sb_append _ _ _ _ _ _ _ x (map ibraid (held tag h) ++ [ibraid x]) B X LT) as (A & S1 & S2). rewrite (sbi_braids _ _ _ _ _ _ _ B), map_length in S1. rewrite S1. cbn [bind]. eexists. split; [reflexivity|].
        apply OTHER; [intros tag' N; rewrite DS; destruct (stagdec tag tag'); congruence|apply CN|now rewrite LF|]. rewrite DS. destruct (stagdec tag tag) as [_|]; [|congruence]. cbn zeta. rewrite PE.
        rewrite (sbi_braids _ _ _ _ _ _ _ B) in S2. split; [exact S2|]. split; [intros _; cbn [sb_set]; now rewrite map_app|apply CE].
  - rewrite PJ. cbn [bind]. pose proof X as (W & P & X1 & X2 & X3 & X4). destruct (sb_create size x [ibraid x] Hs W P) as (A & S1 & S2). rewrite S1. cbn [bind]. eexists. split; [reflexivity|].
    assert (HE : held tag h = []) by (apply length_zero_iff_nil; rewrite Ln, Ht; cbn; lia).
    assert (PE : place1 (ndraws h) (since stagdec tag h) (held tag h) x = [x]) by (unfold place1; rewrite Ht, HE; cbn [firsts fold_left length map]; rewrite (proj2 (Nat.leb_gt _ _)) by lia; destruct (in_dec nfdec (ibraid x) []) as [[]|]; reflexivity).
    apply OTHER.
    + intros tag' N; rewrite DS; destruct (stagdec tag tag'); congruence.
    + intros tag' N; rewrite DS; destruct (stagdec tag tag'); congruence.
    + rewrite Ht. cbn [firsts fold_left length]. now rewrite (proj2 (Nat.leb_gt _ _)) by lia.
    + rewrite !DS. destruct (stagdec tag tag) as [_|]; [|congruence]. cbn zeta. rewrite PE, Ht. rewrite X1, X2, X3, X4 in S2. split; [exact S2|]. split; reflexivity.
Qed.
Lemma st_discard_ok s h tag : st_ok s h -> st_ok (st_discard s tag) (h ++ [Dropped tag]).
Proof.
  intros (E1 & E2 & E3 & HB). split; [exact E1|]. split; [exact E2|]. split; [rewrite ndraws_snoc; exact E3|]. intros tag'. cbn [st_discard st_buckets st_counts]. rewrite (dget_ddel _ stagdec stag_eqb_iff), since_snoc2, held_snoc. cbn [note].
  destruct (stagdec tag tag'); [reflexivity|apply HB].
Qed.
End Sim.
