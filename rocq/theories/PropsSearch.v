(** PropsSearch.v – properties C77, C78 and C79: the main loop of search.py. *)
From Verif Require Import Base ModelPerm ModelBraid ModelPoly ModelMatrix ModelTL ModelTLMor ModelRep ModelPolymat ModelPolyRep ModelTracker ModelSql ModelSearch.
From Verif Require Import SpecBraid SpecPerm NFApi PermGerm PropsGNF PropsGNF2 PropsExtra PropsSql SpecPolymat SpecTracker TrackerTheory TrackerRun PropsTracker TrackerRun2 PropsTracker2.
From Verif Require Import Germ GermNF GermAct TableTheory PermTable.
From Coq Require Import Permutation Sorted.
Local Open Scope nat_scope.

(** the braids that the search stores: normal forms with power 0 *)
Definition positive_value (tb : nat -> res (nftable (list nat))) (n : nat) (b : nfobj) : Prop := nf_value tb n b /\ o_pow b = 0%Z.

(** ** a suffix of a positive braid, cut after i factors *)
Lemma ok_prefix n (n2 : 2 <= n) l m i : ok (PG n) (peqd n) (0%Z, l ++ m) -> ok (PG n) (peqd n) (0%Z, l ++ firstn i m).
Proof.
  intros H. apply (ok_normal n n2 0%Z). destruct (proj1 (ok_normal n n2 0%Z (l ++ m)) H) as [F C].
  assert (E : l ++ m = (l ++ firstn i m) ++ skipn i m) by (rewrite <- app_assoc, firstn_skipn; reflexivity).
  rewrite E, map_app in F, C. rewrite Forall_app in F. apply chain_app_inv in C. split; tauto.
Qed.
Lemma suffix_product n tb b k xs x i : 2 <= n -> gnf_table n tb -> positive_value tb n b -> (0 <= k)%Z -> nf_suffixes tb b k = Ok xs -> In x xs -> i <= Z.to_nat k ->
  exists y c, substring tb x 0 i = Ok y /\ nf_mul tb b y = Ok c /\ positive_value tb n x /\ positive_value tb n y /\ positive_value tb n c /\
    length (o_factors x) = Z.to_nat k /\ o_factors y = firstn i (o_factors x) /\ o_factors c = o_factors b ++ o_factors y.
Proof.
  intros n2 Ht [V P] Hk E Hx Hi. destruct (val_enc n tb n2 Ht b V) as [[d l] [Ho ->]]. cbn [o_pow TableTheory.enc fst] in P. subst d.
  pose proof (gnf_table_ptab n tb Ht) as Etb. pose proof (ptab_ok n n2) as TK.
  unfold nf_suffixes in E. cbn [o_n TableTheory.enc] in E. rewrite Etb in E. cbn [bind] in E.
  destruct (suffixes_ok n n2 0%Z l k Hk Ho) as [ls [E1 [ND H]]]. unfold TableTheory.enc in E1 at 1. cbn [fst snd] in *. unfold TableTheory.enc in E. cbn [fst snd o_pow o_n] in E. rewrite E1 in E. cbn [bind] in E.
  rewrite (mapM_ok _ (fun f => NFObj n 0 f)) in E. 2:{ intros f Hf. apply in_map_iff in Hf. destruct Hf as [m [<- Hm]]. apply H in Hm. destruct Hm as [_ [Om _]]. apply (mkE n tb n2 Ht 0%Z m). exact Om. }
  injection E as <-. rewrite map_map in Hx. apply in_map_iff in Hx. destruct Hx as [m [<- Hm]]. apply H in Hm. destruct Hm as [L [Om Olm]].
  change (NFObj n 0 (map (idx n) m)) with (TableTheory.enc (PG n) n (idx n) (0%Z, m)).
  assert (Of : ok (PG n) (peqd n) (0%Z, firstn i m)) by exact (ok_prefix n n2 [] m i Om).
  assert (Olf : ok (PG n) (peqd n) (0%Z, l ++ firstn i m)) by exact (ok_prefix n n2 l m i Olm).
  exists (TableTheory.enc (PG n) n (idx n) (0%Z, firstn i m)), (TableTheory.enc (PG n) n (idx n) (0%Z, l ++ firstn i m)). repeat split.
  - unfold substring. cbn [o_factors o_n o_pow TableTheory.enc fst snd]. rewrite map_length. match goal with |- context [i <=? ?q] => replace (i <=? q) with true by (symmetry; apply Nat.leb_le; rewrite <- L in Hi; exact Hi) end. cbn [Nat.leb andb assert_ bind]. rewrite Nat.sub_0_r. cbn [skipn]. rewrite firstn_map. apply (mkE n tb n2 Ht). exact Of.
  - apply (mul_even n tb n2 Ht (0%Z, l) (0%Z, firstn i m)); auto. now exists 0%Z.
  - now apply enc_val.
  - now apply enc_val.
  - now apply enc_val.
  - cbn [o_factors TableTheory.enc snd]. now rewrite map_length.
  - cbn [o_factors TableTheory.enc snd]. now rewrite firstn_map.
  - cbn [o_factors TableTheory.enc snd]. now rewrite map_app.
Qed.

(** ** what is stored where *)
Definition keys (s : strk) : list stag := map fst (st_buckets s).
(** a state of the search: one bucket for each tag, and the bucket with tag
    (l, projlen) holds positive braids of length l *)
Definition search_state (tb : nat -> res (nftable (list nat))) (n : nat) (s : strk) : Prop :=
  NoDup (keys s) /\
  forall tag b x, dget stag_eqb (st_buckets s) tag = Some b -> In x (sb_braids b) -> positive_value tb n x /\ length (o_factors x) = fst tag.

Lemma dset_keys {V} (d : list (stag * V)) k v : map fst (dset stag_eqb d k v) = if in_dec stagdec k (map fst d) then map fst d else map fst d ++ [k].
Proof.
  induction d as [|[k' v'] d IH]; [reflexivity|]. cbn [dset map fst]. destruct (stag_eqb k k') eqn:E.
  - apply stag_eqb_iff in E. subst k'. destruct (in_dec stagdec k (k :: map fst d)) as [_|N]; [reflexivity|]. exfalso. apply N. now left.
  - assert (NE : k' <> k) by (intros ->; rewrite (proj2 (stag_eqb_iff k k) eq_refl) in E; discriminate). cbn [map fst]. rewrite IH. destruct (in_dec stagdec k (map fst d)) as [I1|N1], (in_dec stagdec k (k' :: map fst d)) as [I2|N2]; cbn in *; try reflexivity; exfalso; intuition.
Qed.
Lemma dset_nodup {V} (d : list (stag * V)) k v : NoDup (map fst d) -> NoDup (map fst (dset stag_eqb d k v)).
Proof.
  intros H. rewrite dset_keys. destruct (in_dec stagdec k (map fst d)) as [_|N]; [exact H|]. apply NoDup_app_intro; [exact H|repeat constructor; auto|]. intros x Hx [<-|[]]. contradiction.
Qed.
Lemma dget_in {V} (d : list (stag * V)) k : (exists v, dget stag_eqb d k = Some v) <-> In k (map fst d).
Proof.
  induction d as [|[k' v'] d IH]; cbn [dget map fst In]; [split; [intros [v H]; discriminate|intros []]|].
  destruct (stag_eqb k k') eqn:E.
  - apply stag_eqb_iff in E. subst k'. split; [now left|]. intros _. now exists v'.
  - rewrite IH. split; [now right|]. intros [->|H]; [|exact H]. rewrite (proj2 (stag_eqb_iff k k) eq_refl) in E. discriminate.
Qed.
Lemma dget_nodup {V} (d : list (stag * V)) k v : NoDup (map fst d) -> In (k, v) d -> dget stag_eqb d k = Some v.
Proof.
  induction d as [|[k' v'] d IH]; [intros _ []|]. cbn [map fst dget]. intros N. inversion N as [|? ? N1 N2]; subst. intros [[= -> ->]|H].
  - now rewrite (proj2 (stag_eqb_iff k k) eq_refl).
  - destruct (stag_eqb k k') eqn:E; [|now apply IH]. apply stag_eqb_iff in E. subst k'. exfalso. apply N1. now apply (in_map fst) in H.
Qed.
Lemma in_dget {V} (d : list (stag * V)) k v : dget stag_eqb d k = Some v -> In (k, v) d.
Proof.
  induction d as [|[k' v'] d IH]; cbn [dget]; [discriminate|]. destruct (stag_eqb k k') eqn:E; [|intros H; right; auto]. apply stag_eqb_iff in E. subst k'. intros [= ->]. now left.
Qed.
Lemma DS {V} (d : list (stag * V)) k v k' : dget stag_eqb (dset stag_eqb d k v) k' = if stagdec k k' then Some v else dget stag_eqb d k'.
Proof. apply (dget_dset _ stagdec stag_eqb_iff). Qed.
Lemma DD {V} (d : list (stag * V)) k k' : dget stag_eqb (ddel stag_eqb d k) k' = if stagdec k k' then None else dget stag_eqb d k'.
Proof. apply (dget_ddel _ stagdec stag_eqb_iff). Qed.

Lemma st_offer_effect rint s b im tag s' : st_offer rint s b im tag = Ok s' ->
  (NoDup (keys s) -> NoDup (keys s')) /\ (forall tag', tag' <> tag -> dget stag_eqb (st_buckets s') tag' = dget stag_eqb (st_buckets s) tag') /\
  (forall d' x, dget stag_eqb (st_buckets s') tag = Some d' -> In x (sb_braids d') -> x = b \/ exists d, dget stag_eqb (st_buckets s) tag = Some d /\ In x (sb_braids d)).
Proof.
  unfold st_offer, keys. destruct (dget stag_eqb (st_buckets s) tag) as [d|] eqn:G.
  2:{ destruct (projectivise im) as [x|]; [|discriminate]. cbn [bind]. destruct (set_item _ _ _) as [y|]; [|discriminate]. cbn [bind]. intros [= <-]. cbn [st_buckets]. split; [apply dset_nodup|]. split.
      - intros tag' N. rewrite DS. destruct (stagdec tag tag'); [congruence|reflexivity].
      - intros d' z. rewrite DS. destruct (stagdec tag tag); [|congruence]. intros [= <-] [<-|[]]. now left. }
  destruct (dgetE stag_eqb (st_counts s) tag) as [c|]; [|discriminate]. cbn [bind].
  assert (SAME : forall cn dr, (NoDup (map fst (st_buckets s)) -> NoDup (map fst (st_buckets (mkST (st_size s) (st_rand s) (st_buckets s) cn dr)))) /\
      (forall tag', tag' <> tag -> dget stag_eqb (st_buckets (mkST (st_size s) (st_rand s) (st_buckets s) cn dr)) tag' = dget stag_eqb (st_buckets s) tag') /\
      (forall d' x, dget stag_eqb (st_buckets (mkST (st_size s) (st_rand s) (st_buckets s) cn dr)) tag = Some d' -> In x (sb_braids d') -> x = b \/ exists d0, Some d = Some d0 /\ In x (sb_braids d0))).
  { intros cn dr. cbn [st_buckets]. split; [auto|]. split; [auto|]. rewrite G. intros d' x [= ->] Hx. right. eauto. }
  assert (NEW : forall bs ims st cn dr, (forall x, In x bs -> x = b \/ In x (sb_braids d)) ->
     let s' := mkST (st_size s) (st_rand s) (dset stag_eqb (st_buckets s) tag (mkSB bs ims st)) cn dr in
     (NoDup (map fst (st_buckets s)) -> NoDup (map fst (st_buckets s'))) /\ (forall tag', tag' <> tag -> dget stag_eqb (st_buckets s') tag' = dget stag_eqb (st_buckets s) tag') /\
     (forall d' x, dget stag_eqb (st_buckets s') tag = Some d' -> In x (sb_braids d') -> x = b \/ exists d0, Some d = Some d0 /\ In x (sb_braids d0))).
  { intros bs ims st cn dr HB s0. unfold s0. cbn [st_buckets]. split; [apply dset_nodup|]. split.
    - intros tag' N. rewrite DS. destruct (stagdec tag tag'); [congruence|reflexivity].
    - intros d' x. rewrite DS. destruct (stagdec tag tag); [|congruence]. intros [= <-] Hx. cbn [sb_braids] in Hx. destruct (HB x Hx) as [->|H]; [now left|right; eauto]. }
  destruct (length (sb_braids d) =? st_size s).
  - destruct (st_rand s); [|intros [= <-]; apply SAME]. cbv zeta. destruct (_ <=? _); [|intros [= <-]; apply SAME].
    destruct (set_ (sb_braids d) _ b) as [bs|] eqn:SB; [|discriminate]. cbn [bind]. destruct (projectivise im) as [x|]; [|discriminate]. cbn [bind]. destruct (set_item _ _ _) as [y|]; [|discriminate]. cbn [bind]. intros [= <-]. apply NEW.
    intros z Hz. unfold set_ in SB. destruct (_ <? _) eqn:LT in SB; [|discriminate]. injection SB as <-. apply In_nth_error in Hz. destruct Hz as [i Hi]. rewrite nth_error_upd in Hi. destruct (_ && _) in Hi; [left; congruence|right; eapply nth_error_In; exact Hi].
  - destruct (existsb _ _); [intros [= <-]; apply SAME|]. destruct (projectivise im) as [x|]; [|discriminate]. cbn [bind]. destruct (set_item _ _ _) as [y|]; [|discriminate]. cbn [bind]. intros [= <-]. apply NEW.
    intros z Hz. apply in_app_or in Hz. destruct Hz as [Hz|[<-|[]]]; auto.
Qed.
Lemma st_offer_keys rint s b im tag s' : st_offer rint s b im tag = Ok s' -> forall t, In t (keys s) -> In t (keys s').
Proof.
  assert (D : forall v t, In t (map fst (st_buckets s)) -> In t (map fst (dset stag_eqb (st_buckets s) tag v))) by (intros v t H; rewrite dset_keys; destruct (in_dec _ _ _); [exact H|apply in_or_app; now left]).
  unfold st_offer, keys. destruct (dget stag_eqb (st_buckets s) tag) as [d|] eqn:G.
  2:{ destruct (projectivise im) as [x|]; [|discriminate]. cbn [bind]. destruct (set_item _ _ _) as [y|]; [|discriminate]. cbn [bind]. intros [= <-]. cbn [st_buckets]. apply D. }
  destruct (dgetE stag_eqb (st_counts s) tag) as [c|]; [|discriminate]. cbn [bind]. destruct (length (sb_braids d) =? st_size s).
  - destruct (st_rand s); [|intros [= <-]; auto]. cbv zeta. destruct (_ <=? _); [|intros [= <-]; auto].
    destruct (set_ (sb_braids d) _ b) as [bs|] eqn:SB; [|discriminate]. cbn [bind]. destruct (projectivise im) as [x|]; [|discriminate]. cbn [bind]. destruct (set_item _ _ _) as [y|]; [|discriminate]. cbn [bind]. intros [= <-]. apply D.
  - destruct (existsb _ _); [intros [= <-]; auto|]. destruct (projectivise im) as [x|]; [|discriminate]. cbn [bind]. destruct (set_item _ _ _) as [y|]; [|discriminate]. cbn [bind]. intros [= <-]. apply D.
Qed.

(** one batch: other lengths are not touched, and what is stored was offered or was there *)
Definition from_batch (s s' : strk) (bs : list nfobj) : Prop :=
  ((NoDup (keys s) -> NoDup (keys s')) /\ forall t, In t (keys s) -> In t (keys s')) /\
  (forall tag, (forall b, In b bs -> length (o_factors b) <> fst tag) -> dget stag_eqb (st_buckets s') tag = dget stag_eqb (st_buckets s) tag) /\
  (forall tag d' x, dget stag_eqb (st_buckets s') tag = Some d' -> In x (sb_braids d') ->
     (In x bs /\ length (o_factors x) = fst tag) \/ exists d, dget stag_eqb (st_buckets s) tag = Some d /\ In x (sb_braids d)).
Lemma from_batch_refl s : from_batch s s [].
Proof. split; [auto|]. split; [reflexivity|]. intros tag d' x H1 H2. right. eauto. Qed.
Lemma from_batch_trans s1 s2 s3 a b : from_batch s1 s2 a -> from_batch s2 s3 b -> from_batch s1 s3 (a ++ b).
Proof.
  intros ([A1 A1'] & A2 & A3) ([B1 B1'] & B2 & B3). split; [split; auto|]. split.
  - intros tag H. rewrite B2, A2; [reflexivity| |]; intros x Hx; apply H, in_or_app; auto.
  - intros tag d' x H1 H2. destruct (B3 tag d' x H1 H2) as [[K1 K2]|(d & K1 & K2)]; [left; split; [apply in_or_app; now right|exact K2]|].
    destruct (A3 tag d x K1 K2) as [[L1 L2]|L]; [left; split; [apply in_or_app; now left|exact L2]|now right].
Qed.
Lemma st_add_effect rint crit s bs im s' : st_add rint crit s bs im = Ok s' -> exists bs', (forall b, In b bs' -> In b bs) /\ from_batch s s' bs'.
Proof.
  rewrite st_add_fold. destruct (image_stats_check bs im); [|discriminate]. cbn [bind]. destruct (crit bs im) as [keep|]; [|discriminate]. cbn [bind]. destruct (projlen im) as [pls|]; [|discriminate]. cbn [bind].
  generalize (filter (fun i => nth i keep false) (seq 0 (length keep))) as l. intros l. revert s. induction l as [|i l IH]; intros s; cbn [foldM].
  - intros [= <-]. exists []. split; [intros b []|apply from_batch_refl].
  - unfold sget at 1. destruct (get bs i) as [b|] eqn:G; [|discriminate]. cbn [bind]. destruct (arr_item im (Z.of_nat i)) as [x|]; [|discriminate]. cbn [bind]. destruct (get pls i) as [pl|]; [|discriminate]. cbn [bind]. unfold soff at 1.
    destruct (st_offer rint s b x (canonical_length b, pl)) as [s1|] eqn:E; [|discriminate]. cbn [bind]. intros H. destruct (IH s1 H) as (bs' & I1 & F). exists ([b] ++ bs'). split.
    + intros c [<-|Hc]; [|now apply I1]. unfold get in G. destruct (nth_error bs i) eqn:N; [|discriminate]. injection G as <-. eapply nth_error_In; exact N.
    + refine (from_batch_trans _ _ _ _ _ _ F). destruct (st_offer_effect rint s b x _ s1 E) as (O1 & O2 & O3). split; [exact (conj O1 (st_offer_keys _ _ _ _ _ _ E))|]. split.
      * intros tag K. apply O2. intros ->. apply (K b); [now left|reflexivity].
      * intros tag d' z H1 H2. destruct (stagdec tag (canonical_length b, pl)) as [->|N]; [|right; exists d'; rewrite <- (O2 tag N); auto]. destruct (O3 d' z H1 H2) as [->|K]; [left; split; [now left|reflexivity]|now right].
Qed.
(** ** a sequence of batches *)
Definition from_run (tb : nat -> res (nftable (list nat))) (n k : nat) (s s' : strk) : Prop :=
  ((NoDup (keys s) -> NoDup (keys s')) /\ forall t, In t (keys s) -> In t (keys s')) /\
  (forall tag, fst tag <= k -> dget stag_eqb (st_buckets s') tag = dget stag_eqb (st_buckets s) tag) /\
  (forall tag d' x, dget stag_eqb (st_buckets s') tag = Some d' -> In x (sb_braids d') ->
     (positive_value tb n x /\ length (o_factors x) = fst tag) \/ exists d, dget stag_eqb (st_buckets s) tag = Some d /\ In x (sb_braids d)).
Lemma from_run_refl tb n k s : from_run tb n k s s.
Proof. split; [auto|]. split; [reflexivity|]. intros tag d' x H1 H2. right. eauto. Qed.
Lemma from_run_trans tb n k s1 s2 s3 : from_run tb n k s1 s2 -> from_run tb n k s2 s3 -> from_run tb n k s1 s3.
Proof.
  intros ([A1 A1'] & A2 & A3) ([B1 B1'] & B2 & B3). split; [split; auto|]. split.
  - intros tag H. now rewrite B2, A2.
  - intros tag d' x H1 H2. destruct (B3 tag d' x H1 H2) as [K|(d & K1 & K2)]; [now left|]. now apply (A3 tag d x).
Qed.
Lemma from_run_batch tb n k s s' bs : from_batch s s' bs -> (forall b, In b bs -> positive_value tb n b /\ k < length (o_factors b)) -> from_run tb n k s s'.
Proof.
  intros (A1 & A2 & A3) H. split; [exact A1|]. split.
  - intros tag L. apply A2. intros b Hb. destruct (H b Hb). lia.
  - intros tag d' x H1 H2. destruct (A3 tag d' x H1 H2) as [[K1 K2]|K]; [left; split; [apply H, K1|exact K2]|now right].
Qed.
Lemma from_run_state tb n k s s' : from_run tb n k s s' -> search_state tb n s -> search_state tb n s'.
Proof.
  intros ([A1 A1'] & A2 & A3) [N H]. split; [now apply A1|]. intros tag b x H1 H2. destruct (A3 tag b x H1 H2) as [K|(d & K1 & K2)]; [exact K|]. now apply (H tag d x).
Qed.
Lemma from_run_weak tb n k k' s s' : k' <= k -> from_run tb n k s s' -> from_run tb n k' s s'.
Proof. intros L (A1 & A2 & A3). split; [exact A1|]. split; [|exact A3]. intros tag H. apply A2. lia. Qed.
Lemma foldM_run {X} tb n k (f : strk -> X -> res strk) (P : X -> Prop) l : (forall s x s', P x -> search_state tb n s -> f s x = Ok s' -> from_run tb n k s s') ->
  Forall P l -> forall s s', search_state tb n s -> foldM f l s = Ok s' -> from_run tb n k s s'.
Proof.
  intros H F. induction F as [|x l Px F IH]; intros s s' SS; cbn [foldM]; [intros [= <-]; apply from_run_refl|].
  destruct (f s x) as [s1|] eqn:E; [|discriminate]. cbn [bind]. intros E2. pose proof (H s x s1 Px SS E) as R1. apply (from_run_trans _ _ _ _ s1); [exact R1|]. apply (IH s1 s'); [|exact E2]. now apply (from_run_state tb n k s).
Qed.

(** ** the selection *)
Definition proj (r : stag * nat) : Z := snd (fst r).
Definition total (l : list (stag * nat)) : nat := fold_right (fun r a => snd r + a) 0 l.
Lemma total_perm l l' : Permutation l l' -> total l = total l'.
Proof. induction 1; cbn [total fold_right]; unfold total in *; lia. Qed.
Lemma total_filter_perm f l l' : Permutation l l' -> total (filter f l) = total (filter f l').
Proof.
  intros P. apply total_perm. induction P as [|x l l' P IH|x y l|l l1 l2 P IH P2 IH2]; cbn [filter]; [reflexivity| | |now rewrite IH].
  - destruct (f x); [now constructor|exact IH].
  - destruct (f x), (f y); try reflexivity. apply perm_swap.
Qed.
Lemma insert_perm x l : Permutation (insert_row x l) (x :: l).
Proof. induction l as [|y l IH]; cbn [insert_row]; [reflexivity|]. destruct (_ <=? _)%Z; [reflexivity|]. rewrite IH. apply perm_swap. Qed.
Lemma sort_perm l : Permutation (sort_rows l) l.
Proof. induction l as [|x l IH]; cbn [sort_rows fold_right]; [reflexivity|]. rewrite insert_perm. now constructor. Qed.
Lemma insert_sorted x l : StronglySorted (fun a b => (proj a < proj b)%Z) l -> ~ In (proj x) (map proj l) -> StronglySorted (fun a b => (proj a < proj b)%Z) (insert_row x l).
Proof.
  induction 1 as [|y l SS IH F]; intros N; cbn [insert_row]; [repeat constructor|]. fold (proj x) (proj y). cbn [map In] in N. destruct (Z.leb_spec (proj x) (proj y)) as [L|L].
  - constructor; [now constructor|]. constructor; [lia|]. rewrite Forall_forall in *. intros z Hz. specialize (F z Hz). lia.
  - constructor; [apply IH; tauto|]. apply (Permutation_Forall (Permutation_sym (insert_perm x l))). now constructor.
Qed.
Lemma sort_sorted l : NoDup (map proj l) -> StronglySorted (fun a b => (proj a < proj b)%Z) (sort_rows l).
Proof.
  induction l as [|x l IH]; cbn [map sort_rows fold_right]; intros N; [constructor|]. inversion N as [|? ? N1 N2]; subst. apply insert_sorted; [now apply IH|]. intros K. apply N1. revert K. apply Permutation_in, Permutation_map, sort_perm.
Qed.
Lemma cumsum_spec limit l : StronglySorted (fun a b => (proj a < proj b)%Z) l -> forall acc x,
  In x (cumsum_le limit acc l) <-> In x l /\ (Z.of_nat (acc + total (filter (fun y => proj y <=? proj x)%Z l)) <= limit)%Z.
Proof.
  induction 1 as [|y l SS IH F]; intros acc x; [cbn; tauto|]. cbn [cumsum_le filter]. rewrite Forall_forall in F.
  assert (E0 : forall z, In z l -> (proj y <=? proj z)%Z = true) by (intros z Hz; apply Z.leb_le; specialize (F z Hz); lia).
  assert (E1 : filter (fun z => proj z <=? proj y)%Z l = []).
  { clear - F. induction l as [|z l IHl]; [reflexivity|]. cbn [filter]. destruct (Z.leb_spec (proj z) (proj y)) as [K|K]; [specialize (F z (or_introl eq_refl)); lia|]. apply IHl. intros w Hw. apply F. now right. }
  assert (IN : forall z, In z (cumsum_le limit (acc + snd y) l) <-> In z l /\ (Z.of_nat (acc + total (filter (fun y => proj y <=? proj z)%Z (y :: l))) <= limit)%Z).
  { intros z. rewrite IH. split; intros [Hz K]; (split; [exact Hz|]); cbn [filter] in *; rewrite (E0 z Hz) in *; cbn [total fold_right] in *; fold (total (filter (fun y0 => proj y0 <=? proj z)%Z l)) in *; lia. }
  destruct (Z.leb_spec (Z.of_nat (acc + snd y)) limit) as [L|L].
  - cbn [In]. split.
    + intros [<-|Hx]; [|specialize (proj1 (IN x) Hx) as [? ?]; split; [now right|assumption]]. split; [now left|]. rewrite Z.leb_refl. rewrite E1. cbn [total fold_right]. lia.
    + intros [[<-|Hx] K]; [now left|]. right. apply IN. split; [exact Hx|exact K].
  - rewrite IN. split; [intros [? ?]; split; [now right|assumption]|]. intros [[<-|Hx] K]; [|now split]. exfalso. rewrite Z.leb_refl, E1 in K. cbn [total fold_right] in K. lia.
Qed.
Lemma cumsum_nodup limit l : NoDup l -> forall acc, NoDup (cumsum_le limit acc l) /\ (forall x, In x (cumsum_le limit acc l) -> In x l) /\
  (cumsum_le limit acc l = [] \/ Z.of_nat (acc + total (cumsum_le limit acc l)) <= limit)%Z.
Proof.
  induction 1 as [|x l N D IH]; intros acc; [cbn; repeat split; auto; constructor|]. cbn [cumsum_le]. destruct (Z.leb_spec (Z.of_nat (acc + snd x)) limit) as [L|L].
  - destruct (IH (acc + snd x)) as (A & B & C). split; [constructor; auto|]. split; [intros z [<-|Hz]; [now left|right; auto]|]. right. cbn [total fold_right]. fold (total (cumsum_le limit (acc + snd x) l)). destruct C as [C|C]; [rewrite C; cbn [total fold_right]; lia|lia].
  - destruct (IH (acc + snd x)) as (A & B & C). split; [exact A|]. split; [intros z Hz; right; auto|]. destruct C as [C|C]; [now left|right; lia].
Qed.

(** the number of braids in the bucket with this tag *)
Definition bucket_count (s : strk) (tag : stag) : nat := match dget stag_eqb (st_buckets s) tag with Some b => length (sb_braids b) | None => 0 end.
Definition sum_of (l : list nat) : nat := fold_right Nat.add 0 l.
(** the number of braids of length k whose projlen is at most z *)
Definition mass (s : strk) (k : nat) (z : Z) : nat :=
  sum_of (map (bucket_count s) (filter (fun t => (fst t =? k) && (snd t <=? z)%Z) (keys s))).

Lemma rows_of s : stats_rows s = map (fun '(t, b) => (t, length (sb_braids b))) (st_buckets s).
Proof. reflexivity. Qed.
Lemma rows_keys s : map fst (stats_rows s) = keys s.
Proof. unfold stats_rows, keys. rewrite map_map. apply map_ext. intros [t b]. reflexivity. Qed.
Lemma row_count s t c : NoDup (keys s) -> In (t, c) (stats_rows s) -> c = bucket_count s t.
Proof.
  intros N H. unfold stats_rows in H. apply in_map_iff in H. destruct H as ([t' b] & [= -> <-] & H). unfold bucket_count. now rewrite (dget_nodup _ _ _ N H).
Qed.
Lemma total_rows s f : NoDup (keys s) -> total (filter (fun r => f (fst r)) (stats_rows s)) = sum_of (map (bucket_count s) (filter f (keys s))).
Proof.
  intros N. rewrite <- rows_keys. assert (H : forall t c, In (t, c) (stats_rows s) -> c = bucket_count s t) by (intros t c; now apply row_count). clear N. revert H. generalize (stats_rows s) as l. intros l H. induction l as [|[t c] l IH]; [reflexivity|]. cbn [filter map fst].
  assert (E : c = bucket_count s t) by (apply H; now left). assert (IH' := IH (fun t c K => H t c (or_intror K))). destruct (f t); [|exact IH']. cbn [total fold_right map sum_of]. unfold total, sum_of in *. cbn [snd]. rewrite E, IH'. reflexivity.
Qed.
Lemma selection_spec s rows k limit : NoDup (keys s) -> Permutation (stats_rows s) rows ->
  NoDup (map fst (selection rows k limit)) /\
  (forall t, In t (map fst (selection rows k limit)) <-> In t (keys s) /\ fst t = k /\ (Z.of_nat (mass s k (snd t)) <= limit)%Z) /\
  (map fst (selection rows k limit) = [] \/ (Z.of_nat (sum_of (map (bucket_count s) (map fst (selection rows k limit)))) <= limit)%Z).
Proof.
  intros N P. assert (NR : NoDup (map fst rows)) by (apply (Permutation_NoDup (Permutation_map fst P)); now rewrite rows_keys).
  set (l := filter (fun r => fst (fst r) =? k) rows). assert (NL : NoDup (map fst l)). { unfold l. clear - NR. induction rows as [|r rows IH]; [constructor|]. cbn [map] in NR. inversion NR as [|? ? A B]; subst. cbn [filter]. destruct (_ =? _); [|auto]. cbn [map]. constructor; [|auto]. intros K. apply A. apply in_map_iff in K. destruct K as (x & E & Hx). apply filter_In in Hx. apply in_map_iff. exists x. split; [exact E|tauto]. }
  assert (Hk : forall r, In r l -> fst (fst r) = k) by (intros r Hr; apply filter_In in Hr; now apply Nat.eqb_eq).
  assert (NP : NoDup (map proj l)).
  { clear - NL Hk. induction l as [|r l IH]; [constructor|]. cbn [map] in *. inversion NL as [|? ? A B]; subst. constructor; [|apply IH; [exact B|intros; apply Hk; now right]]. intros K. apply A. apply in_map_iff in K. destruct K as (x & E & Hx). apply in_map_iff. exists x. split; [|exact Hx]. pose proof (Hk r (or_introl eq_refl)). pose proof (Hk x (or_intror Hx)). unfold proj in E. destruct x as [[? ?] ?], r as [[? ?] ?]. cbn in *. congruence. }
  pose proof (sort_perm l) as SP. pose proof (sort_sorted l NP) as SS. pose proof (cumsum_spec limit _ SS 0) as CS.
  assert (NS : NoDup (map fst (sort_rows l))) by (apply (Permutation_NoDup (Permutation_sym (Permutation_map fst SP)) NL)).
  unfold selection. fold l. destruct (cumsum_nodup limit (sort_rows l) (NoDup_map_inv _ _ NS) 0) as (C1 & C2 & C3).
  assert (ROW : forall t c, In (t, c) (sort_rows l) -> In t (keys s) /\ fst t = k /\ c = bucket_count s t).
  { intros t c H. apply (Permutation_in _ SP) in H. pose proof (Hk _ H) as E. apply filter_In in H. destruct H as [H _]. apply (Permutation_in _ (Permutation_sym P)) in H. split; [rewrite <- rows_keys; now apply (in_map fst) in H|]. split; [exact E|]. now apply row_count. }
  assert (TOT : forall z, total (filter (fun y => proj y <=? z)%Z (sort_rows l)) = mass s k z).
  { intros z. rewrite (total_filter_perm _ _ _ SP). transitivity (total (filter (fun r => (fst (fst r) =? k) && (snd (fst r) <=? z)%Z) (stats_rows s))); [|exact (total_rows s (fun t => (fst t =? k) && (snd t <=? z)%Z) N)]. rewrite (total_filter_perm _ _ _ P). unfold l. f_equal. clear. induction rows as [|[[a c] m] rows IH]; [reflexivity|]. cbn [filter fst snd]. destruct (a =? k); cbn [filter andb fst snd]; [|exact IH]. unfold proj at 1. cbn [fst snd]. destruct (c <=? z)%Z; [now f_equal|exact IH]. }
  split; [|split].
  - clear - C1 C2 NS. induction (cumsum_le limit 0 (sort_rows l)) as [|r q IH]; [constructor|]. inversion C1 as [|? ? A B]; subst. cbn [map]. constructor; [|apply IH; [exact B|intros; apply C2; now right]].
    intros K. apply in_map_iff in K. destruct K as (x & E & Hx). apply A. replace r with x; [exact Hx|]. pose proof (C2 r (or_introl eq_refl)) as H1. pose proof (C2 x (or_intror Hx)) as H2. clear - NS E H1 H2. induction (sort_rows l) as [|w q IH]; [destruct H1|]. cbn [map] in NS. inversion NS as [|? ? A B]; subst. destruct H1 as [<-|H1], H2 as [<-|H2]; auto; exfalso; apply A; apply in_map_iff; eauto.
  - intros t. rewrite in_map_iff. split.
    + intros ([t' c] & <- & H). apply CS in H. destruct H as [H1 H2]. cbn [fst] in *. rewrite TOT in H2. destruct (ROW _ _ H1) as (R1 & R2 & R3). split; [exact R1|]. split; [exact R2|]. exact H2.
    + intros (R1 & R2 & R3). rewrite <- rows_keys in R1. apply in_map_iff in R1. destruct R1 as ([t' c] & <- & H). cbn [fst] in *. exists (t', c). split; [reflexivity|]. apply CS. split; [|rewrite TOT; exact R3]. apply (Permutation_in _ (Permutation_sym SP)). apply filter_In. split; [now apply (Permutation_in _ P)|]. now apply Nat.eqb_eq.
  - destruct C3 as [C3|C3]; [left; now rewrite C3|right]. cbn [Nat.add] in C3. replace (sum_of _) with (total (cumsum_le limit 0 (sort_rows l))); [exact C3|]. clear - C2 ROW. induction (cumsum_le limit 0 (sort_rows l)) as [|[t c] q IH]; [reflexivity|]. cbn [total fold_right map sum_of snd fst].
    destruct (ROW t c (C2 _ (or_introl eq_refl))) as (_ & _ & ->). f_equal. apply IH. intros x Hx. apply C2. now right.
Qed.

Section Search.
Variables (n : nat) (tb : nat -> res (nftable (list nat))).
Hypothesis n2 : 2 <= n.
Hypothesis Ht : gnf_table n tb.
Variables (rint : nat -> nat) (crit : criterion) (S : jsum).

Lemma mapM_in {X Y} (f : X -> res Y) l ys y : mapM f l = Ok ys -> In y ys -> exists x, In x l /\ f x = Ok y.
Proof.
  intros H. apply mapM_Ok_Forall2 in H. induction H as [|x z l zs K F IH]; [intros []|]. intros [<-|Hy]; [exists x; split; [now left|exact K]|]. destruct (IH Hy) as (w & H1 & H2). exists w. split; [now right|exact H2].
Qed.
Lemma mapM_in' {X Y} (f : X -> res Y) l ys x : mapM f l = Ok ys -> In x l -> exists y, In y ys /\ f x = Ok y.
Proof.
  intros H. apply mapM_Ok_Forall2 in H. induction H as [|w z l zs K F IH]; [intros []|]. intros [->|Hy]; [exists z; split; [now left|exact K]|]. destruct (IH Hy) as (y & H1 & H2). exists y. split; [now right|exact H2].
Qed.
Lemma batched_concat {X} (l : list X) k cs : batched l k = Ok cs -> concat cs = l.
Proof.
  unfold batched. destruct (1 <=? k)%Z; [|discriminate]. cbn [assert_ bind]. intros [= <-]. assert (H : forall m (l acc : list X), concat (batched_loop m l acc) = acc ++ l); [|exact (H _ l [])].
  clear. intros m. induction l as [|x l IH]; intros acc; cbn [batched_loop].
  - destruct acc; cbn; [reflexivity|]. now rewrite !app_nil_r.
  - cbv zeta. destruct (_ =? _); cbn [concat]; rewrite IH, <- app_assoc; reflexivity.
Qed.
(** nf_descendants of a bucket of braids of length k stores longer positive braids only *)
Lemma st_nf_descendants_run s tag len s' : search_state tb n s -> st_nf_descendants rint crit tb S s tag len = Ok s' -> from_run tb n (fst tag) s s'.
Proof.
  intros SS. unfold st_nf_descendants. destruct (dgetE stag_eqb (st_buckets s) tag) as [b|] eqn:G; [|discriminate]. cbn [bind].
  assert (G' : dget stag_eqb (st_buckets s) tag = Some b) by (unfold dgetE in G; destruct (dget _ _ _); congruence).
  destruct (mapM _ (combine _ _)) as [ps|] eqn:M; [|discriminate]. cbn [bind]. destruct (batched (concat ps) 1000) as [cs|] eqn:B; [|discriminate]. cbn [bind].
  assert (HP : forall i br x, In (i, br, x) (concat ps) -> positive_value tb n br /\ length (o_factors br) = fst tag /\ exists xs, nf_suffixes tb br len = Ok xs /\ In x xs).
  { intros i br x H. apply in_concat in H. destruct H as (q & Hq & Hx). destruct (mapM_in _ _ _ _ M Hq) as ([i' br'] & Hi & E). destruct (nf_suffixes tb br' len) as [xs|] eqn:SX; [|discriminate]. cbn [bind] in E. injection E as <-. apply in_map_iff in Hx. destruct Hx as (y & [= -> -> ->] & Hy).
    apply in_combine_r in Hi. destruct (proj2 SS tag b br G' Hi) as [P L]. split; [exact P|]. split; [exact L|]. exists xs. auto. }
  clear G G' M. assert (HC : Forall (fun c => forall p, In p c -> In p (concat ps)) cs). { apply Forall_forall. intros c Hc p Hp. rewrite <- (batched_concat _ _ _ B). apply in_concat. eauto. }
  apply (foldM_run tb n (fst tag) _ (fun c => forall p, In p c -> In p (concat ps)) cs); [|exact HC|exact SS]. clear s SS s' B HC cs.
  intros s pairs s' Hc SS. destruct (dgetE _ _ _) as [b'|]; [|discriminate]. cbn [bind]. destruct (mapM _ pairs) as [ls|]; [|discriminate]. cbn [bind]. destruct (pack ls) as [left|]; [|discriminate]. cbn [bind]. destruct (js_evaluate_prefixes tb S _) as [rights|]; [|discriminate]. cbn [bind].
  apply (foldM_run tb n (fst tag) _ (fun i => 1 <= i <= Z.to_nat len)); [|apply Forall_forall; intros i Hi; apply in_seq in Hi; lia|exact SS]. clear s SS s'.
  intros s i s' Hi SS. destruct (get rights i) as [right|]; [|discriminate]. cbn [bind]. destruct (js_mul S left right) as [images|]; [|discriminate]. cbn [bind]. destruct (mapM _ pairs) as [bs|] eqn:M; [|discriminate]. cbn [bind]. intros E.
  destruct (st_add_effect _ _ _ _ _ _ E) as (bs' & I1 & F). apply (from_run_batch _ _ _ _ _ bs' F). intros c Hc'. apply I1 in Hc'. destruct (mapM_in _ _ _ _ M Hc') as ([[j br] x] & Hx & Ec).
  destruct (HP j br x (Hc _ Hx)) as (P & L & xs & SX & Hxs). destruct (suffix_product n tb br len xs x i n2 Ht P ltac:(lia) SX Hxs ltac:(lia)) as (y & c' & Y1 & Y2 & Px & Py & Pc & Lx & Fy & Fc). rewrite Y1 in Ec. cbn [bind] in Ec. rewrite Y2 in Ec. injection Ec as ->.
  split; [exact Pc|]. rewrite Fc, app_length, Fy, firstn_length, L, Lx. lia.
Qed.

Variable order : nat -> list (stag * nat) -> list (stag * nat).
Hypothesis HO : forall k l, Permutation l (order k l).

Lemma discards s ts : (NoDup (keys s) -> NoDup (keys (fold_left st_discard ts s))) /\
  forall tag, dget stag_eqb (st_buckets (fold_left st_discard ts s)) tag = if in_dec stagdec tag ts then None else dget stag_eqb (st_buckets s) tag.
Proof.
  revert s. induction ts as [|t ts IH]; intros s; cbn [fold_left]; [split; [auto|intros tag; destruct (in_dec stagdec tag []) as [[]|]; reflexivity]|].
  destruct (IH (st_discard s t)) as [A B]. split.
  - intros N. apply A. unfold keys, st_discard, ddel. cbn [st_buckets]. unfold keys in N. induction (st_buckets s) as [|[k v] d IHd]; [constructor|]. cbn [map fst filter] in *. inversion N as [|? ? N1 N2]; subst. destruct (negb _); [|auto]. cbn [map fst]. constructor; [|auto]. intros K. apply N1. apply in_map_iff in K. destruct K as (x & E & Hx). apply filter_In in Hx. apply in_map_iff. exists x. tauto.
  - intros tag. rewrite B. cbn [st_discard st_buckets]. rewrite DD. destruct (in_dec stagdec tag ts), (in_dec stagdec tag (t :: ts)) as [I1|N1], (stagdec t tag); cbn in *; try reflexivity; exfalso; intuition.
Qed.
Lemma stats_in s tag : In tag (keys s) <-> exists b, dget stag_eqb (st_buckets s) tag = Some b.
Proof. symmetry. apply dget_in. Qed.

Theorem search_step_spec s k use_best save_best step sel saved s' : search_state tb n s -> search_step rint crit tb S order s k use_best save_best step = Ok (sel, saved, s') ->
  (NoDup sel /\ (forall t, In t sel <-> In t (keys s) /\ fst t = k /\ (Z.of_nat (mass s k (snd t)) <= use_best)%Z) /\
     (sel = [] \/ (Z.of_nat (sum_of (map (bucket_count s) sel)) <= use_best)%Z)) /\
  (NoDup (map fst saved) /\ (forall t, In t (map fst saved) <-> In t (keys s) /\ fst t = k /\ (Z.of_nat (mass s k (snd t)) <= save_best)%Z) /\
     (forall t bs, In (t, bs) saved -> exists b, dget stag_eqb (st_buckets s) t = Some b /\ bs = sb_braids b)) /\
  search_state tb n s' /\
  (forall t, fst t <= k -> ~ In t (keys s')) /\
  (forall t, k < fst t -> In t (keys s) -> In t (keys s')).
Proof.
  intros SS. unfold search_step. cbv zeta. pose proof (HO k (stats_rows s)) as P. set (rows := order k (stats_rows s)) in *.
  destruct (selection_spec s rows k use_best (proj1 SS) P) as (U1 & U2 & U3). destruct (selection_spec s rows k save_best (proj1 SS) P) as (V1 & V2 & V3). set (sel0 := map fst (selection rows k use_best)) in *. set (sav := map fst (selection rows k save_best)) in *.
  destruct (mapM _ sav) as [sv|] eqn:M; [|discriminate]. cbn [bind]. destruct (foldM _ sel0 s) as [s1|] eqn:F; [|discriminate]. cbn [bind]. intros [= <- <- <-]. split; [|split; [|split; [|split]]].
  - auto.
  - assert (MF : map fst sv = sav). { apply mapM_Ok_Forall2 in M. clear - M. induction M as [|t p ts ps E M IH]; [reflexivity|]. cbn [map]. f_equal; [|exact IH]. destruct (dgetE _ _ t); [|discriminate]. cbn [bind] in E. now injection E as <-. }
    rewrite MF. split; [exact V1|]. split; [exact V2|]. intros t bs H. destruct (mapM_in _ _ _ _ M H) as (t' & _ & E). unfold dgetE in E. destruct (dget _ _ t') as [b|] eqn:G; [|discriminate]. cbn [bind] in E. injection E as -> <-. exists b. auto.
  - assert (R : from_run tb n k s s1). { revert F. apply (foldM_run tb n k _ (fun t => fst t = k)); [|apply Forall_forall; intros t H; now apply U2 in H|exact SS]. intros q t q' <- SQ. now apply st_nf_descendants_run. }
    pose proof (from_run_state _ _ _ _ _ R SS) as [N1 H1]. destruct (discards s1 (map fst (filter (fun r => fst (fst r) <=? k) rows))) as [D1 D2]. split; [now apply D1|]. intros tag b x G Hx. rewrite D2 in G. destruct (in_dec _ _ _); [discriminate|]. now apply (H1 tag b x).
  - assert (R : from_run tb n k s s1). { revert F. apply (foldM_run tb n k _ (fun t => fst t = k)); [|apply Forall_forall; intros t H; now apply U2 in H|exact SS]. intros q t q' <- SQ. now apply st_nf_descendants_run. }
    intros t L K. apply stats_in in K. destruct K as [b G]. destruct (discards s1 (map fst (filter (fun r => fst (fst r) <=? k) rows))) as [_ D2]. rewrite D2 in G. destruct (in_dec _ _ _) as [|NI]; [discriminate|]. destruct R as (_ & R2 & _). rewrite R2 in G by exact L. apply NI.
    assert (IK : In t (keys s)) by (apply stats_in; eauto). rewrite <- rows_keys in IK. apply in_map_iff in IK. destruct IK as (r & <- & Hr). apply in_map. apply filter_In. split; [now apply (Permutation_in _ P)|]. now apply Nat.leb_le.
  - assert (R : from_run tb n k s s1). { revert F. apply (foldM_run tb n k _ (fun t => fst t = k)); [|apply Forall_forall; intros t H; now apply U2 in H|exact SS]. intros q t q' <- SQ. now apply st_nf_descendants_run. }
    intros t L K. destruct R as ((_ & R1) & _). apply R1 in K. apply stats_in in K. destruct K as [b G]. apply stats_in. exists b. destruct (discards s1 (map fst (filter (fun r => fst (fst r) <=? k) rows))) as [_ D2]. rewrite D2. destruct (in_dec _ _ _) as [I1|NI]; [|exact G].
    exfalso. apply in_map_iff in I1. destruct I1 as (r & <- & Hr). apply filter_In in Hr. destruct Hr as [_ Hr]. apply Nat.leb_le in Hr. lia.
Qed.
End Search.

(** ** C77: a step of the search.  The selected buckets are exactly those of the
    current length k for which the braids of that length in buckets of at most
    their projlen number at most use_best; the saved ones likewise with save_best;
    afterwards no bucket of length <= k is left, no longer bucket is lost, and every bucket
    holds positive braids of its own length. *)
Theorem C77_step n tb rint crit S order s k use_best save_best step sel saved s' : 2 <= n -> gnf_table n tb -> (forall k l, Permutation l (order k l)) ->
  search_state tb n s -> search_step rint crit tb S order s k use_best save_best step = Ok (sel, saved, s') ->
  (NoDup sel /\ (forall t, In t sel <-> In t (keys s) /\ fst t = k /\ (Z.of_nat (mass s k (snd t)) <= use_best)%Z) /\
     (sel = [] \/ (Z.of_nat (sum_of (map (bucket_count s) sel)) <= use_best)%Z)) /\
  (NoDup (map fst saved) /\ (forall t, In t (map fst saved) <-> In t (keys s) /\ fst t = k /\ (Z.of_nat (mass s k (snd t)) <= save_best)%Z) /\
     (forall t bs, In (t, bs) saved -> exists b, dget stag_eqb (st_buckets s) t = Some b /\ bs = sb_braids b)) /\
  search_state tb n s' /\
  (forall t, fst t <= k -> ~ In t (keys s')) /\
  (forall t, k < fst t -> In t (keys s) -> In t (keys s')).
Proof. intros. eapply search_step_spec; eassumption. Qed.
(** the lowest projlens come first *)
Theorem C77_lowest n tb rint crit S order s k use_best save_best step sel saved s' t t' : 2 <= n -> gnf_table n tb -> (forall k l, Permutation l (order k l)) ->
  search_state tb n s -> search_step rint crit tb S order s k use_best save_best step = Ok (sel, saved, s') ->
  In t sel -> In t' (keys s) -> fst t' = k -> (snd t' <= snd t)%Z -> In t' sel.
Proof.
  intros n2 Ht HO SS E H1 H2 H3 H4. destruct (C77_step _ _ _ _ _ _ _ _ _ _ _ _ _ _ n2 Ht HO SS E) as ((_ & U & _) & _). apply U in H1. destruct H1 as (A & B & C). apply U. split; [exact H2|]. split; [exact H3|].
  assert (M : mass s k (snd t') <= mass s k (snd t)); [|lia]. unfold mass. clear - H4. induction (keys s) as [|q l IH]; [reflexivity|]. cbn [filter]. destruct (fst q =? k); cbn [andb]; [|exact IH]. destruct (Z.leb_spec (snd q) (snd t')), (Z.leb_spec (snd q) (snd t)); cbn [map sum_of fold_right] in *; unfold sum_of in *; lia.
Qed.

(** ** C79: bootstrap_exhaustive.  It is a sequence of additions of batches; the
    batches together hold every positive braid of each length 1..L exactly once, in
    order of length, and each comes with the images evaluated for it. *)
Definition adds (ops : list (list nfobj * parr)) : list sop := map (fun '(bs, im) => SAdd bs im) ops.
Lemma st_run_app rint crit s a b : st_run rint crit s (a ++ b) = (s1 <- st_run rint crit s a ;; st_run rint crit s1 b).
Proof. unfold st_run. apply foldM_app. Qed.
Theorem C79_braidsearch n tb rint crit S s L s' : 2 <= n -> gnf_table n tb -> js_n S = n -> st_bootstrap rint crit tb S s L = Ok s' ->
  exists ops, st_run rint crit s (adds ops) = Ok s' /\ Forall (fun o => js_evaluate_same_length tb S (fst o) = Ok (snd o)) ops /\
    NoDup (flat_map fst ops) /\ (forall b, In b (flat_map fst ops) <-> nf_value tb n b /\ o_pow b = 0%Z /\ 1 <= length (o_factors b) <= Z.to_nat L) /\
    StronglySorted (fun a b => length (o_factors a) <= length (o_factors b)) (flat_map fst ops).
Proof.
  intros n2 Ht HS. unfold st_bootstrap. generalize (Z.to_nat L) as m. clear L. induction m as [|m IH] in s' |- *.
  - cbn [seq foldM]. intros [= <-]. exists []. cbn. split; [reflexivity|]. split; [constructor|]. split; [constructor|]. split; [|constructor]. intros b. split; [intros []|lia].
  - rewrite seq_S, foldM_app. destruct (foldM _ (seq 1 m) s) as [s1|] eqn:E1; [|discriminate]. cbn [bind]. destruct (IH s1 eq_refl) as (ops & R & F & ND & IN & SO). clear IH. cbn [foldM]. rewrite HS.
    destruct (C51_all_of_length_partial n tb (Z.of_nat (1 + m)) 0 n2 Ht ltac:(lia)) as (bs & EB & NB & IB & EG & _). rewrite EG, EB. cbn [bind]. destruct (batched bs 10000) as [cs|] eqn:B; [|discriminate]. cbn [bind]. pose proof (batched_concat _ _ _ B) as CC.
    intros H. assert (K : exists ops2, map fst ops2 = cs /\ Forall (fun o => js_evaluate_same_length tb S (fst o) = Ok (snd o)) ops2 /\ st_run rint crit s1 (adds ops2) = Ok s').
    { destruct (foldM _ cs s1) as [s2|] eqn:E2; [|discriminate]. cbn [bind] in H. injection H as <-. revert E2. clear. revert s1. induction cs as [|c cs IH]; intros s1; cbn [foldM].
      - intros [= <-]. exists []. repeat split; constructor.
      - destruct (js_evaluate_same_length tb S c) as [im|] eqn:EV; [|discriminate]. cbn [bind]. destruct (st_add rint crit s1 c im) as [s3|] eqn:A; [|discriminate]. cbn [bind]. intros H. destruct (IH s3 H) as (ops2 & M & F & R). exists ((c, im) :: ops2). cbn [map fst]. split; [now rewrite M|]. split; [now constructor|]. unfold adds. cbn [map]. unfold st_run. cbn [foldM st_apply]. rewrite A. exact R. }
    destruct K as (ops2 & M2 & F2 & R2). exists (ops ++ ops2). assert (FM : flat_map fst ops2 = bs) by (rewrite flat_map_concat_map, M2; exact CC). rewrite flat_map_app, FM. split.
    { unfold adds. rewrite map_app, st_run_app. fold (adds ops) (adds ops2). rewrite R. exact R2. } split; [apply Forall_app; auto|]. split.
    { apply NoDup_app_intro; [exact ND|exact NB|]. intros b H1 H2. apply IN in H1. apply IB in H2. lia. } split.
    { intros b. rewrite in_app_iff, IN, IB. split.
      - intros [(A1 & A2 & A3)|(A1 & A2 & A3)]; repeat split; auto; lia.
      - intros (A1 & A2 & A3). destruct (Nat.eq_dec (length (o_factors b)) (1 + m)) as [Q|Q]; [right; repeat split; auto; lia|left; repeat split; auto; lia]. }
    assert (S2 : StronglySorted (fun a b => length (o_factors a) <= length (o_factors b)) bs).
    { assert (AL : forall b, In b bs -> length (o_factors b) = 1 + m) by (intros b Hb; apply IB in Hb; lia). clear - AL. induction bs as [|b bs IHb]; constructor; [apply IHb; intros; apply AL; now right|]. apply Forall_forall. intros x Hx. rewrite (AL b), (AL x); [lia|now right|now left]. }
    assert (LE : forall a, In a (flat_map fst ops) -> forall b, In b bs -> length (o_factors a) <= length (o_factors b)) by (intros a Ha b Hb; apply IN in Ha; apply IB in Hb; lia).
    clear - SO S2 LE. induction SO as [|a l SO IH FA]; [exact S2|]. cbn [app]. constructor; [apply IH; intros; apply LE; auto; now right|]. apply Forall_app. split; [exact FA|]. apply Forall_forall. intros b Hb. apply LE; [now left|exact Hb].
Qed.
(** ** the states of a run of search.py *)
Lemma init_state tb n size rand : search_state tb n (strk_init size rand).
Proof. split; [constructor|]. intros tag b x H. discriminate. Qed.
Lemma st_run_state tb n rint crit ops : forall s s', search_state tb n s -> Forall (fun o => Forall (positive_value tb n) (fst o)) ops -> st_run rint crit s (adds ops) = Ok s' -> search_state tb n s'.
Proof.
  induction ops as [|[bs im] ops IH]; intros s s' SS F; unfold adds, st_run; cbn [map foldM]; [intros [= <-]; exact SS|]. inversion F as [|? ? F1 F2]; subst. cbn [fst] in F1. cbn [st_apply]. destruct (st_add rint crit s bs im) as [s1|] eqn:E; [|discriminate]. cbn [bind]. intros H. apply (IH s1 s'); [|exact F2|exact H].
  destruct (st_add_effect _ _ _ _ _ _ E) as (bs' & I1 & (A1 & A2 & A3)). destruct SS as [N SS]. split; [now apply A1|]. intros tag b x G Hx. destruct (A3 tag b x G Hx) as [[K1 K2]|(d & K1 & K2)]; [|now apply (SS tag d x)]. split; [|exact K2]. rewrite Forall_forall in F1. apply F1, I1, K1.
Qed.
(** after the bootstrap, and after any number of iterations, the tracker is in a
    state to which C77_step applies *)
Theorem C77_reachable n tb rint crit S order size rand L first count use_best save_best step s0 saves s : 2 <= n -> gnf_table n tb -> js_n S = n -> (forall k l, Permutation l (order k l)) ->
  st_bootstrap rint crit tb S (strk_init size rand) L = Ok s0 -> search_steps rint crit tb S order s0 first count use_best save_best step = Ok (saves, s) -> search_state tb n s0 /\ search_state tb n s.
Proof.
  intros n2 Ht HS HO B HR. revert HR. destruct (C79_braidsearch n tb rint crit S _ L s0 n2 Ht HS B) as (ops & R & _ & _ & IN & _).
  assert (S0 : search_state tb n s0). { apply (st_run_state tb n rint crit ops _ _ (init_state tb n size rand)); [|exact R]. apply Forall_forall. intros o Ho. apply Forall_forall. intros b Hb. destruct (proj1 (IN b) ltac:(apply in_flat_map; eauto)) as (A1 & A2 & _). split; assumption. }
  intros HR. split; [exact S0|]. revert HR. unfold search_steps. assert (K : forall l a s1 a' s2, search_state tb n s1 -> foldM (fun '(saves, s) i => let k := (first + Z.of_nat i)%Z in if (k <? 0)%Z then Ok (saves ++ [[]], s) else '(_, saved, s) <- search_step rint crit tb S order s (Z.to_nat k) use_best save_best step ;; Ok (saves ++ [saved], s)) l (a, s1) = Ok (a', s2) -> search_state tb n s2).
  { induction l as [|i l IH]; intros a s1 a' s2 H1; cbn [foldM]; [intros [= _ <-]; exact H1|]. cbv zeta. destruct (_ <? 0)%Z; [cbn [bind]; now apply IH|]. destruct (search_step _ _ _ _ _ s1 _ _ _ _) as [[[sel sv] s3]|] eqn:E; [|discriminate]. cbn [bind]. apply IH. now destruct (C77_step _ _ _ _ _ _ _ _ _ _ _ _ _ _ n2 Ht HO H1 E) as (_ & _ & K & _). }
  apply K. exact S0.
Qed.

(** ** C78: at every crash point the file holds the rows of a whole number of saves *)
Lemma db_inserts rows : forall c l, db_run (mkDB c (Some l)) (map Insert rows) = mkDB c (Some (l ++ rows)).
Proof. induction rows as [|x rows IH]; intros c l; cbn [map]; [now rewrite app_nil_r|]. unfold db_run. cbn [fold_left db_step pending committed]. fold (db_run (mkDB c (Some (l ++ [x]))) (map Insert rows)). rewrite IH, <- app_assoc. reflexivity. Qed.
Lemma db_save S saved c : db_run (mkDB c None) (save_events S saved) = mkDB (c ++ save_rows S saved) None.
Proof. unfold save_events, db_run. cbn [fold_left db_step committed pending]. rewrite fold_left_app. fold (db_run (mkDB c (Some [])) (map Insert (save_rows S saved))). rewrite db_inserts. reflexivity. Qed.
Lemma db_partial S saved c m : m < length (save_events S saved) -> db_crash (db_run (mkDB c None) (firstn m (save_events S saved))) = c.
Proof.
  unfold save_events. destruct m as [|m]; [reflexivity|]. cbn [length]. rewrite app_length, map_length. cbn [length]. intros H. cbn [firstn]. rewrite firstn_app, map_length. replace (m - length (save_rows S saved)) with 0 by lia. cbn [firstn]. rewrite app_nil_r, firstn_map. unfold db_run. cbn [fold_left db_step committed pending].
  fold (db_run (mkDB c (Some [])) (map Insert (firstn m (save_rows S saved)))). rewrite db_inserts. reflexivity.
Qed.
Theorem C78_atomic rint crit tb S order count : forall s k use_best save_best step rows m,
  exists j, db_crash (db_run (mkDB rows None) (firstn m (search_events rint crit tb S order count s k use_best save_best step))) =
    rows ++ flat_map (save_rows S) (firstn j (search_saves rint crit tb S order count s k use_best save_best step)).
Proof.
  induction count as [|c IH]; intros s k ub sb st rows m; cbn [search_events search_saves].
  - exists 0. rewrite firstn_nil. cbn. now rewrite app_nil_r.
  - destruct (save_selection order s k sb) as [saved|].
    2:{ exists 0. cbn [firstn flat_map]. rewrite app_nil_r. destruct m as [|[|m]]; reflexivity. }
    destruct (Nat.lt_ge_cases m (length (save_events S saved))) as [L|L].
    + exists 0. cbn [firstn flat_map]. rewrite app_nil_r. rewrite firstn_app. replace (m - _) with 0 by lia. cbn [firstn]. rewrite app_nil_r. now apply db_partial.
    + rewrite firstn_app, firstn_all2 by exact L. unfold db_run. rewrite fold_left_app. fold (db_run (mkDB rows None) (save_events S saved)). rewrite db_save.
      destruct (advance rint crit tb S order s k ub sb st) as [s'|].
      * destruct (IH s' (k + 1)%Z ub sb st (rows ++ save_rows S saved) (m - length (save_events S saved))) as [j E]. exists (Datatypes.S j). unfold db_run in E. rewrite E. cbn [firstn flat_map]. now rewrite <- app_assoc.
      * exists 1. rewrite firstn_nil. cbn. now rewrite app_nil_r.
Qed.
(** at the end of the run, everything is there *)
Theorem C78_complete rint crit tb S order count : forall s k use_best save_best step rows,
  db_crash (db_run (mkDB rows None) (search_events rint crit tb S order count s k use_best save_best step)) =
    rows ++ flat_map (save_rows S) (search_saves rint crit tb S order count s k use_best save_best step).
Proof.
  induction count as [|c IH]; intros s k ub sb st rows; cbn [search_events search_saves]; [cbn; now rewrite app_nil_r|].
  destruct (save_selection order s k sb) as [saved|]; [|cbn; now rewrite app_nil_r]. unfold db_run. rewrite fold_left_app. fold (db_run (mkDB rows None) (save_events S saved)). rewrite db_save.
  destruct (advance rint crit tb S order s k ub sb st) as [s'|]; [|cbn; now rewrite app_nil_r]. cbn [flat_map]. rewrite app_assoc. apply IH.
Qed.
(** every row decodes to a positive braid of B_n of the recorded length, and
    records the representation *)
Theorem C78_rows n tb rint crit S order count : 2 <= n -> gnf_table n tb -> js_n S = n -> (forall k l, Permutation l (order k l)) ->
  forall s k use_best save_best step, search_state tb n s ->
  Forall (fun x => row_n x = n /\ row_r x = js_r S /\ row_p x = js_p S /\
      exists b, nf_value tb n b /\ o_pow b = 0%Z /\ length (o_factors b) = row_length x /\
        literal_eval (row_gnf x) = Ok (PTup [PInt (Z.of_nat n); PInt 0; PTup (map PInt (o_factors b))]))
    (flat_map (save_rows S) (search_saves rint crit tb S order count s k use_best save_best step)).
Proof.
  intros n2 Ht HS HO. induction count as [|c IH]; intros s k ub sb st SS; cbn [search_saves]; [constructor|].
  destruct (save_selection order s k sb) as [saved|] eqn:E; [|constructor]. cbn [flat_map]. apply Forall_app. split.
  - assert (HS2 : forall t bs, In (t, bs) saved -> Forall (fun b => positive_value tb n b /\ length (o_factors b) = fst t) bs).
    { revert E. unfold save_selection. destruct (_ <? 0)%Z; [intros [= <-] t bs []|]. intros E t bs H. destruct (mapM_in _ _ _ _ E H) as (t' & _ & K). unfold dgetE in K. destruct (dget _ _ t') as [b|] eqn:G; [|discriminate]. cbn [bind] in K. injection K as -> <-. apply Forall_forall. intros x Hx. now apply (proj2 SS t b x). }
    unfold save_rows. clear E. induction saved as [|[t bs] saved IHs]; [constructor|]. cbn [flat_map]. apply Forall_app. split; [|apply IHs; intros; apply HS2; now right]. pose proof (HS2 t bs (or_introl eq_refl)) as F. apply Forall_map. rewrite Forall_forall in *. intros b Hb. destruct (F b Hb) as [[V P] L]. cbn [row_n row_r row_p row_length row_gnf]. split; [exact HS|]. split; [reflexivity|]. split; [reflexivity|]. exists b. split; [exact V|]. split; [exact P|]. split; [exact L|].
    unfold saved_text. rewrite literal_eval_str. unfold astuple. rewrite P. destruct V as (t0 & p0 & f0 & _ & _ & M). unfold mk in M. destruct (tb n) as [t1|]; [|discriminate]. cbn [bind] in M. destruct (is_factors_normalised t1 f0) as [x|]; [|discriminate]. cbn [bind] in M. destruct x; [|discriminate]. cbn in M. injection M as <-. reflexivity.
  - destruct (advance rint crit tb S order s k ub sb st) as [s'|] eqn:A; [|constructor]. apply IH. revert A. unfold advance. destruct (_ <? 0)%Z; [intros [= <-]; exact SS|]. destruct (search_step _ _ _ _ _ _ _ _ _ _) as [[[sel sv] s1]|] eqn:E2; [|discriminate]. cbn [bind]. intros [= <-]. now destruct (C77_step _ _ _ _ _ _ _ _ _ _ _ _ _ _ n2 Ht HO SS E2) as (_ & _ & K & _).
Qed.
(** the same for the Tracker of bucketing.py *)
Definition badds (ops : list (list nfobj * parr)) : list op := map (fun '(bs, im) => Add bs im) ops.
Theorem C79_bucketing n tb cls rnd rint R tr L tr' : 2 <= n -> gnf_table n tb -> tracker_bootstrap cls rnd rint tb R tr n L = Ok tr' ->
  exists ops, run_ops cls rnd rint tr (badds ops) = Ok tr' /\ Forall (fun o => polymat_evaluate_braids_of_same_length tb R (fst o) = Ok (snd o)) ops /\
    NoDup (flat_map fst ops) /\ (forall b, In b (flat_map fst ops) <-> nf_value tb n b /\ o_pow b = 0%Z /\ 1 <= length (o_factors b) <= Z.to_nat L) /\
    StronglySorted (fun a b => length (o_factors a) <= length (o_factors b)) (flat_map fst ops).
Proof.
  intros n2 Ht. unfold tracker_bootstrap. generalize (Z.to_nat L) as m. clear L. induction m as [|m IH] in tr' |- *.
  - cbn [seq foldM]. intros [= <-]. exists []. cbn. split; [reflexivity|]. split; [constructor|]. split; [constructor|]. split; [|constructor]. intros b. split; [intros []|lia].
  - rewrite seq_S, foldM_app. destruct (foldM _ (seq 1 m) tr) as [s1|] eqn:E1; [|discriminate]. cbn [bind]. destruct (IH s1 eq_refl) as (ops & Rn & F & ND & IN & SO). clear IH. cbn [foldM].
    destruct (C51_all_of_length_partial n tb (Z.of_nat (1 + m)) 0 n2 Ht ltac:(lia)) as (bs & EB & NB & IB & _). rewrite EB. cbn [bind]. destruct (batched bs 10000) as [cs|] eqn:B; [|discriminate]. cbn [bind]. pose proof (batched_concat _ _ _ B) as CC.
    intros H. assert (K : exists ops2, map fst ops2 = cs /\ Forall (fun o => polymat_evaluate_braids_of_same_length tb R (fst o) = Ok (snd o)) ops2 /\ run_ops cls rnd rint s1 (badds ops2) = Ok tr').
    { destruct (foldM _ cs s1) as [s2|] eqn:E2; [|discriminate]. cbn [bind] in H. injection H as <-. revert E2. clear. revert s1. induction cs as [|c cs IH]; intros s1; cbn [foldM].
      - intros [= <-]. exists []. repeat split; constructor.
      - destruct (polymat_evaluate_braids_of_same_length tb R c) as [im|] eqn:EV; [|discriminate]. cbn [bind]. destruct (add_braids_images cls rnd rint s1 c im) as [s3|] eqn:A; [|discriminate]. cbn [bind]. intros H. destruct (IH s3 H) as (ops2 & M & F & Rn). exists ((c, im) :: ops2). cbn [map fst]. split; [now rewrite M|]. split; [now constructor|]. unfold badds. cbn [map]. unfold run_ops. cbn [foldM apply_op]. rewrite A. exact Rn. }
    destruct K as (ops2 & M2 & F2 & R2). exists (ops ++ ops2). assert (FM : flat_map fst ops2 = bs) by (rewrite flat_map_concat_map, M2; exact CC). rewrite flat_map_app, FM. split.
    { unfold badds. rewrite map_app. unfold run_ops. rewrite foldM_app. fold (badds ops) (badds ops2). unfold run_ops in Rn. rewrite Rn. exact R2. } split; [apply Forall_app; auto|]. split.
    { apply NoDup_app_intro; [exact ND|exact NB|]. intros b H1 H2. apply IN in H1. apply IB in H2. lia. } split.
    { intros b. rewrite in_app_iff, IN, IB. split.
      - intros [(A1 & A2 & A3)|(A1 & A2 & A3)]; repeat split; auto; lia.
      - intros (A1 & A2 & A3). destruct (Nat.eq_dec (length (o_factors b)) (1 + m)) as [Q|Q]; [right; repeat split; auto; lia|left; repeat split; auto; lia]. }
    assert (S2 : StronglySorted (fun a b => length (o_factors a) <= length (o_factors b)) bs).
    { assert (AL : forall b, In b bs -> length (o_factors b) = 1 + m) by (intros b Hb; apply IB in Hb; lia). clear - AL. induction bs as [|b bs IHb]; constructor; [apply IHb; intros; apply AL; now right|]. apply Forall_forall. intros x Hx. rewrite (AL b), (AL x); [lia|now right|now left]. }
    assert (LE : forall a, In a (flat_map fst ops) -> forall b, In b bs -> length (o_factors a) <= length (o_factors b)) by (intros a Ha b Hb; apply IN in Ha; apply IB in Hb; lia).
    clear - SO S2 LE. induction SO as [|a l SO IH FA]; [exact S2|]. cbn [app]. constructor; [apply IH; intros; apply LE; auto; now right|]. apply Forall_app. split; [exact FA|]. apply Forall_forall. intros b Hb. apply LE; [now left|exact Hb].
Qed.

(** ** examples: B_3, (2, 1) modulo 2, buckets of two, the rows in reverse order *)
Definition ex_js : jsum := mkJS 3 1 2.
Definition contents (s : strk) : list (stag * list (list Z)) := map (fun '(t, b) => (t, map o_factors (sb_braids b))) (st_buckets s).
Notation ex_tracker := (st_bootstrap (fun _ => 0) every (gtb hdpick) ex_js (strk_init 2 true) 2).
Definition ex_state : strk := Eval vm_compute in match ex_tracker with Ok s => s | Err _ => strk_init 0 false end.
Example C79_case : (s <- ex_tracker ;; Ok (contents s)) = Ok [((1, 3%Z), [[4]; [2]]%Z); ((2, 5%Z), [[4; 3]; [1; 4]]%Z)].
Proof. vm_compute. reflexivity. Qed.
Example C77_case : (s <- ex_tracker ;; '(sel, saved, s') <- search_step (fun _ => 0) every (gtb hdpick) ex_js (fun _ l => rev l) s 2 2 1 1 ;; Ok (sel, saved, contents s')) =
  Ok ([(2, 5%Z)], [], [((3, 7%Z), [[1; 4; 3]; [4; 3; 4]]%Z)]).
Proof. vm_compute. reflexivity. Qed.
Example C77_case_hyps : exists s, ex_tracker = Ok s /\ search_state (gtb hdpick) 3 s /\ (forall (k : nat) l, Permutation l ((fun _ (l : list (stag * nat)) => rev l) k l)).
Proof.
  assert (E : ex_tracker = Ok ex_state) by (vm_compute; reflexivity). exists ex_state. revert E. generalize ex_state as s. intros s E. split; [exact E|]. split; [|intros _ l; apply Permutation_rev].
  assert (HO : forall (k : nat) l, Permutation l ((fun _ (l : list (stag * nat)) => rev l) k l)) by (intros _ l; apply Permutation_rev).
  assert (ST : search_steps (fun _ => 0) every (gtb hdpick) ex_js (fun _ l => rev l) s 0 0 0 0 0 = Ok ([], s)) by (unfold search_steps; cbn [seq foldM]; reflexivity).
  assert (N3 : 2 <= 3) by lia. assert (L7 : 3 < 7) by lia. pose proof (gtb_is_table hdpick 3 hdpick_ok L7) as GT.
  destruct (C77_reachable 3 (gtb hdpick) (fun _ => 0) every ex_js _ 2 true _ 0%Z 0 0%Z 0%Z 0%Z s [] s N3 GT eq_refl HO E ST) as [K _]. exact K.
Qed.
From Coq Require Import String.
Example C78_case : match ex_tracker with
  | Ok s => map (fun e => match e with Begin => [] | Insert x => row_gnf x | Commit => [] end) (search_events (fun _ => 0) every (gtb hdpick) ex_js (fun _ l => rev l) 2 s 2 2 2 1)
      = [[]; PropsSql.text "(3, 0, (4, 3))"%string; PropsSql.text "(3, 0, (1, 4))"%string; []; []; PropsSql.text "(3, 0, (1, 4, 3))"%string; PropsSql.text "(3, 0, (4, 3, 4))"%string; []]
  | Err _ => False end.
Proof. vm_compute. reflexivity. Qed.
