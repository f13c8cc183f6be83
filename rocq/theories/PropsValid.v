(** PropsValid.v – C107, C108: hash_bucket and valiate_buckets. *)
From Verif Require Import Base ModelPoly ModelMatrix ModelPolymat SpecPolymat PolymatTheory PropsPolymat PropsPolymat2 PropsPolymat3 ModelPerm ModelBraid ModelTracker SpecTracker TrackerTheory TrackerRun PropsTracker TrackerRun2 PropsTracker2 ModelTools PropsStats.
From Verif Require PropsTLMor2.
From Coq Require Import QArith Permutation.
Local Open Scope nat_scope.

(** ** C107 *)
(** the entries of l at the places where keys has h, in order *)
Fixpoint picked {A} (keys : list Z) (l : list A) (h : Z) : list A :=
  match keys, l with k :: keys, x :: l => (if (k =? h)%Z then [x] else []) ++ picked keys l h | _, _ => [] end.
Lemma picked_app {A} k1 : forall (l1 : list A) k2 l2 h, length k1 = length l1 -> picked (k1 ++ k2) (l1 ++ l2) h = picked k1 l1 h ++ picked k2 l2 h.
Proof. induction k1 as [|a k1 IH]; intros [|b l1] k2 l2 h E; try discriminate; cbn [app picked]; [reflexivity|]. rewrite IH by (cbn in E; lia). now rewrite app_assoc. Qed.
Lemma picked_in {A} keys : forall (l : list A) h x, length keys = length l -> In x (picked keys l h) <-> exists i, nth_error keys i = Some h /\ nth_error l i = Some x.
Proof.
  induction keys as [|k keys IH]; intros [|y l] h x E; try discriminate; cbn [picked].
  - split; [contradiction|]. intros (i & H & _). destruct i; discriminate.
  - rewrite in_app_iff, IH by (cbn in E; lia). split.
    + intros [H|(i & H1 & H2)]; [|exists (S i); auto]. destruct (Z.eqb_spec k h) as [->|]; [|contradiction]. destruct H as [->|[]]. exists 0. auto.
    + intros ([|i] & H1 & H2); cbn in H1, H2; [|right; eauto]. left. injection H1 as ->. injection H2 as ->. rewrite Z.eqb_refl. now left.
Qed.
(** what hash_bucket returns for the braids and their hash values *)
Definition grouped (keys : list Z) (braids : list nfobj) (d : list (Z * list nfobj)) : Prop :=
  NoDup (map fst d) /\ forall h, In h keys /\ In (h, picked keys braids h) d \/ ~ In h keys /\ ~ In h (map fst d).

Lemma zeqb_iff a b : (a =? b)%Z = true <-> a = b. Proof. apply Z.eqb_eq. Qed.
Definition hstep (hashes : list (Z * list nfobj)) (h : Z) (braid : nfobj) : list (Z * list nfobj) :=
  match dget Z.eqb hashes h with None => dset Z.eqb (dset Z.eqb hashes h []) h [braid] | Some l => dset Z.eqb hashes h (l ++ [braid]) end.
Lemma dset_in_iff (d : list (Z * list nfobj)) k v k' v' : NoDup (map fst d) -> In (k', v') (dset Z.eqb d k v) <-> (k' = k /\ v' = v) \/ (k' <> k /\ In (k', v') d).
Proof.
  intros N. pose proof (dset_nodup Z.eqb Z.eq_dec zeqb_iff d k v N) as N'.
  assert (G : forall (d : list (Z * list nfobj)) k v, NoDup (map fst d) -> In (k, v) d <-> dget Z.eqb d k = Some v).
  { intros d0 k0 v0 N0. split; [apply (dget_nodup Z.eqb Z.eq_dec zeqb_iff _ _ _ N0)|]. clear N N' N0. induction d0 as [|[a u] d0 IH]; cbn [dget]; [discriminate|].
    destruct (Z.eqb_spec k0 a) as [->|]; [intros [= ->]; now left|intros E; right; auto]. }
  rewrite (G _ _ _ N'), (G _ _ _ N), (dget_dset Z.eqb Z.eq_dec zeqb_iff d). destruct (Z.eq_dec k k') as [->|Hn].
  - split; [intros [= ->]; auto|]. intros [[_ ->]|[Q _]]; congruence.
  - intuition congruence.
Qed.
Lemma hstep_grouped keys braids d h b : length keys = length braids -> grouped keys braids d -> grouped (keys ++ [h]) (braids ++ [b]) (hstep d h b).
Proof.
  intros L [N G]. set (old := match dget Z.eqb d h with Some l => l | None => [] end).
  assert (OLD : old = picked keys braids h).
  { unfold old. destruct (G h) as [[Hk Hi]|[Hk Hn]].
    - now rewrite (dget_nodup Z.eqb Z.eq_dec zeqb_iff _ _ _ N Hi).
    - destruct (dget Z.eqb d h) as [l|] eqn:E; [exfalso; apply Hn, (dget_in Z.eqb Z.eq_dec zeqb_iff); eauto|]. destruct (picked keys braids h) as [|x q] eqn:E2; [reflexivity|].
      exfalso. apply Hk. assert (Hx : In x (picked keys braids h)) by (rewrite E2; now left). apply picked_in in Hx; [|exact L]. destruct Hx as (i & Hi & _). now apply nth_error_In in Hi. }
  assert (ND : NoDup (map fst (hstep d h b))) by (unfold hstep; destruct (dget Z.eqb d h); repeat apply (dset_nodup Z.eqb Z.eq_dec zeqb_iff); exact N).
  assert (IN : forall k l, In (k, l) (hstep d h b) <-> k = h /\ l = old ++ [b] \/ k <> h /\ In (k, l) d).
  { intros k l. unfold hstep, old. destruct (dget Z.eqb d h) as [o|].
    - now apply dset_in_iff.
    - rewrite dset_in_iff by (apply (dset_nodup Z.eqb Z.eq_dec zeqb_iff); exact N). rewrite dset_in_iff by exact N. cbn [app]. intuition congruence. }
  split; [exact ND|]. intros k. rewrite picked_app by exact L. cbn [picked]. destruct (Z.eqb_spec h k) as [->|Hn].
  - left. split; [apply in_app_iff; right; now left|]. apply IN. left. split; [reflexivity|]. rewrite OLD. now rewrite app_nil_r.
  - rewrite !app_nil_r. destruct (G k) as [[Hk Hi]|[Hk Hi]].
    + left. split; [apply in_app_iff; now left|]. apply IN. right. split; [congruence|exact Hi].
    + right. split; [rewrite in_app_iff; cbn; intuition congruence|]. intros Q. apply Hi. apply in_map_iff in Q. destruct Q as ([k' l] & Q1 & Q2). cbn in Q1. subst k'. apply IN in Q2. destruct Q2 as [[Q2 _]|[_ Q2]]; [congruence|]. apply in_map_iff. now exists (k, l).
Qed.
Lemma arr_item_block im N k : wfa im -> apre im = [N] -> k < N -> arr_item im (Z.of_nat k) = Ok (mkA [] (aI im) (aJ im) (aD im) (adt im) [block im [k]]).
Proof.
  intros (W & _) E Lk. unfold arr_item. rewrite E. rewrite pyget_nat. rewrite (get_ok _ _ []) by (rewrite W, E; unfold nitems; cbn; lia). cbn [bind]. repeat f_equal.
  unfold block. rewrite E. f_equal. cbn. lia.
Qed.
(** C107.  hash_bucket of a bucket of the tracker: its keys are pairwise different, they
    are exactly the hashes of the stored images, and the list under a key is the list of
    the stored braids whose image has that hash, in the order of storage. *)
Theorem C107_groups hash cls rnd rint cap stats m w I J t os tr : 1 <= cap -> Forall (op_ok I J t) os -> new_run cls rnd rint cap stats m w os = Ok tr ->
  forall tag b, dget tag_eqb (tr_buckets tr) tag = Some b -> let '(braids, images) := braids_images b in
  exists d, hash_bucket hash tr tag = Ok d /\ grouped (map (fun i => hash t (block images [i])) (seq 0 (length braids))) braids d.
Proof.
  intros Hc F H tag b G. destruct (new_run_ok _ _ _ _ _ _ _ _ _ _ _ _ F H) as (_ & _ & h & HH & TO). destruct TO as (_ & _ & _ & _ & TO). specialize (TO tag). rewrite G in TO. destruct TO as [_ (items & B & _)].
  destruct (stored_batch _ _ _ _ _ _ _ _ B) as (E0 & W & P & E1 & E2 & E3 & E4 & _). unfold hash_bucket. rewrite G. destruct (braids_images b) as [braids im] eqn:EB. cbn [fst snd] in *.
  assert (LB : length braids = length items) by (rewrite E0; apply map_length). rewrite <- LB in P. clear EB E0 LB B items.
  set (f := fun hashes i => _). set (ky := fun i => hash t (block im [i])).
  assert (ST : forall hs i x, nth_error braids i = Some x -> f hs i = Ok (hstep hs (ky i) x)).
  { intros hs i x Hx. assert (Li : i < length braids) by (apply nth_error_Some; congruence). unfold f. rewrite (arr_item_block im (length braids) i W P Li). cbn [bind adt ablocks concat]. rewrite app_nil_r, E4. fold (ky i).
    assert (GB : get braids i = Ok x) by (unfold get; now rewrite Hx). rewrite GB. unfold dgetE, hstep. destruct (dget Z.eqb hs (ky i)) as [l|] eqn:El; [rewrite El; reflexivity|].
    rewrite (dget_dset Z.eqb Z.eq_dec zeqb_iff). destruct (Z.eq_dec (ky i) (ky i)); [|congruence]. reflexivity. }
  assert (RUN : forall k, k <= length braids -> exists d, foldM f (seq 0 k) [] = Ok d /\ grouped (map ky (seq 0 k)) (firstn k braids) d).
  { induction k as [|k IH]; intros Lk.
    - exists []. split; [reflexivity|]. split; [constructor|]. intros h'. right. split; intros [].
    - destruct (IH ltac:(lia)) as (d & Ed & Gd). destruct (nth_error braids k) as [x|] eqn:Ex; [|apply nth_error_None in Ex; lia].
      exists (hstep d (ky k) x). rewrite seq_S, foldM_app, Ed. cbn [bind foldM Nat.add]. rewrite (ST d k x Ex). cbn [bind]. split; [reflexivity|]. rewrite map_app. cbn [map].
      replace (firstn (S k) braids) with (firstn k braids ++ [x]). 2:{ clear - Ex. revert braids Ex. induction k; intros [|a bs] E; try discriminate; cbn in *; [now injection E as ->|]. now rewrite (IHk _ E). }
      apply hstep_grouped; [rewrite map_length, seq_length, firstn_length; lia|exact Gd]. }
  destruct (RUN (length braids) (le_n _)) as (d & Ed & Gd). rewrite firstn_all in Gd. exists d. auto.
Qed.
(** braids stored with the same image stay together, and if the hash separates the
    stored images then only they do *)
Theorem C107_images hash cls rnd rint cap stats m w I J t os tr : 1 <= cap -> Forall (op_ok I J t) os -> new_run cls rnd rint cap stats m w os = Ok tr ->
  forall tag b d, dget tag_eqb (tr_buckets tr) tag = Some b -> hash_bucket hash tr tag = Ok d -> let '(braids, images) := braids_images b in
  (forall i x, nth_error braids i = Some x -> exists h l, In (h, l) d /\ In x l) /\
  (forall i j x y, nth_error braids i = Some x -> nth_error braids j = Some y -> (forall a c e, a < I -> c < J -> acoef images [i] a c e = acoef images [j] a c e) -> exists h l, In (h, l) d /\ In x l /\ In y l) /\
  ((forall u v, hash t u = hash t v -> u = v) -> forall h l x y, In (h, l) d -> In x l -> In y l ->
     exists i j, nth_error braids i = Some x /\ nth_error braids j = Some y /\ forall a c e, a < I -> c < J -> acoef images [i] a c e = acoef images [j] a c e).
Proof.
  intros Hc F H tag b d G HB. pose proof (C107_groups hash _ _ _ _ _ _ _ _ _ _ _ _ Hc F H tag b G) as K.
  destruct (new_run_ok _ _ _ _ _ _ _ _ _ _ _ _ F H) as (_ & _ & hi & _ & TO). destruct TO as (_ & _ & _ & _ & TO). specialize (TO tag). rewrite G in TO. destruct TO as [_ (items & B & _)].
  destruct (stored_batch _ _ _ _ _ _ _ _ B) as (E0 & W & P & E1 & E2 & E3 & E4 & _). destruct (braids_images b) as [braids im]. cbn [fst snd] in *.
  assert (LB : length braids = length items) by (rewrite E0; apply map_length). rewrite <- LB in P. destruct K as (d' & K1 & K2). rewrite HB in K1. injection K1 as <-. destruct K2 as [ND GR].
  set (ks := map (fun i => hash t (block im [i])) (seq 0 (length braids))) in *. assert (LK : length ks = length braids) by (unfold ks; rewrite map_length; apply seq_length).
  assert (KN : forall i, i < length braids -> nth_error ks i = Some (hash t (block im [i]))).
  { intros i Li. unfold ks. rewrite nth_error_map. rewrite (nth_error_nth' _ 0) by (rewrite seq_length; lia). rewrite seq_nth by lia. reflexivity. }
  assert (KI : forall i v, nth_error ks i = Some v -> i < length braids /\ v = hash t (block im [i])).
  { intros i v Hv. assert (Li : i < length braids) by (rewrite <- LK; apply nth_error_Some; congruence). rewrite (KN i Li) in Hv. split; [exact Li|congruence]. }
  assert (PL : forall i x, nth_error braids i = Some x -> In (hash t (block im [i]), picked ks braids (hash t (block im [i]))) d /\ In x (picked ks braids (hash t (block im [i])))).
  { intros i x Hx. assert (Li : i < length braids) by (apply nth_error_Some; congruence). split; [|apply picked_in; [exact LK|]; exists i; auto].
    destruct (GR (hash t (block im [i]))) as [[_ Q]|[Q _]]; [exact Q|]. exfalso. apply Q. eapply nth_error_In, (KN i Li). }
  split; [|split].
  - intros i x Hx. destruct (PL i x Hx). eauto.
  - intros i j x y Hx Hy E. assert (Li : i < length braids) by (apply nth_error_Some; congruence). assert (Lj : j < length braids) by (apply nth_error_Some; congruence).
    assert (EB : block im [i] = block im [j]).
    { assert (Vi : forall k, k < length braids -> valid_index (apre im) [k]) by (intros k Lk; rewrite P; apply valid_one; eauto).
      destruct (wfa_block im [i] W (Vi i Li)) as [L1 _]. destruct (wfa_block im [j] W (Vi j Lj)) as [L2 _]. apply (block_ext _ _ _ _ _ L1 L2). intros a c e Ha Hcc He.
      specialize (E a c e ltac:(lia) ltac:(lia)). rewrite !coef_block in E by auto. now rewrite (proj2 (Nat.ltb_lt _ _) He) in E. }
    destruct (PL i x Hx) as [A1 A2]. destruct (PL j y Hy) as [B1 B2]. rewrite EB in *. eauto 6.
  - intros HI h l x y Hin Hx Hy. destruct (GR h) as [[Hk Q]|[_ Q]]; [|exfalso; apply Q, in_map_iff; now exists (h, l)].
    assert (El : l = picked ks braids h) by (pose proof (dget_nodup Z.eqb Z.eq_dec zeqb_iff _ _ _ ND Hin); pose proof (dget_nodup Z.eqb Z.eq_dec zeqb_iff _ _ _ ND Q); congruence). subst l.
    apply picked_in in Hx; [|exact LK]. apply picked_in in Hy; [|exact LK]. destruct Hx as (i & Hi & Hx). destruct Hy as (j & Hj & Hy). exists i, j. split; [exact Hx|]. split; [exact Hy|].
    destruct (KI i h Hi) as [Li Ei]. destruct (KI j h Hj) as [Lj Ej]. assert (EB : block im [i] = block im [j]) by (apply HI; congruence).
    intros a c e Ha Hcc. assert (Vi : forall k, k < length braids -> valid_index (apre im) [k]) by (intros k Lk; rewrite P; apply valid_one; eauto). rewrite !coef_block by (try lia; auto). now rewrite EB.
Qed.
Theorem C107_missing hash tr tag : dget tag_eqb (tr_buckets tr) tag = None -> hash_bucket hash tr tag = Err AssertionError.
Proof. intros H. unfold hash_bucket. now rewrite H. Qed.

(** ** C108 *)
Lemma broadcast_same a : broadcast_shapes a a = Ok a.
Proof.
  unfold broadcast_shapes. replace (lpad (length a) a) with a by (unfold lpad; rewrite Nat.sub_diag; reflexivity).
  induction a as [|x a IH]; [reflexivity|]. cbn [broadcast]. rewrite IH, Nat.eqb_refl. reflexivity.
Qed.
Lemma bidx_same a idx : valid_index a idx -> bidx a idx = idx.
Proof.
  intros V. unfold bidx. assert (L : length idx = length a) by (symmetry; apply PropsTLMor2.Forall2_len in V; exact V). rewrite L, Nat.sub_diag. cbn [skipn]. clear L.
  induction V as [|i s idx a H V IH]; [reflexivity|]. cbn [combine map]. rewrite IH. f_equal. destruct (Nat.eqb_spec s 1); [lia|reflexivity].
Qed.
Lemma np_all_eq_same A B : full_shape A = full_shape B -> apre A = apre B -> exists e, np_all_eq A B = Ok e /\
  (e = true <-> forall idx i j d, valid_index (apre A) idx -> i < aI A -> j < aJ A -> acoef A idx i j d = acoef B idx i j d).
Proof.
  intros ES EP. unfold np_all_eq. rewrite <- ES, broadcast_same. cbn [bind]. eexists. split; [reflexivity|]. rewrite forallb_forall.
  assert (ED : aI A = aI B /\ aJ A = aJ B /\ aD A = aD B) by (unfold full_shape in ES; rewrite EP in ES; apply app_inv_head in ES; injection ES; auto). destruct ED as (E1 & E2 & E3).
  assert (CE : forall C idx i j d, full_shape C = full_shape A -> apre C = apre A -> valid_index (apre A) idx -> d < aD A -> acoef C idx i j d = cell C (idx ++ [i; j; d])).
  { intros C idx i j d S P V Hd. assert (EC : aD C = aD A) by (unfold full_shape in S; rewrite P in S; apply app_inv_head in S; now injection S). unfold acoef, cell. rewrite <- EC in Hd. rewrite (proj2 (Nat.ltb_lt _ _) Hd). f_equal. change (apre C ++ [aI C; aJ C; aD C]) with (full_shape C). apply cpos_ravel.
    unfold full_shape. rewrite P, !app_length. apply PropsTLMor2.Forall2_len in V. cbn [length]. lia. }
  split.
  - intros H idx i j d V Hi Hj. destruct (Nat.lt_ge_cases d (aD A)) as [Hd|Hd]; [|rewrite !acoef_over by lia; reflexivity].
    rewrite (CE A), (CE B) by auto. assert (Hin : valid_index (full_shape A) (idx ++ [i; j; d])) by (unfold full_shape; apply Forall2_app; [exact V|repeat constructor; assumption]).
    specialize (H _ (proj2 (in_indices _ _) Hin)). rewrite (bidx_same _ _ Hin) in H. now apply Z.eqb_eq in H.
  - intros H x Hx. apply in_indices in Hx. rewrite (bidx_same _ _ Hx). apply Z.eqb_eq. unfold full_shape in Hx. apply Forall2_app_inv_r in Hx. destruct Hx as (idx & y & V & Hy & ->).
    inversion Hy as [|i ? y1 ? Hi Hy1]; subst. inversion Hy1 as [|j ? y2 ? Hj Hy2]; subst. inversion Hy2 as [|d ? y3 ? Hd Hy3]; subst. inversion Hy3; subst.
    rewrite <- (CE A), <- (CE B) by auto. now apply H.
Qed.
(** the pair (braids, images) of every bucket of a run *)
Definition stored (I J : nat) (t : dtype) (braids : list nfobj) (images : parr) : Prop :=
  wfa images /\ apre images = [length braids] /\ aI images = I /\ aJ images = J /\ adt images = t.
Lemma run_stored cls rnd rint cap stats m w I J t os tr : Forall (op_ok I J t) os -> new_run cls rnd rint cap stats m w os = Ok tr ->
  forall tag b, In (tag, b) (tr_buckets tr) -> dget tag_eqb (tr_buckets tr) tag = Some b /\ stored I J t (fst (braids_images b)) (snd (braids_images b)).
Proof.
  intros F H tag b Hin. destruct (new_run_ok _ _ _ _ _ _ _ _ _ _ _ _ F H) as (_ & _ & h & _ & TO). destruct TO as (_ & _ & _ & _ & TO). specialize (TO tag).
  assert (ND : NoDup (map fst (tr_buckets tr))).
  { unfold new_run in H. destruct (tracker_init cap stats m w) as [t0|] eqn:E0; [|discriminate]. cbn [bind] in H. eapply run_tidy; [|exact H]. unfold tracker_init in E0. destruct (assert_ (existsb is_length stats)); [|discriminate]. cbn [bind] in E0. destruct (assert_ (existsb is_projlen stats)); [|discriminate]. cbn [bind] in E0. injection E0 as <-. split; [constructor|intros ? ? Q; discriminate]. }
  assert (G : dget tag_eqb (tr_buckets tr) tag = Some b) by exact (dget_nodup tag_eqb tagdec tag_eqb_iff _ _ _ ND Hin). split; [exact G|]. rewrite G in TO. destruct TO as [_ (items & B & _)].
  destruct (stored_batch _ _ _ _ _ _ _ _ B) as (E0 & W & P & E1 & E2 & E3 & E4 & _). rewrite E0. red. rewrite map_length. auto.
Qed.

Definition same_shape (A B : parr) : Prop := wfa B /\ apre A = apre B /\ aI A = aI B /\ aJ A = aJ B /\ aD A = aD B.
Lemma item_eq im P N k : wfa im -> apre im = [N] -> same_shape im P -> k < N ->
  exists x y e, arr_item im (Z.of_nat k) = Ok x /\ arr_item P (Z.of_nat k) = Ok y /\ np_all_eq x y = Ok e /\ (e = true <-> forall i j d, i < aI im -> j < aJ im -> acoef im [k] i j d = acoef P [k] i j d).
Proof.
  intros W E (WP & E1 & E2 & E3 & E4) Lk. rewrite (arr_item_block im N k W E Lk), (arr_item_block P N k WP ltac:(congruence) Lk).
  destruct (np_all_eq_same (mkA [] (aI im) (aJ im) (aD im) (adt im) [block im [k]]) (mkA [] (aI P) (aJ P) (aD P) (adt P) [block P [k]])) as (e & E5 & E6); [unfold full_shape; cbn [apre aI aJ aD]; congruence|reflexivity|].
  eexists _, _, e. split; [reflexivity|]. split; [reflexivity|]. split; [exact E5|]. rewrite E6. cbn [apre aI aJ].
  assert (CB : forall A i j d, wfa A -> apre A = [N] -> i < aI A -> j < aJ A -> acoef (mkA [] (aI A) (aJ A) (aD A) (adt A) [block A [k]]) [] i j d = acoef A [k] i j d).
  { intros A i j d WA EA Hi Hj. assert (V : valid_index (apre A) [k]) by (rewrite EA; apply valid_one; eauto). rewrite (coef_block A [k] i j d WA V Hi Hj). destruct (wfa_block A [k] WA V) as [L F].
    set (C := mkA [] (aI A) (aJ A) (aD A) (adt A) [block A [k]]). assert (WC : wfa C). { split; [reflexivity|]. split; cbn [C aI aJ aD adt ablocks]; (constructor; [|constructor]); [rewrite L; unfold nitems; cbn; lia|exact F]. }
    assert (VC : valid_index (apre C) []) by constructor. rewrite (coef_block C [] i j d WC VC Hi Hj). reflexivity. }
  split.
  - intros H i j d Hi Hj. specialize (H [] i j d ltac:(constructor) Hi Hj). rewrite !CB in H by congruence. exact H.
  - intros H idx i j d V Hi Hj. inversion V; subst. rewrite !CB by congruence. now apply H.
Qed.
Lemma first_wrong_ok braids im P : wfa im -> apre im = [length braids] -> same_shape im P ->
  exists r, first_wrong im P 0 braids = Ok r /\
  match r with
  | None => forall k i j e, k < length braids -> i < aI im -> j < aJ im -> acoef im [k] i j e = acoef P [k] i j e
  | Some (x, y, z) => exists k, nth_error braids k = Some x /\ arr_item P (Z.of_nat k) = Ok y /\ arr_item im (Z.of_nat k) = Ok z /\ ~ (forall i j e, i < aI im -> j < aJ im -> acoef im [k] i j e = acoef P [k] i j e)
  end.
Proof.
  intros W E S. assert (G : forall bs k, skipn k braids = bs -> (forall q i j e, q < k -> i < aI im -> j < aJ im -> acoef im [q] i j e = acoef P [q] i j e) ->
    exists r, first_wrong im P k bs = Ok r /\ match r with
      | None => forall k i j e, k < length braids -> i < aI im -> j < aJ im -> acoef im [k] i j e = acoef P [k] i j e
      | Some (x, y, z) => exists k, nth_error braids k = Some x /\ arr_item P (Z.of_nat k) = Ok y /\ arr_item im (Z.of_nat k) = Ok z /\ ~ (forall i j e, i < aI im -> j < aJ im -> acoef im [k] i j e = acoef P [k] i j e) end).
  { induction bs as [|b bs IH]; intros k Ek Hk; cbn [first_wrong].
    - exists None. split; [reflexivity|]. intros q i j e Hq. apply Hk. assert (L : length (skipn k braids) = 0) by now rewrite Ek. rewrite skipn_length in L. lia.
    - assert (L : k < length braids) by (pose proof (f_equal (@length nfobj) Ek) as L; rewrite skipn_length in L; cbn [length] in L; lia).
      destruct (item_eq im P _ k W E S L) as (x & y & e & E1 & E2 & E3 & E4). rewrite E1, E2. cbn [bind]. rewrite E3. cbn [bind].
      assert (NB : nth_error braids k = Some b) by (rewrite <- (firstn_skipn k braids), Ek, nth_error_app2 by (rewrite firstn_length; lia); rewrite firstn_length; replace (k - Nat.min k (length braids)) with 0 by lia; reflexivity).
      destruct e.
      + apply IH.
        * rewrite Nat.add_1_r. clear - Ek. revert braids Ek. induction k; intros [|a l] Q; try discriminate; cbn in *; [now injection Q|]. now apply IHk.
        * intros q i j e Hq Hi Hj. destruct (Nat.eq_dec q k) as [->|]; [|apply Hk; auto; lia]. now apply E4.
      + eexists. split; [reflexivity|]. exists k. split; [exact NB|]. split; [exact E2|]. split; [exact E1|]. intros Q. apply E4 in Q. discriminate. }
  apply (G braids 0 eq_refl). intros; lia.
Qed.
(** C108.  valiate_buckets of a tracker of bucketing.py compares every stored matrix
    with what the representation gives, provided that the evaluation returns arrays of
    the shape that is stored: it either finds all of them equal, or returns one braid
    with its value and the stored matrix, which differ. *)
Theorem C108_checks ev cls rnd rint cap stats m w I J t os tr : Forall (op_ok I J t) os -> new_run cls rnd rint cap stats m w os = Ok tr ->
  (forall tag b, dget tag_eqb (tr_buckets tr) tag = Some b -> exists P, ev (fst (braids_images b)) = Ok P /\ same_shape (snd (braids_images b)) P) ->
  exists r, valiate_buckets ev tr = Ok r /\
  match r with
  | None => forall tag b P, dget tag_eqb (tr_buckets tr) tag = Some b -> ev (fst (braids_images b)) = Ok P ->
      forall k i j e, k < length (fst (braids_images b)) -> i < I -> j < J -> acoef (snd (braids_images b)) [k] i j e = acoef P [k] i j e
  | Some (x, y, z) => exists tag b P k, dget tag_eqb (tr_buckets tr) tag = Some b /\ ev (fst (braids_images b)) = Ok P /\
      nth_error (fst (braids_images b)) k = Some x /\ arr_item P (Z.of_nat k) = Ok y /\ arr_item (snd (braids_images b)) (Z.of_nat k) = Ok z /\
      ~ (forall i j e, i < I -> j < J -> acoef (snd (braids_images b)) [k] i j e = acoef P [k] i j e)
  end.
Proof.
  intros F H HE. pose proof (run_stored _ _ _ _ _ _ _ _ _ _ _ _ F H) as RS. unfold valiate_buckets.
  assert (G : forall l, (forall tag b, In (tag, b) l -> In (tag, b) (tr_buckets tr)) -> exists r, validate ev (map (fun '(_, b) => braids_images b) l) = Ok r /\
    match r with
    | None => forall tag b P, In (tag, b) l -> ev (fst (braids_images b)) = Ok P ->
        forall k i j e, k < length (fst (braids_images b)) -> i < I -> j < J -> acoef (snd (braids_images b)) [k] i j e = acoef P [k] i j e
    | Some (x, y, z) => exists tag b P k, In (tag, b) l /\ ev (fst (braids_images b)) = Ok P /\
      nth_error (fst (braids_images b)) k = Some x /\ arr_item P (Z.of_nat k) = Ok y /\ arr_item (snd (braids_images b)) (Z.of_nat k) = Ok z /\
      ~ (forall i j e, i < I -> j < J -> acoef (snd (braids_images b)) [k] i j e = acoef P [k] i j e)
    end).
  { induction l as [|[tag b] l IH]; intros Hl; cbn [map validate].
    - exists None. split; [reflexivity|]. intros ? ? ? [].
    - destruct (RS tag b (Hl tag b ltac:(now left))) as [G (W & E & E1 & E2 & E3)]. destruct (HE tag b G) as (P & EP & S). destruct (braids_images b) as [braids im] eqn:EB. cbn [fst snd] in *. rewrite EP. cbn [bind].
      destruct (IH (fun tag b Q => Hl tag b (or_intror Q))) as (r & Er & Hr).
      assert (REST : (forall k i j e, k < length braids -> i < I -> j < J -> acoef im [k] i j e = acoef P [k] i j e) -> exists r, validate ev (map (fun '(_, b) => braids_images b) l) = Ok r /\
        match r with
        | None => forall tag' b' P, In (tag', b') ((tag, b) :: l) -> ev (fst (braids_images b')) = Ok P ->
            forall k i j e, k < length (fst (braids_images b')) -> i < I -> j < J -> acoef (snd (braids_images b')) [k] i j e = acoef P [k] i j e
        | Some (x, y, z) => exists tag' b' P k, In (tag', b') ((tag, b) :: l) /\ ev (fst (braids_images b')) = Ok P /\
          nth_error (fst (braids_images b')) k = Some x /\ arr_item P (Z.of_nat k) = Ok y /\ arr_item (snd (braids_images b')) (Z.of_nat k) = Ok z /\
          ~ (forall i j e, i < I -> j < J -> acoef (snd (braids_images b')) [k] i j e = acoef P [k] i j e)
        end).
      { intros AE. exists r. split; [exact Er|]. destruct r as [[[x y] z]|].
        - destruct Hr as (tg & b' & P' & k & Q & Q'). exists tg, b', P', k. split; [now right|exact Q'].
        - intros tg b' P' [[= <- <-]|Q] Q'; [rewrite EB in *; cbn [fst snd] in *; rewrite EP in Q'; injection Q' as <-; exact AE|]. now apply (Hr tg b' P' Q Q'). }
      destruct S as (S0 & S1 & S2 & S3 & S4). destruct (np_all_eq_same im P) as (e & Ee & He); [unfold full_shape; congruence|exact S1|]. rewrite Ee. cbn [bind]. destruct e.
      + apply REST. intros k i j e Lk Hi Hj. apply (proj1 He eq_refl); try lia. rewrite E. apply valid_one. eauto.
      + destruct (first_wrong_ok braids im P W E (conj S0 (conj S1 (conj S2 (conj S3 S4))))) as (q & Eq & Hq). rewrite Eq. cbn [bind]. destruct q as [[[x y] z]|].
        * eexists. split; [reflexivity|]. destruct Hq as (k & K1 & K2 & K3 & K4). exists tag, b, P, k. rewrite EB. cbn [fst snd]. split; [now left|]. rewrite <- E1, <- E2. auto 6.
        * exfalso. assert (Q : false = true); [|discriminate]. apply He. intros idx i j d V Hi Hj. rewrite E in V. apply valid_one in V. destruct V as (k & -> & Lk). now apply Hq. }
  destruct (G (tr_buckets tr) ltac:(auto)) as (r & Er & Hr). exists r. split; [exact Er|]. destruct r as [[[x y] z]|].
  - destruct Hr as (tag & b & P & k & Q & Q'). exists tag, b, P, k. split; [apply (RS tag b Q)|exact Q'].
  - intros tag b P Q EP. apply (Hr tag b P); [|exact EP]. clear - Q. induction (tr_buckets tr) as [|[a u] l IH]; [discriminate|]. cbn [dget] in Q. destruct (tag_eqb tag a) eqn:E; [|right; auto]. injection Q as ->. apply tag_eqb_iff in E. subst. now left.
Qed.
(** C108: valiate_buckets of the tracker of braidsearch.py never gives an answer when
    there is a bucket to check: it reads an attribute the tracker does not have. *)
Theorem C108_braidsearch_refuted rint crit size rand I J t os s : 1 <= size -> Forall (sop_ok I J t) os -> (forall bs im b, In (SAdd bs im) os -> In b bs -> 1 <= o_n b) ->
  st_run rint crit (strk_init size rand) os = Ok s -> st_valiate_buckets s = match st_buckets s with [] => Ok None | _ => Err AttributeError end.
Proof.
  intros Hs F HN H. destruct (st_new_run rint crit size rand I J t Hs os s F H) as (h & HH & (_ & _ & _ & SO)). unfold st_valiate_buckets. destruct (st_buckets s) as [|[tag b] bk] eqn:EB; [reflexivity|].
  specialize (SO tag). assert (G : dget stag_eqb ((tag, b) :: bk) tag = Some b) by (cbn [dget]; now rewrite (proj2 (stag_eqb_iff tag tag) eq_refl)). unfold st_braids_images. rewrite EB in *. rewrite G in *. cbn [bind].
  destruct SO as (NE & B & _ & _). rewrite (sbi_braids _ _ _ _ _ _ _ B). destruct (held_props rint size rand tag h Hs) as ((rest & P) & L & _). pose proof (firsts_nil _ NE) as NF.
  destruct (held rint size rand tag h) as [|x l] eqn:EH; [cbn [length] in L; destruct (firsts (since stagdec tag h)); [contradiction|cbn [length] in L; lia]|]. cbn [map]. change (get (ibraid x :: map ibraid l) 0) with (Ok (ibraid x)). cbn [bind].
  assert (Hi : In x (since stagdec tag h)) by (apply (Permutation_in _ (Permutation_sym P)); now left).
  destruct (shistory_in _ _ _ _ _ HH (since_in2 _ _ _ Hi)) as (bs & im & i & Ha & (b' & y & v & Hb & Py & Dv & [= _ ->])). cbn [ibraid fst].
  assert (N1 : 1 <= o_n b') by (eapply HN; [exact Ha|now apply nth_error_In in Hb]). now rewrite (proj2 (Nat.leb_le _ _) N1).
Qed.
Example C107_case :
  match new_run 0 (fun _ => 0%Q) (fun _ => 0) 2 [CanonicalLength; ProjectiveLength] EvictMin ex_weight ex_ops with
  | Ok tr => match hash_bucket (fun _ l => fold_right Z.add 0%Z l) tr [1; 2]%Z with Ok d => map (fun '(h, l) => (h, length l)) d = [(3%Z, 1); (4%Z, 1)] | Err _ => False end
  | Err _ => False
  end.
Proof. vm_compute. reflexivity. Qed.
Example C108_case_braidsearch : Forall (sop_ok 1 1 I64) ex_sops /\ match st_run (fun _ => 0) every (strk_init 2 true) ex_sops with Ok s => st_valiate_buckets s = Err AttributeError | Err _ => False end.
Proof. split; [exact (proj1 C72_case)|]. vm_compute. reflexivity. Qed.
