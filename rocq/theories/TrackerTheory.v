(** TrackerTheory.v – invariants of the buckets of bucketing.py. *)
From Verif Require Import Base ModelPerm ModelBraid ModelPoly ModelMatrix ModelPolymat SpecPolymat PolymatTheory PropsPolymat PropsPolymat2 ModelTracker SpecTracker.
From Coq Require Import QArith Permutation Sorted.
Local Open Scope nat_scope.

Lemma tag_eqb_iff a : forall b, tag_eqb a b = true <-> a = b.
Proof.
  induction a as [|x a IH]; intros [|y b]; cbn [tag_eqb]; try (split; [discriminate|now intros [=]]); [tauto|].
  rewrite andb_true_iff, Z.eqb_eq, IH. split; [intros [-> ->]; reflexivity|intros [= -> ->]; auto].
Qed.
Definition tagdec : forall a b : list Z, {a = b} + {a <> b} := list_eq_dec Z.eq_dec.

Section DictLemmas.
Context {K V : Type} (keqb : K -> K -> bool) (dec : forall a b : K, {a = b} + {a <> b}) (KE : forall a b, keqb a b = true <-> a = b).
Lemma keqb_dec a b : keqb a b = if dec a b then true else false.
Proof. destruct (dec a b) as [->|N]; [now apply KE|]. destruct (keqb a b) eqn:E; [|reflexivity]. now apply KE in E. Qed.
Lemma dget_dset (d : list (K * V)) k v k' : dget keqb (dset keqb d k v) k' = if dec k k' then Some v else dget keqb d k'.
Proof.
  induction d as [|[a u] d IH]; cbn [dset dget].
  - rewrite (keqb_dec k' k). destruct (dec k' k), (dec k k'); congruence.
  - rewrite (keqb_dec k a). destruct (dec k a) as [Ea|Na]; cbn [dget].
    + rewrite (keqb_dec k' a). destruct (dec k' a), (dec k k'); congruence.
    + rewrite IH. rewrite (keqb_dec k' a). destruct (dec k' a) as [E|N]; [|reflexivity]. destruct (dec k k'); congruence.
Qed.
Lemma dget_ddel (d : list (K * V)) k k' : dget keqb (ddel keqb d k) k' = if dec k k' then None else dget keqb d k'.
Proof.
  induction d as [|[a u] d IH]; unfold ddel in *; cbn [filter dget fst].
  - now destruct (dec k k').
  - rewrite (keqb_dec k a). destruct (dec k a) as [Ea|Na]; cbn [negb dget].
    + rewrite IH. rewrite (keqb_dec k' a). destruct (dec k k'), (dec k' a); congruence.
    + rewrite (keqb_dec k' a). destruct (dec k' a) as [E|N]; [|exact IH]. destruct (dec k k'); congruence.
Qed.
Lemma dset_dset_get (d : list (K * V)) k u v k' : dget keqb (dset keqb (dset keqb d k u) k v) k' = if dec k k' then Some v else dget keqb d k'.
Proof. rewrite !dget_dset. now destruct (dec k k'). Qed.
End DictLemmas.

(** ** the heap *)
Definition hle (a b : Q * nat) : Prop := heap_le a b = true.
Lemma hle_total a b : heap_le a b = false -> hle b a.
Proof.
  unfold hle, heap_le. rewrite <- (Qcompare_antisym (fst b) (fst a)). destruct (Qcompare (fst b) (fst a)); cbn [CompOpp]; try reflexivity; try discriminate.
  intros H. apply Nat.leb_gt in H. apply Nat.leb_le. lia.
Qed.
Lemma hle_fst a b : hle a b -> (fst a <= fst b)%Q.
Proof. unfold hle, heap_le. destruct (Qcompare (fst a) (fst b)) eqn:E; intros H; [apply Qeq_alt in E; rewrite E; apply Qle_refl|apply Qlt_alt in E; now apply Qlt_le_weak|discriminate]. Qed.
Lemma hle_trans a b c : hle a b -> hle b c -> hle a c.
Proof.
  unfold hle, heap_le. destruct (Qcompare (fst a) (fst b)) eqn:E; [|intros _|discriminate].
  - apply Qeq_alt in E. rewrite (Qcompare_comp _ _ E _ _ (Qeq_refl (fst c))). destruct (Qcompare (fst b) (fst c)); auto. intros H1%Nat.leb_le H2%Nat.leb_le. apply Nat.leb_le. lia.
  - apply Qlt_alt in E. intros H. assert (L : (fst b <= fst c)%Q) by now apply hle_fst. assert (L2 : (fst a < fst c)%Q) by now apply (Qlt_le_trans _ _ _ E). now rewrite (proj1 (Qlt_alt _ _) L2).
Qed.
Lemma heappush_perm h x : Permutation (heappush h x) (x :: h).
Proof. induction h as [|y h IH]; cbn [heappush]; [reflexivity|]. destruct (heap_le x y); [reflexivity|]. rewrite IH. apply perm_swap. Qed.
Lemma heappush_sorted h x : StronglySorted hle h -> StronglySorted hle (heappush h x).
Proof.
  induction h as [|y h IH]; intros S; cbn [heappush]; [repeat constructor|]. inversion S as [|? ? S1 F]; subst.
  destruct (heap_le x y) eqn:E.
  - constructor; [exact S|]. constructor; [exact E|]. eapply Forall_impl; [|exact F]. intros z Hz. now apply (hle_trans x y z).
  - constructor; [now apply IH|]. apply Forall_forall. intros z Hz. apply (Permutation_in z (heappush_perm h x)) in Hz. destruct Hz as [<-|Hz]; [now apply hle_total|]. rewrite Forall_forall in F. now apply F.
Qed.

(** ** lists *)
Lemma upd_map {A B} (f : A -> B) l i a : upd (map f l) i (f a) = map f (upd l i a).
Proof. revert i; induction l as [|x l IH]; intros [|i]; cbn; congruence. Qed.
Lemma upd_perm {A} (l : list A) i a y : nth_error l i = Some y -> Permutation (y :: upd l i a) (a :: l).
Proof.
  revert i; induction l as [|x l IH]; intros [|i] H; try discriminate; cbn in *.
  - injection H as <-. apply perm_swap.
  - rewrite perm_swap, (IH i H). apply perm_swap.
Qed.
Lemma firstn_snoc {A} (l : list A) x c : firstn c (l ++ [x]) = if length l <? c then l ++ [x] else firstn c l.
Proof.
  rewrite firstn_app. destruct (Nat.ltb_spec (length l) c) as [H|H].
  - rewrite firstn_all2 by lia. destruct (c - length l) as [|m] eqn:E; [lia|]. cbn. now rewrite firstn_nil.
  - replace (c - length l) with 0 by lia. cbn. now rewrite app_nil_r.
Qed.
Lemma nth_error_snoc {A} (l : list A) x k y : nth_error (l ++ [x]) k = Some y -> (k < length l /\ nth_error l k = Some y) \/ (k = length l /\ y = x).
Proof.
  intros H. destruct (Nat.lt_ge_cases k (length l)) as [L|L].
  - left. split; [exact L|]. now rewrite nth_error_app1 in H.
  - right. rewrite nth_error_app2 in H by exact L. destruct (k - length l) as [|m] eqn:E; cbn in H; [split; [lia|congruence]|]. destruct m; discriminate.
Qed.

(** ** one bucket *)
Definition ok_image (I J D : nat) (t : dtype) (x : parr) : Prop := wfa x /\ apre x = [] /\ aI x = I /\ aJ x = J /\ aD x = D /\ adt x = t.
Definition iok I J D t (x : item) : Prop := ok_image I J D t (iimage x).
Record binv (cap : nat) (tag : list Z) (I J D : nat) (t : dtype) (b : bucket) (items : list item) : Prop := mkBI {
  bi_tag : b_tag b = tag; bi_cap : b_capacity b = cap; bi_len : length items <= cap;
  bi_braids : b_braids b = map ibraid items;
  bi_I : aI (b_images b) = I; bi_J : aJ (b_images b) = J; bi_D : aD (b_images b) = D; bi_t : adt (b_images b) = t; bi_pre : apre (b_images b) = [cap];
  bi_blocks : length (ablocks (b_images b)) = cap;
  bi_image : forall k x, nth_error items k = Some x -> nth_error (ablocks (b_images b)) k = Some (block (iimage x) []);
  bi_wlen : length (b_weights b) = cap;
  bi_weight : forall k x, nth_error items k = Some x -> nth_error (b_weights b) k = Some (iweight x);
  bi_ok : Forall (iok I J D t) items }.
(** the heap holds the pairs (weight, index) of the stored items *)
Definition heap_of (items : list item) : list (Q * nat) := map (fun k => (nth k (map iweight items) 0%Q, k)) (seq 0 (length items)).
Definition hinv (h : list (Q * nat)) (items : list item) : Prop := StronglySorted hle h /\ Permutation h (heap_of items).

Lemma ok_block I J D t x : ok_image I J D t x -> length (block x []) = I * J * D /\ Forall (in_dtype t) (block x []).
Proof. intros (W & E & <- & <- & <- & <-). apply wfa_block; [exact W|]. rewrite E. constructor. Qed.
(** assigning an image of the shape of the batch stores exactly that image *)
Lemma set_item_ok A idx x : idx < length (ablocks A) -> ok_image (aI A) (aJ A) (aD A) (adt A) x ->
  set_item A idx x = Ok (mkA (apre A) (aI A) (aJ A) (aD A) (adt A) (upd (ablocks A) idx (block x []))).
Proof.
  intros H O. unfold set_item. rewrite (proj2 (Nat.ltb_lt _ _) H). cbn [negb]. destruct (ok_block _ _ _ _ _ O) as [L F]. destruct O as (W & E0 & E1 & E2 & E3 & E4).
  rewrite E1, E2, E3, !Nat.eqb_refl. cbn [orb andb]. do 3 f_equal.
  apply (block_ext (aI A) (aJ A) (aD A)); [apply btab_length|exact L|]. intros i j d Hi Hj Hd. rewrite bget_btab by assumption.
  rewrite wrap_id.
  - destruct (Nat.eqb_spec (aI A) 1), (Nat.eqb_spec (aJ A) 1), (Nat.eqb_spec (aD A) 1); f_equal; lia.
  - apply (Forall_bget _ (aI A)); [exact L|exact F| | |].
    + destruct (Nat.eqb_spec (aI A) 1); lia.
    + destruct (Nat.eqb_spec (aJ A) 1); lia.
    + destruct (Nat.eqb_spec (aD A) 1); lia.
Qed.
Lemma binv_show cap tag I J D t b items w : binv cap tag I J D t b items -> binv cap tag I J D t (show_reservoir b w) items.
Proof. intros []. constructor; assumption. Qed.
Lemma binv_heap cap tag I J D t b items h : binv cap tag I J D t b items -> binv cap tag I J D t (with_heap b h) items.
Proof. intros []. constructor; assumption. Qed.
Lemma binv_create cap tag x : binv cap tag (aI x) (aJ x) (aD x) (adt x) (bucket_create tag cap x) [].
Proof.
  constructor; try reflexivity; cbn [bucket_create b_images b_weights zeros_batch ablocks]; rewrite ?repeat_length; auto; try (intros [|k] y; discriminate); cbn; lia.
Qed.
(** appending and replacing *)
Lemma append_inv cap tag I J D t b items x : binv cap tag I J D t b items -> iok I J D t x -> length items < cap ->
  exists b', append_braid b (ibraid x) (iimage x) (iweight x) = Ok (length items, b') /\ binv cap tag I J D t b' (items ++ [x]) /\ b_count b' = b_count b /\ b_weight b' = b_weight b /\ b_heap b' = b_heap b.
Proof.
  intros B X L. destruct B. unfold append_braid, b_size. rewrite bi_braids0, map_length, bi_cap0. rewrite (proj2 (Nat.eqb_neq _ _)) by lia.
  rewrite set_item_ok; [|lia|unfold iok in X; now rewrite bi_I0, bi_J0, bi_D0, bi_t0]. cbn [bind]. rewrite set_ok by lia. cbn [bind].
  eexists. split; [reflexivity|]. split; [|repeat split].
  constructor; cbn [b_tag b_capacity b_braids b_images b_weights b_heap aI aJ aD adt apre ablocks]; rewrite ?upd_length; auto.
  - rewrite app_length. cbn. lia.
  - rewrite map_app. reflexivity.
  - intros k y [[Hk Hy]|[-> ->]]%nth_error_snoc; rewrite nth_error_upd.
    + destruct (Nat.eqb_spec (length items) k); [lia|]. now apply bi_image0.
    + rewrite Nat.eqb_refl. rewrite (proj2 (Nat.ltb_lt _ _)) by lia. reflexivity.
  - intros k y [[Hk Hy]|[-> ->]]%nth_error_snoc; rewrite nth_error_upd.
    + destruct (Nat.eqb_spec (length items) k); [lia|]. now apply bi_weight0.
    + rewrite Nat.eqb_refl. rewrite (proj2 (Nat.ltb_lt _ _)) by lia. reflexivity.
  - apply Forall_app. split; [assumption|]. now constructor.
Qed.
Lemma append_full cap tag I J D t b items x im w : binv cap tag I J D t b items -> length items = cap -> append_braid b x im w = Err ValueError.
Proof. intros [] L. unfold append_braid, b_size. rewrite bi_braids0, map_length, bi_cap0, L, Nat.eqb_refl. reflexivity. Qed.
Lemma Forall_upd {A} (P : A -> Prop) l i a : Forall P l -> P a -> Forall P (upd l i a).
Proof. intros F Ha. revert i. induction F as [|x l Hx F IH]; intros [|i]; cbn; constructor; auto. Qed.
Lemma replace_inv cap tag I J D t b items x i : binv cap tag I J D t b items -> iok I J D t x -> i < length items ->
  exists b', replace_braid b i (ibraid x) (iimage x) (iweight x) = Ok b' /\ binv cap tag I J D t b' (upd items i x) /\ b_count b' = b_count b /\ b_weight b' = b_weight b /\ b_heap b' = b_heap b.
Proof.
  intros B X L. destruct B. unfold replace_braid, b_size. rewrite bi_braids0, map_length. rewrite (proj2 (Nat.ltb_lt _ _) L). cbn [negb].
  rewrite set_ok by now rewrite map_length. cbn [bind].
  rewrite set_item_ok; [|lia|unfold iok in X; now rewrite bi_I0, bi_J0, bi_D0, bi_t0]. cbn [bind]. rewrite set_ok by lia. cbn [bind].
  eexists. split; [reflexivity|]. split; [|repeat split].
  constructor; cbn [b_tag b_capacity b_braids b_images b_weights b_heap aI aJ aD adt apre ablocks]; rewrite ?upd_length; auto.
  - apply upd_map.
  - intros k y. rewrite !nth_error_upd. destruct (Nat.eqb_spec i k) as [->|N]; cbn [andb]; [|apply bi_image0].
    rewrite (proj2 (Nat.ltb_lt _ _) L). rewrite (proj2 (Nat.ltb_lt _ _)) by lia. congruence.
  - intros k y. rewrite !nth_error_upd. destruct (Nat.eqb_spec i k) as [->|N]; cbn [andb]; [|apply bi_weight0].
    rewrite (proj2 (Nat.ltb_lt _ _) L). rewrite (proj2 (Nat.ltb_lt _ _)) by lia. congruence.
  - now apply Forall_upd.
Qed.
Lemma replace_out cap tag I J D t b items i x im w : binv cap tag I J D t b items -> length items <= i -> replace_braid b i x im w = Err ValueError.
Proof. intros [] L. unfold replace_braid, b_size. rewrite bi_braids0, map_length. destruct (Nat.ltb_spec i (length items)); [lia|reflexivity]. Qed.

(** the heap after an append and after a replacement of the minimum *)
Lemma heap_snoc items x : heap_of (items ++ [x]) = heap_of items ++ [(iweight x, length items)].
Proof.
  unfold heap_of. rewrite app_length, seq_app, map_app, map_app. cbn [length seq map Nat.add]. f_equal.
  - apply map_ext_in. intros k Hk%in_seq. f_equal. apply app_nth1. rewrite map_length. lia.
  - f_equal. rewrite app_nth2 by (rewrite map_length; lia). now rewrite map_length, Nat.sub_diag.
Qed.
Lemma heap_upd items i x y : nth_error items i = Some y ->
  exists r, Permutation (heap_of items) ((iweight y, i) :: r) /\ Permutation (heap_of (upd items i x)) ((iweight x, i) :: r).
Proof.
  intros H. assert (L : i < length items) by (apply nth_error_Some; congruence).
  exists (map (fun k => (nth k (map iweight items) 0%Q, k)) (seq 0 i ++ seq (S i) (length items - S i))).
  assert (S : seq 0 (length items) = seq 0 i ++ i :: seq (S i) (length items - S i)).
  { replace (length items) with (i + S (length items - S i)) at 1 by lia. now rewrite seq_app. }
  assert (P : Permutation (seq 0 (length items)) (i :: seq 0 i ++ seq (Datatypes.S i) (length items - Datatypes.S i))) by (rewrite S; symmetry; apply Permutation_middle).
  unfold heap_of. rewrite upd_length. split.
  - rewrite P. cbn [map]. apply Permutation_refl'. f_equal. f_equal. rewrite (nth_indep _ 0%Q (iweight y)) by now rewrite map_length. rewrite map_nth. f_equal. now apply nth_error_nth.
  - rewrite P. cbn [map]. apply Permutation_refl'. f_equal.
    + f_equal. rewrite <- upd_map. apply nth_upd_eq. now rewrite map_length.
    + apply map_ext_in. intros k Hk. f_equal. rewrite <- upd_map. apply nth_upd_neq. apply in_app_iff in Hk. rewrite !in_seq in Hk. lia.
Qed.
Lemma hinv_push h items x : hinv h items -> hinv (heappush h (iweight x, length items)) (items ++ [x]).
Proof.
  intros [S P]. split; [now apply heappush_sorted|]. rewrite heappush_perm, heap_snoc, P. apply Permutation_cons_append.
Qed.
Lemma hinv_top h items w i : hinv h items -> heap_top h = Ok (w, i) -> exists y, nth_error items i = Some y /\ iweight y = w /\ forall z, In z items -> (w <= iweight z)%Q.
Proof.
  intros [S P] H. destruct h as [|a h]; [discriminate|]. unfold heap_top, get in H. cbn in H. injection H as ->.
  assert (In (w, i) (heap_of items)) as Hin by (eapply Permutation_in; [exact P|now left]).
  unfold heap_of in Hin. apply in_map_iff in Hin. destruct Hin as [k [[= E ->] Hk%in_seq]].
  destruct (nth_error items i) as [y|] eqn:Y; [|apply nth_error_None in Y; lia]. exists y. split; [reflexivity|].
  assert (Ew : iweight y = w). { rewrite <- E. rewrite (nth_indep _ 0%Q (iweight y)) by (rewrite map_length; lia). rewrite map_nth. f_equal. symmetry. now apply nth_error_nth. }
  split; [exact Ew|]. intros z Hz. apply In_nth_error in Hz. destruct Hz as [q Hq].
  assert (Lq : q < length items) by (apply nth_error_Some; congruence).
  assert (Hin : In (iweight z, q) (heap_of items)).
  { unfold heap_of. apply in_map_iff. exists q. split; [|apply in_seq; lia]. f_equal. rewrite (nth_indep _ 0%Q (iweight z)) by (rewrite map_length; lia). rewrite map_nth. f_equal. now apply nth_error_nth. }
  apply (Permutation_in _ (Permutation_sym P)) in Hin. destruct Hin as [[= -> ->]|Hin]; [apply Qle_refl|].
  inversion S as [|? ? S1 F]; subst. rewrite Forall_forall in F. specialize (F _ Hin). now apply hle_fst in F.
Qed.
Lemma hinv_replace h items i x y w : hinv ((w, i) :: h) items -> nth_error items i = Some y -> iweight y = w -> hinv (heappush h (iweight x, i)) (upd items i x).
Proof.
  intros [S P] Hy <-. inversion S; subst. split; [now apply heappush_sorted|]. destruct (heap_upd items i x y Hy) as [r [P1 P2]].
  rewrite heappush_perm, P2. apply perm_skip. apply (Permutation_cons_inv (a := (iweight y, i))). now rewrite <- P1.
Qed.

(** ** what the stored items are, in terms of the offers *)
Definition holds_of (m : method) (cap : nat) (items L : list item) : Prop :=
  length items = Nat.min cap (length L) /\
  match m with
  | GreedyFirst => items = firstn cap L
  | EvictMin => exists rest, Permutation L (items ++ rest) /\ forall x y, In x items -> In y rest -> (iweight y <= iweight x)%Q
  | _ => exists rest, Permutation L (items ++ rest)
  end.
Lemma holds_perm m cap items L : holds_of m cap items L -> exists rest, Permutation L (items ++ rest).
Proof. intros [_ H]. destruct m; [exists (skipn cap L); subst; now rewrite firstn_skipn|exact H|exact H|destruct H as [r [H _]]; now exists r]. Qed.
Lemma holds_append m cap items L x : holds_of m cap items L -> length items < cap -> holds_of m cap (items ++ [x]) (L ++ [x]).
Proof.
  intros [E H] Lt. split; [rewrite !app_length; cbn; lia|]. destruct m.
  - subst items. rewrite firstn_snoc. rewrite (proj2 (Nat.ltb_lt _ _)) by lia. now rewrite firstn_all2 by lia.
  - destruct H as [r P]. exists r. rewrite P, <- !app_assoc. apply Permutation_app_head, Permutation_app_comm.
  - destruct H as [r P]. exists r. rewrite P, <- !app_assoc. apply Permutation_app_head, Permutation_app_comm.
  - destruct H as [r [P Q]]. assert (r = []) as ->. { apply Permutation_length in P. rewrite app_length in P. destruct r; [reflexivity|cbn in P; lia]. }
    exists []. rewrite app_nil_r in P. split; [now rewrite app_nil_r, P|]. intros ? ? _ [].
Qed.
Lemma holds_skip m cap items L x : holds_of m cap items L -> length items = cap -> (m = EvictMin -> forall y, In y items -> (iweight x <= iweight y)%Q) -> holds_of m cap items (L ++ [x]).
Proof.
  intros [E H] Ec HE. split; [rewrite app_length; cbn; lia|]. destruct m.
  - subst items. rewrite firstn_snoc. destruct (Nat.ltb_spec (length L) cap); [lia|reflexivity].
  - destruct H as [r P]. exists (r ++ [x]). rewrite P. now rewrite app_assoc.
  - destruct H as [r P]. exists (r ++ [x]). rewrite P. now rewrite app_assoc.
  - destruct H as [r [P Q]]. exists (r ++ [x]). split; [rewrite P; now rewrite app_assoc|]. intros a b Ha Hb. apply in_app_iff in Hb. destruct Hb as [Hb|[<-|[]]]; [now apply Q|now apply HE].
Qed.
Lemma perm_replace {A} (items rest L : list A) i x y : nth_error items i = Some y -> Permutation L (items ++ rest) -> Permutation (L ++ [x]) (upd items i x ++ y :: rest).
Proof.
  intros H P. rewrite <- (Permutation_middle (upd items i x) rest y). transitivity ((x :: items) ++ rest).
  - rewrite <- Permutation_cons_append, P. reflexivity.
  - symmetry. apply (Permutation_app_tail rest (upd_perm items i x y H)).
Qed.
Lemma In_upd {A} (l : list A) i a x : In x (upd l i a) -> x = a \/ In x l.
Proof. revert i; induction l as [|y l IH]; intros [|i]; cbn; try tauto; [intros [<-|H]; auto|]. intros [<-|H]; [auto|]. destruct (IH _ H); auto. Qed.
Lemma holds_replace m cap items L x i : m <> GreedyFirst -> holds_of m cap items L -> length items = cap -> i < length items ->
  (m = EvictMin -> forall y z, nth_error items i = Some y -> In z items -> (iweight y <= iweight z)%Q /\ (iweight y <= iweight x)%Q) -> holds_of m cap (upd items i x) (L ++ [x]).
Proof.
  intros NG [E H] Ec Hi HE. destruct (nth_error items i) as [y|] eqn:Y; [|apply nth_error_None in Y; lia].
  split; [rewrite upd_length, app_length; cbn; lia|]. destruct m; [contradiction| | |].
  - destruct H as [r P]. exists (y :: r). now apply perm_replace.
  - destruct H as [r P]. exists (y :: r). now apply perm_replace.
  - destruct H as [r [P Q]]. exists (y :: r). split; [now apply perm_replace|]. specialize (HE eq_refl y). assert (Iy : In y items) by (eapply nth_error_In; exact Y).
    intros a b Ha Hb. destruct (HE y eq_refl Iy) as [_ Hyx]. apply In_upd in Ha. destruct Hb as [<-|Hb], Ha as [->|Ha].
    + exact Hyx.
    + now apply HE.
    + apply Qle_trans with (iweight y); [now apply Q|exact Hyx].
    + now apply Q.
Qed.

(** ** one offer *)
Section Offer.
Variables (rnd : nat -> Q) (rint : nat -> nat).
Definition hinv_of (m : method) (h : list (Q * nat)) (items : list item) : Prop := m = EvictMin -> hinv h items.
Lemma place_inv m k cap tag I J D t b items L x b' k' :
  binv cap tag I J D t b items -> hinv_of m (b_heap b) items -> holds_of m cap items L -> iok I J D t x ->
  place rnd rint m k b (ibraid x) (iimage x) (iweight x) = Ok (b', k') ->
  exists items', binv cap tag I J D t b' items' /\ hinv_of m (b_heap b') items' /\ holds_of m cap items' (L ++ [x]) /\ b_count b' = b_count b /\ b_weight b' = b_weight b.
Proof.
  intros B HI HO X. assert (F : b_is_full b = (length items =? cap)) by (unfold b_is_full; now rewrite (bi_braids _ _ _ _ _ _ _ _ B), map_length, (bi_cap _ _ _ _ _ _ _ _ B)).
  pose proof (bi_len _ _ _ _ _ _ _ _ B) as Ln.
  assert (AP : length items < cap -> m <> EvictMin -> forall b1, append_braid b (ibraid x) (iimage x) (iweight x) = Ok b1 ->
     exists items', binv cap tag I J D t (snd b1) items' /\ hinv_of m (b_heap (snd b1)) items' /\ holds_of m cap items' (L ++ [x]) /\ b_count (snd b1) = b_count b /\ b_weight (snd b1) = b_weight b).
  { intros Lt NE b1 E1. destruct (append_inv _ _ _ _ _ _ _ _ x B X Lt) as [b2 [E2 [B2 [C2 [W2 _]]]]]. rewrite E2 in E1. injection E1 as <-. exists (items ++ [x]). split; [exact B2|].
    split; [intros E; contradiction|]. split; [now apply holds_append|]. now split. }
  assert (RP : forall i b0 b1, length items = cap -> m = Uniform \/ m = AChao -> replace_braid b i (ibraid x) (iimage x) (iweight x) = Ok b1 -> b0 = b1 ->
     exists items', binv cap tag I J D t b0 items' /\ hinv_of m (b_heap b0) items' /\ holds_of m cap items' (L ++ [x]) /\ b_count b0 = b_count b /\ b_weight b0 = b_weight b).
  { intros i b0 b1 Ec Hm E1 ->. destruct (Nat.lt_ge_cases i (length items)) as [Hi|Hi]; [|rewrite (replace_out _ _ _ _ _ _ _ _ _ _ _ _ B Hi) in E1; discriminate].
    destruct (replace_inv _ _ _ _ _ _ _ _ x i B X Hi) as [b2 [E2 [B2 [C2 [W2 _]]]]]. rewrite E2 in E1. injection E1 as <-. exists (upd items i x). split; [exact B2|].
    split; [intros ->; destruct Hm; discriminate|]. split; [|now split]. apply holds_replace; auto; [intros ->; destruct Hm; discriminate|intros ->; destruct Hm; discriminate]. }
  assert (SK : forall b0, length items = cap -> (m = EvictMin -> forall y, In y items -> (iweight x <= iweight y)%Q) -> b0 = b ->
     exists items', binv cap tag I J D t b0 items' /\ hinv_of m (b_heap b0) items' /\ holds_of m cap items' (L ++ [x]) /\ b_count b0 = b_count b /\ b_weight b0 = b_weight b).
  { intros b0 Ec HE ->. exists items. split; [exact B|]. split; [exact HI|]. split; [now apply holds_skip|]. now split. }
  unfold place. rewrite F. destruct (Nat.eqb_spec (length items) cap) as [Ec|Nc]; cbn [negb].
  - destruct m.
    + intros [= <- <-]. apply SK; auto; discriminate.
    + destruct (b_count b =? 0); [discriminate|]. destruct (Qle_bool _ _); [|intros [= <- <-]; apply SK; auto; discriminate].
      destruct (randrange rint (k + 1) (b_capacity b)) as [i|]; [|discriminate]. cbn [bind]. destruct (replace_braid b i _ _ _) as [b1|] eqn:E1; [|discriminate]. cbn [bind]. intros [= <- <-]. eapply (RP i); eauto.
    + destruct (Qeq_bool _ _); [discriminate|]. destruct (Qle_bool _ _); [|intros [= <- <-]; apply SK; auto; discriminate].
      destruct (randrange rint (k + 1) (b_capacity b)) as [i|]; [|discriminate]. cbn [bind]. destruct (replace_braid b i _ _ _) as [b1|] eqn:E1; [|discriminate]. cbn [bind]. intros [= <- <-]. eapply (RP i); eauto.
    + specialize (HI eq_refl). destruct (heap_top (b_heap b)) as [[w i]|] eqn:T; [|discriminate]. cbn [bind]. destruct (hinv_top _ _ _ _ HI T) as [y [Hy [Ey Mn]]].
      destruct (Qle_bool (iweight x) w) eqn:Q; cbn [negb].
      * intros [= <- <-]. apply Qle_bool_iff in Q. apply SK; auto. intros _ z Hz. apply Qle_trans with w; auto.
      * assert (Lt : (w < iweight x)%Q). { apply Qnot_le_lt. intros C. apply Qle_bool_iff in C. congruence. }
        unfold heap_top, get in T. destruct (b_heap b) as [|a h]; [discriminate|]. cbn in T. injection T as ->. cbn [heappop bind].
        assert (Hi : i < length items) by (apply nth_error_Some; congruence).
        pose proof (binv_heap _ _ _ _ _ _ _ _ (heappush h (iweight x, i)) B) as B'.
        destruct (replace_inv _ _ _ _ _ _ _ _ x i B' X Hi) as [b2 [E2 [B2 [C2 [W2 H2]]]]]. rewrite E2. cbn [bind]. intros [= <- <-]. exists (upd items i x). split; [exact B2|].
        split; [intros _; rewrite H2; cbn [with_heap b_heap]; now apply (hinv_replace _ _ _ _ y w)|]. split; [|now rewrite C2, W2].
        apply holds_replace; auto; [discriminate|]. intros _ y' z Hy' Hz. rewrite Hy in Hy'. injection Hy' as <-. rewrite Ey. split; [now apply Mn|now apply Qlt_le_weak].
  - assert (Lt : length items < cap) by lia. destruct (append_inv _ _ _ _ _ _ _ _ x B X Lt) as [b2 [E2 [B2 [C2 [W2 H2]]]]]. destruct m; rewrite E2; cbn [bind]; intros [= <- <-]; exists (items ++ [x]).
    1-3: split; [exact B2|]; split; [intros E; discriminate|]; split; [now apply holds_append|]; now split.
    split; [now apply binv_heap|]. split; [intros _; cbn [with_heap b_heap]; rewrite H2; apply hinv_push; now apply HI|]. split; [now apply holds_append|]. cbn. now split.
Qed.
(** no call fails when the capacity is positive (and, for AChao, the total weight is not zero) *)
Lemma place_total m k cap tag I J D t b items x :
  binv cap tag I J D t b items -> hinv_of m (b_heap b) items -> iok I J D t x -> 1 <= cap -> b_count b <> 0 -> (m = AChao -> ~ (b_weight b == 0)%Q) ->
  exists b' k', place rnd rint m k b (ibraid x) (iimage x) (iweight x) = Ok (b', k').
Proof.
  intros B HI X Hc Hn Hw. assert (F : b_is_full b = (length items =? cap)) by (unfold b_is_full; now rewrite (bi_braids _ _ _ _ _ _ _ _ B), map_length, (bi_cap _ _ _ _ _ _ _ _ B)).
  unfold place. rewrite F. pose proof (bi_len _ _ _ _ _ _ _ _ B) as Ln. destruct (Nat.eqb_spec (length items) cap) as [Ec|Nc]; cbn [negb].
  - assert (RR : exists i, randrange rint (k + 1) (b_capacity b) = Ok i /\ i < length items).
    { unfold randrange. rewrite (bi_cap _ _ _ _ _ _ _ _ B). rewrite (proj2 (Nat.eqb_neq _ _)) by lia. eexists. split; [reflexivity|]. rewrite Ec. apply Nat.mod_upper_bound. lia. }
    destruct RR as [i [RR Hi]]. destruct (replace_inv _ _ _ _ _ _ _ _ x i B X Hi) as [b2 [E2 _]]. destruct m.
    + eauto.
    + rewrite (proj2 (Nat.eqb_neq _ _) Hn). destruct (Qle_bool _ _); [|eauto]. rewrite RR. cbn [bind]. rewrite E2. cbn [bind]. eauto.
    + destruct (Qeq_bool (b_weight b) 0) eqn:Q; [apply Qeq_bool_iff in Q; now elim Hw|]. destruct (Qle_bool _ _); [|eauto]. rewrite RR. cbn [bind]. rewrite E2. cbn [bind]. eauto.
    + specialize (HI eq_refl). assert (exists w i, heap_top (b_heap b) = Ok (w, i)) as [w [j T]].
      { destruct HI as [_ P]. destruct (b_heap b) as [|[w j] h]; [|unfold heap_top; cbn; eauto]. apply Permutation_length in P. unfold heap_of in P. rewrite map_length, seq_length in P. cbn in P. lia. }
      rewrite T. cbn [bind]. destruct (hinv_top _ _ _ _ HI T) as [y [Hy _]]. destruct (negb _); [|eauto]. destruct (b_heap b) as [|a h]; [discriminate|]. cbn [heappop bind].
      assert (Hj : j < length items) by (apply nth_error_Some; congruence). pose proof (binv_heap _ _ _ _ _ _ _ _ (heappush h (iweight x, j)) B) as B'.
      destruct (replace_inv _ _ _ _ _ _ _ _ x j B' X Hj) as [b3 [E3 _]]. rewrite E3. cbn [bind]. eauto.
  - assert (Lt : length items < cap) by lia. destruct (append_inv _ _ _ _ _ _ _ _ x B X Lt) as [b3 [E3 _]]. destruct m; rewrite E3; cbn [bind]; eauto.
Qed.
End Offer.
