(** PolymatTheory.v – lemmas about arrays, wraparound and the polymat functions. *)
From Verif Require Import Base ModelPoly SpecPoly ModelMatrix ModelPolymat SpecPolymat.
From Coq Require Import Zdiv.
Local Open Scope nat_scope.

(** ** lists of blocks of equal length *)
Lemma nth_concat_eq {A} (bs : list (list A)) m k q d : Forall (fun b => length b = m) bs -> q < m -> nth (k * m + q) (concat bs) d = nth q (nth k bs []) d.
Proof.
  revert k. induction bs as [|b bs IH]; intros k F Hq.
  - cbn. destruct k, q; cbn; try reflexivity; now destruct (_ + _).
  - inversion F; subst. cbn [concat]. destruct k as [|k].
    + cbn [Nat.mul Nat.add]. now rewrite app_nth1.
    + rewrite app_nth2 by (cbn [Nat.mul]; lia). cbn [nth]. rewrite <- IH by auto. f_equal. cbn [Nat.mul]. lia.
Qed.
Lemma length_concat_eq {A} (bs : list (list A)) m : Forall (fun b => length b = m) bs -> length (concat bs) = length bs * m.
Proof. induction 1; cbn [concat length]; [reflexivity|]. rewrite app_length, IHForall. cbn. lia. Qed.
Lemma flat_map_concat_map' {A B} (f : A -> list B) l : flat_map f l = concat (map f l).
Proof. apply flat_map_concat_map. Qed.
Lemma nth_flat_seq {A} (f : nat -> list A) m n k q d : (forall i, i < n -> length (f i) = m) -> k < n -> q < m -> nth (k * m + q) (flat_map f (seq 0 n)) d = nth q (f k) d.
Proof.
  intros F Hk Hq. rewrite flat_map_concat_map, nth_concat_eq; auto.
  - f_equal. rewrite (nth_indep _ [] (f 0)) by now rewrite map_length, seq_length. rewrite map_nth, seq_nth by auto. reflexivity.
  - apply Forall_map, Forall_forall. intros i Hi%in_seq. apply F. lia.
Qed.
Lemma length_flat_seq {A} (f : nat -> list A) m n : (forall i, i < n -> length (f i) = m) -> length (flat_map f (seq 0 n)) = n * m.
Proof.
  intros F. rewrite flat_map_concat_map, (length_concat_eq _ m), map_length, seq_length; [reflexivity|].
  apply Forall_map, Forall_forall. intros i Hi%in_seq. apply F. lia.
Qed.

(** ** blocks *)
Lemma btab_row J D (f : nat -> nat -> nat -> Z) : forall i, length (flat_map (fun j => map (fun d => f i j d) (seq 0 D)) (seq 0 J)) = J * D.
Proof. intros i. rewrite (length_flat_seq _ D); [reflexivity|]. intros j _. now rewrite map_length, seq_length. Qed.
Lemma btab_length I J D f : length (btab I J D f) = I * J * D.
Proof. unfold btab. rewrite (length_flat_seq _ (J * D)); [lia|]. intros i _. now apply btab_row. Qed.
Lemma bget_btab I J D f i j d : i < I -> j < J -> d < D -> bget J D (btab I J D f) i j d = f i j d.
Proof.
  intros Hi Hj Hd. unfold bget, btab. replace ((i * J + j) * D + d) with (i * (J * D) + (j * D + d)) by lia.
  rewrite nth_flat_seq; [|intros; now apply btab_row|lia|]. 2:{ assert (S j * D <= J * D) by (apply Nat.mul_le_mono_r; lia). cbn in H. lia. }
  rewrite nth_flat_seq; [|intros; now rewrite map_length, seq_length|lia|lia].
  rewrite (nth_indep _ _ (f i j 0)) by now rewrite map_length, seq_length. rewrite map_nth, seq_nth by auto. reflexivity.
Qed.
Lemma bpos_lt I J D i j d : i < I -> j < J -> d < D -> (i * J + j) * D + d < I * J * D.
Proof.
  intros Hi Hj Hd. assert (i * J + j + 1 <= I * J) by (assert (S i * J <= I * J) by (apply Nat.mul_le_mono_r; lia); cbn in H; lia).
  assert ((i * J + j + 1) * D <= I * J * D) by (apply Nat.mul_le_mono_r; lia). lia.
Qed.
(** every position of a block is a triple *)
Lemma bpos_split I J D q : q < I * J * D -> exists i j d, i < I /\ j < J /\ d < D /\ q = (i * J + j) * D + d.
Proof.
  intros H. assert (D <> 0) by (intros ->; lia). assert (J <> 0) by (intros ->; lia).
  exists (q / D / J), ((q / D) mod J), (q mod D).
  assert (q / D < I * J) by (apply Nat.div_lt_upper_bound; lia).
  split; [apply Nat.div_lt_upper_bound; lia|]. split; [apply Nat.mod_upper_bound; lia|]. split; [apply Nat.mod_upper_bound; lia|].
  pose proof (Nat.div_mod q D ltac:(lia)). pose proof (Nat.div_mod (q / D) J ltac:(lia)). rewrite (Nat.mul_comm _ J), <- H4, Nat.mul_comm. lia.
Qed.
Lemma btab_ext I J D f g : (forall i j d, i < I -> j < J -> d < D -> f i j d = g i j d) -> btab I J D f = btab I J D g.
Proof.
  intros H. apply (nth_ext _ _ 0%Z 0%Z); [now rewrite !btab_length|]. rewrite btab_length. intros q Hq.
  destruct (bpos_split _ _ _ _ Hq) as [i [j [d [Hi [Hj [Hd ->]]]]]]. change (bget J D (btab I J D f) i j d = bget J D (btab I J D g) i j d). rewrite !bget_btab; auto.
Qed.
Lemma block_ext I J D b c : length b = I * J * D -> length c = I * J * D -> (forall i j d, i < I -> j < J -> d < D -> bget J D b i j d = bget J D c i j d) -> b = c.
Proof.
  intros Hb Hc H. apply (nth_ext _ _ 0%Z 0%Z); [congruence|]. rewrite Hb. intros q Hq.
  destruct (bpos_split _ _ _ _ Hq) as [i [j [d [Hi [Hj [Hd ->]]]]]]. now apply H.
Qed.
Lemma btab_bget I J D b : length b = I * J * D -> btab I J D (bget J D b) = b.
Proof. intros H. apply (block_ext I J D); [apply btab_length|exact H|]. intros. now apply bget_btab. Qed.
Lemma Forall_btab (P : Z -> Prop) I J D f : (forall i j d, i < I -> j < J -> d < D -> P (f i j d)) -> Forall P (btab I J D f).
Proof.
  intros H. apply Forall_forall. intros x Hx. apply (In_nth _ _ 0%Z) in Hx. destruct Hx as [q [Hq <-]]. rewrite btab_length in Hq.
  destruct (bpos_split _ _ _ _ Hq) as [i [j [d [Hi [Hj [Hd ->]]]]]]. change (P (bget J D (btab I J D f) i j d)). rewrite bget_btab; auto.
Qed.
Lemma Forall_bget (P : Z -> Prop) I J D b i j d : length b = I * J * D -> Forall P b -> i < I -> j < J -> d < D -> P (bget J D b i j d).
Proof. intros L F Hi Hj Hd. rewrite Forall_forall in F. apply F. unfold bget. apply nth_In. rewrite L. now apply bpos_lt. Qed.

(** ** prefixes *)
Lemma size_cons s ss : size (s :: ss) = s * size ss. Proof. reflexivity. Qed.
Lemma indices_length s : length (indices s) = size s.
Proof. induction s as [|k s IH]; [reflexivity|]. cbn [indices]. rewrite (length_flat_seq _ (size s)); [reflexivity|]. intros. now rewrite map_length. Qed.
Lemma ravel_lt s idx : valid_index s idx -> ravel s idx < size s.
Proof.
  unfold valid_index. revert idx. induction s as [|k s IH]; intros idx H; inversion H; subst; cbn [ravel]; [cbn; lia|]. rewrite size_cons.
  specialize (IH _ H4). match goal with H : ?x < k |- _ => assert (S x * size s <= k * size s) by (apply Nat.mul_le_mono_r; lia) end. cbn in H0. lia.
Qed.
Lemma nth_indices s idx : valid_index s idx -> nth (ravel s idx) (indices s) [] = idx.
Proof.
  revert idx. induction s as [|k s IH]; intros idx H; inversion H; subst; [reflexivity|]. cbn [ravel indices].
  rewrite nth_flat_seq; [|intros; now rewrite map_length, indices_length|assumption|now apply ravel_lt].
  rewrite (nth_indep _ [] (cons x [])) by (rewrite map_length, indices_length; now apply ravel_lt). rewrite map_nth. now rewrite IH.
Qed.
Lemma nth_map_indices {B} (f : list nat -> B) s idx d : valid_index s idx -> nth (ravel s idx) (map f (indices s)) d = f idx.
Proof.
  intros H. rewrite (nth_indep _ d (f [])) by (rewrite map_length, indices_length; now apply ravel_lt). rewrite map_nth. now rewrite nth_indices.
Qed.
Lemma in_indices s idx : In idx (indices s) <-> valid_index s idx.
Proof.
  unfold valid_index. revert idx. induction s as [|k s IH]; intros idx; cbn [indices].
  - split; [intros [<-|[]]; constructor|]. intros H; inversion H. now left.
  - rewrite in_flat_map. split.
    + intros [i [Hi%in_seq Hin]]. apply in_map_iff in Hin. destruct Hin as [t [<- Ht]]. constructor; [lia|]. now apply IH.
    + intros H; inversion H; subst. exists x. split; [apply in_seq; lia|]. apply in_map. now apply IH.
Qed.
Lemma size_nitems s : size s = nitems s. Proof. reflexivity. Qed.

Lemma cpos_snoc s i a b : length s = length i -> cpos (s ++ [a]) (i ++ [b]) = cpos s i * a + b.
Proof.
  intros H. unfold cpos.
  assert (E : combine (s ++ [a]) (i ++ [b]) = combine s i ++ [(a, b)]).
  { revert i H. induction s as [|x s IH]; intros [|y i] H; try discriminate; [reflexivity|]. cbn [combine app]. rewrite IH by (cbn in H; lia). reflexivity. }
  rewrite E, fold_left_app. reflexivity.
Qed.
Lemma fold_cpos l acc : fold_left (fun acc p => acc * fst p + snd p) l acc = acc * size (map fst l) + fold_left (fun acc (p : nat * nat) => acc * fst p + snd p) l 0.
Proof.
  revert acc. induction l as [|[s i] l IH]; intros acc; cbn [fold_left map fst snd]; [cbn; lia|]. rewrite (IH (acc * s + i)), (IH (0 * s + i)). rewrite size_cons. lia.
Qed.
Lemma cpos_ravel s idx : length s = length idx -> cpos s idx = ravel s idx.
Proof.
  revert idx. induction s as [|k s IH]; intros [|i idx] H; try discriminate; [reflexivity|]. cbn [ravel]. cbn in H. rewrite <- IH by lia. unfold cpos. cbn [combine fold_left fst snd]. rewrite fold_cpos.
  replace (map fst (combine s idx)) with s; [lia|]. assert (L : length s = length idx) by lia. clear -L. revert idx L. induction s as [|x s IH]; intros [|y i] L; try discriminate; [reflexivity|]. cbn [combine map fst]. f_equal. apply IH. cbn in L. lia.
Qed.
Lemma valid_length s idx : valid_index s idx -> length s = length idx.
Proof. unfold valid_index. induction 1; cbn; congruence. Qed.

(** the meaning of an array in terms of its blocks *)
Lemma wfa_block A idx : wfa A -> valid_index (apre A) idx -> length (block A idx) = aI A * aJ A * aD A /\ Forall (in_dtype (adt A)) (block A idx).
Proof.
  intros [L [F R]] V. unfold block. assert (H : ravel (apre A) idx < length (ablocks A)) by (rewrite L; now apply ravel_lt).
  pose proof (nth_In (ablocks A) [] H) as Hin. rewrite Forall_forall in F, R. split; [rewrite (F _ Hin); cbn; lia|]. now apply R.
Qed.
Lemma coef_block A idx i j d : wfa A -> valid_index (apre A) idx -> i < aI A -> j < aJ A ->
  acoef A idx i j d = if d <? aD A then bget (aJ A) (aD A) (block A idx) i j d else 0%Z.
Proof.
  intros [L [F R]] V Hi Hj. unfold acoef. destruct (Nat.ltb_spec d (aD A)) as [Hd|]; [|reflexivity].
  change (idx ++ [i; j; d]) with (idx ++ [i] ++ [j] ++ [d]). change (apre A ++ [aI A; aJ A; aD A]) with (apre A ++ [aI A] ++ [aJ A] ++ [aD A]).
  rewrite !app_assoc. pose proof (valid_length _ _ V) as E. rewrite !cpos_snoc by (rewrite ?app_length; cbn; lia). rewrite cpos_ravel by exact E.
  unfold bget, block. replace (((ravel (apre A) idx * aI A + i) * aJ A + j) * aD A + d) with (ravel (apre A) idx * (aI A * aJ A * aD A) + ((i * aJ A + j) * aD A + d)) by lia.
  apply nth_concat_eq; [|now apply bpos_lt]. eapply Forall_impl; [|exact F]. intros b ->. cbn. lia.
Qed.

(** ** wraparound *)
Local Open Scope Z_scope.
Lemma dbits_pos t : 0 < 2 ^ dbits t. Proof. destruct t; reflexivity. Qed.
Lemma wrap_range t x : in_dtype t (wrap t x).
Proof.
  unfold in_dtype, wrap. pose proof (Z.mod_pos_bound (x + 2 ^ (dbits t - 1)) (2 ^ dbits t) (dbits_pos t)).
  destruct t; cbn [dbits] in *; change (2 ^ (32 - 1)) with 2147483648 in *; change (2 ^ 32) with 4294967296 in *; change (2 ^ (64 - 1)) with 9223372036854775808 in *; change (2 ^ 64) with 18446744073709551616 in *; lia.
Qed.
Lemma wrap_id t x : in_dtype t x -> wrap t x = x.
Proof.
  unfold in_dtype, wrap. intros H. rewrite Z.mod_small; [lia|].
  destruct t; cbn [dbits] in *; change (2 ^ (32 - 1)) with 2147483648 in *; change (2 ^ 32) with 4294967296 in *; change (2 ^ (64 - 1)) with 9223372036854775808 in *; change (2 ^ 64) with 18446744073709551616 in *; lia.
Qed.
Lemma wrap_congr t x y : (2 ^ dbits t | x - y) -> wrap t x = wrap t y.
Proof.
  intros [k H]. unfold wrap. f_equal. replace x with (y + k * 2 ^ dbits t) by lia. rewrite <- Z.add_assoc, (Z.add_comm (k * _)), Z.add_assoc.
  apply Z.mod_add. pose proof (dbits_pos t). lia.
Qed.
Lemma wrap_diff t x : (2 ^ dbits t | wrap t x - x).
Proof.
  unfold wrap. pose proof (dbits_pos t). rewrite Z.mod_eq by lia. eexists (- ((x + 2 ^ (dbits t - 1)) / 2 ^ dbits t)). lia.
Qed.
Lemma wrap_eq_iff t x y : wrap t x = wrap t y <-> (2 ^ dbits t | x - y).
Proof.
  split; [|apply wrap_congr]. intros H. pose proof (wrap_diff t x) as [a Ha]. pose proof (wrap_diff t y) as [b Hb]. exists (b - a). lia.
Qed.
Lemma wrap_add_l t x y : wrap t (wrap t x + y) = wrap t (x + y).
Proof. apply wrap_congr. replace (wrap t x + y - (x + y)) with (wrap t x - x) by lia. apply wrap_diff. Qed.
Lemma wrap_add_r t x y : wrap t (x + wrap t y) = wrap t (x + y).
Proof. rewrite Z.add_comm, wrap_add_l. f_equal. lia. Qed.
Lemma wrap_wrap t x : wrap t (wrap t x) = wrap t x. Proof. apply wrap_id, wrap_range. Qed.
Definition dle (t u : dtype) : Prop := exists k, 2 ^ dbits u = k * 2 ^ dbits t.
Lemma dle_refl t : dle t t. Proof. exists 1. lia. Qed.
Lemma dle_promote a b : dle a (promote a b).
Proof. destruct a, b; try apply dle_refl. exists (2 ^ 32). reflexivity. Qed.
Lemma wrap_wrap_le t u x : dle t u -> wrap t (wrap u x) = wrap t x.
Proof. intros [k H]. apply wrap_congr. destruct (wrap_diff u x) as [q Hq]. exists (q * k). rewrite Hq, H. lia. Qed.

(** ** sums *)
Lemma zsum_ext n f g : (forall i, (i < n)%nat -> f i = g i) -> zsum n f = zsum n g.
Proof. induction n as [|n IH]; intros H; cbn [zsum]; [reflexivity|]. rewrite IH, H by (intros; auto with arith). reflexivity. Qed.
Lemma zsum_0 n f : (forall i, (i < n)%nat -> f i = 0) -> zsum n f = 0.
Proof. induction n as [|n IH]; intros H; cbn [zsum]; [reflexivity|]. rewrite IH, H by auto with arith. reflexivity. Qed.
Lemma fold_wadd_wrap {A} t (f g : A -> Z) l : (forall x, In x l -> wrap t (f x) = wrap t (g x)) -> forall s, wrap t (fold_left (fun s j => wadd t s (f j)) l s) = wrap t (s + fold_right Z.add 0 (map g l)).
Proof.
  induction l as [|x l IH]; intros H s; cbn [fold_left map fold_right]; [f_equal; lia|]. rewrite IH by (intros; apply H; now right). unfold wadd.
  rewrite wrap_add_l. replace (s + f x + fold_right Z.add 0 (map g l)) with (f x + (s + fold_right Z.add 0 (map g l))) by lia. rewrite <- wrap_add_l, H by now left. rewrite wrap_add_l. f_equal. lia.
Qed.
Lemma fold_right_seq f n : fold_right Z.add 0 (map f (seq 0 n)) = zsum n f.
Proof.
  induction n as [|n IH]; [reflexivity|]. rewrite seq_S, map_app, fold_right_app. cbn [map fold_right Nat.add zsum]. rewrite <- IH.
  generalize (map f (seq 0 n)). intros l. induction l as [|x l IHl]; cbn [fold_right]; lia.
Qed.
Lemma fold_right_filter {A} (f : A -> Z) p l : fold_right Z.add 0 (map f (filter p l)) = fold_right Z.add 0 (map (fun x => if p x then f x else 0) l).
Proof. induction l as [|x l IH]; cbn [filter map fold_right]; [reflexivity|]. destruct (p x); cbn [map fold_right]; lia. Qed.
Lemma zsum_add n f g : zsum n (fun i => f i + g i) = zsum n f + zsum n g.
Proof. induction n as [|n IH]; cbn [zsum]; lia. Qed.
Lemma zsum_swap n m f : zsum n (fun i => zsum m (f i)) = zsum m (fun j => zsum n (fun i => f i j)).
Proof. induction n as [|n IH]; cbn [zsum]; [symmetry; now apply zsum_0|]. rewrite IH, <- zsum_add. reflexivity. Qed.

(** ** the convolution *)
Lemma matmul_entry_wrap t J D K E x y i k a b : wrap t (matmul_entry t J D K E x y i k a b) = wrap t (zsum J (fun j => bget J D x i j a * bget K E y j k b)).
Proof. unfold matmul_entry. rewrite (fold_wadd_wrap t _ (fun j => bget J D x i j a * bget K E y j k b)); [|intros; apply wrap_wrap]. now rewrite fold_right_seq. Qed.
Lemma mul_entry_wrap t J D K E x y i k d :
  wrap t (mul_entry t J D K E x y i k d) =
  wrap t (zsum J (fun j => zsum (S d) (fun e => (if (e <? D)%nat then bget J D x i j e else 0) * (if (d - e <? E)%nat then bget K E y j k (d - e) else 0)))).
Proof.
  unfold mul_entry. rewrite (fold_wadd_wrap t _ (fun a => zsum J (fun j => bget J D x i j a * bget K E y j k (d - a)))); [|intros; apply matmul_entry_wrap].
  rewrite fold_right_filter, fold_right_seq, zsum_swap. f_equal. replace (d + 1)%nat with (S d) by lia. apply (zsum_ext (S d)).
  intros e He. destruct (e <? D)%nat, (d - e <? E)%nat; cbn [andb]; [reflexivity| | |]; symmetry; apply zsum_0; intros; lia.
Qed.
Local Close Scope Z_scope.

(** ** broadcasting *)
Definition compat (x y : nat) : Prop := x = y \/ x = 1 \/ y = 1.
Lemma broadcast_spec a b : length a = length b ->
  match broadcast a b with
  | Ok c => (forall k, compat (nth k a 1) (nth k b 1)) /\ length c = length a /\ (forall k, nth k c 1 = if nth k a 1 =? 1 then nth k b 1 else nth k a 1)
  | Err e => e = ValueError /\ exists k, ~ compat (nth k a 1) (nth k b 1)
  end.
Proof.
  unfold compat. revert b. induction a as [|x a IH]; intros [|y b] L; try discriminate; cbn [broadcast].
  - split; [now left; destruct k|]. split; [reflexivity|]. intros [|k]; reflexivity.
  - cbn in L. specialize (IH b ltac:(lia)). destruct (broadcast a b) as [c|e]; cbn [bind].
    + destruct IH as [C [LC N]]. destruct (Nat.eqb_spec x y) as [E|E]; [|destruct (Nat.eqb_spec x 1) as [E1|E1]; [|destruct (Nat.eqb_spec y 1) as [E2|E2]]].
      * split; [intros [|k]; cbn [nth]; auto|]. split; [cbn; lia|]. intros [|k]; cbn [nth]; [|apply N]. destruct (x =? 1); auto.
      * split; [intros [|k]; cbn [nth]; auto|]. split; [cbn; lia|]. intros [|k]; cbn [nth]; [|apply N]. subst x. reflexivity.
      * split; [intros [|k]; cbn [nth]; auto|]. split; [cbn; lia|]. intros [|k]; cbn [nth]; [|apply N]. destruct (Nat.eqb_spec x 1); congruence.
      * split; [reflexivity|]. exists 0. cbn [nth]. tauto.
    + destruct IH as [-> [k Hk]]. split; [reflexivity|]. exists (S k). exact Hk.
Qed.
Lemma axis_lpad n a k : axis (lpad n a) k = axis a k.
Proof.
  unfold axis, lpad. rewrite rev_app_distr. assert (R : rev (repeat 1 (n - length a)) = repeat 1 (n - length a)) by (rewrite <- (rev_involutive (repeat 1 _)) at 1; rewrite rev_involutive; clear; induction (n - length a) as [|m IH]; [reflexivity|]; cbn [repeat rev]; rewrite IH; clear; induction m; cbn; congruence).
  rewrite R. destruct (Nat.lt_ge_cases k (length (rev a))) as [H|H]; [now rewrite app_nth1|]. rewrite app_nth2 by auto. rewrite (nth_overflow (rev a)) by auto. apply nth_repeat.
Qed.
Lemma lpad_length n a : length (lpad n a) = Nat.max n (length a).
Proof. unfold lpad. rewrite app_length, repeat_length. lia. Qed.
Lemma axis_nth a k : k < length a -> nth k a 1 = axis a (length a - S k).
Proof. intros H. unfold axis. rewrite rev_nth by lia. f_equal. lia. Qed.
Lemma axis_nth' a k : k < length a -> axis a k = nth (length a - S k) a 1.
Proof. intros H. unfold axis. now rewrite rev_nth by lia. Qed.
Lemma axis_over a k : length a <= k -> axis a k = 1.
Proof. intros H. unfold axis. apply nth_overflow. now rewrite rev_length. Qed.
Lemma broadcast_shapes_spec a b :
  match broadcast_shapes a b with Ok c => broadcasts a b c | Err e => e = ValueError /\ ~ compatible a b end.
Proof.
  unfold broadcast_shapes. set (a' := lpad (length b) a). set (b' := lpad (length a) b).
  assert (La : length a' = Nat.max (length a) (length b)) by (unfold a'; rewrite lpad_length; lia).
  assert (Lb : length b' = Nat.max (length a) (length b)) by (unfold b'; rewrite lpad_length; lia).
  pose proof (broadcast_spec a' b' ltac:(congruence)) as S. destruct (broadcast a' b') as [c|e].
  - destruct S as [C [LC N]]. unfold broadcasts, compatible. split; [|split; [congruence|]].
    + intros k. rewrite <- (axis_lpad (length b) a), <- (axis_lpad (length a) b). fold a' b'. destruct (Nat.lt_ge_cases k (length a')) as [H|H].
      * rewrite !axis_nth' by congruence. rewrite <- La in Lb. rewrite Lb. apply C.
      * rewrite !axis_over by congruence. now left.
    + intros k. rewrite <- (axis_lpad (length b) a), <- (axis_lpad (length a) b). fold a' b'. destruct (Nat.lt_ge_cases k (length a')) as [H|H].
      * rewrite !axis_nth' by congruence. rewrite LC, Lb, La. rewrite N. reflexivity.
      * rewrite !axis_over by congruence. reflexivity.
  - destruct S as [-> [k Hk]]. split; [reflexivity|]. intros C. apply Hk. destruct (Nat.lt_ge_cases k (length a')) as [H|H].
    + rewrite !axis_nth by congruence. rewrite Lb, <- La. specialize (C (length a' - S k)). rewrite <- (axis_lpad (length b) a), <- (axis_lpad (length a) b) in C. exact C.
    + rewrite !nth_overflow by congruence. now left.
Qed.
Lemma combine_app_same {A B} (a a' : list A) (b b' : list B) : length a = length b -> combine (a ++ a') (b ++ b') = combine a b ++ combine a' b'.
Proof. revert b. induction a as [|x a IH]; intros [|y b] L; try discriminate; [reflexivity|]. cbn [combine app]. rewrite IH by (cbn in L; lia). reflexivity. Qed.
Lemma operand_axes_app a r t : length a = length r -> operand_axes a (r ++ t) = map (fun '(s, i) => if s =? 1 then 0 else i) (combine a r).
Proof. revert r. induction a as [|x a IH]; intros [|y r] L; try discriminate; [destruct t; reflexivity|]. cbn [operand_axes app combine map]. rewrite IH by (cbn in L; lia). reflexivity. Qed.
Lemma combine_rev {A B} (a : list A) (b : list B) : length a = length b -> combine (rev a) (rev b) = rev (combine a b).
Proof. revert b. induction a as [|x a IH]; intros [|y b] L; try discriminate; [reflexivity|]. cbn [rev combine]. cbn in L. rewrite combine_app_same by (rewrite !rev_length; lia). rewrite IH by lia. reflexivity. Qed.
Lemma bidx_operand a idx : length a <= length idx -> bidx a idx = operand_index a idx.
Proof.
  intros L. unfold bidx, operand_index. rewrite <- (firstn_skipn (length idx - length a) idx) at 3. rewrite rev_app_distr.
  assert (E : length (skipn (length idx - length a) idx) = length a) by (rewrite skipn_length; lia).
  rewrite operand_axes_app by (rewrite !rev_length; lia). rewrite combine_rev by lia. now rewrite map_rev, rev_involutive.
Qed.
Lemma valid_nth s idx : valid_index s idx <-> length idx = length s /\ forall k, k < length s -> nth k idx 0 < nth k s 0.
Proof.
  unfold valid_index. split.
  - induction 1 as [|x y a b H F [L N]]; cbn; [split; [reflexivity|lia]|]. split; [lia|]. intros [|k] Hk; [exact H|]. apply N. lia.
  - revert s. induction idx as [|i idx IH]; intros [|s ss] [L N]; try discriminate; constructor.
    + apply (N 0). cbn; lia.
    + apply IH. split; [cbn in L; lia|]. intros k Hk. apply (N (S k)). cbn; lia.
Qed.
Lemma nth_skipn' {A} n (l : list A) k d : nth k (skipn n l) d = nth (n + k) l d.
Proof. revert l. induction n as [|n IH]; intros l; [reflexivity|]. destruct l; [now destruct k|]. cbn. apply IH. Qed.
Lemma bidx_valid a c idx : (length a <= length c) -> (forall k, axis a k = 1 \/ axis c k = axis a k) -> valid_index c idx -> valid_index a (bidx a idx).
Proof.
  intros L N V. apply valid_nth in V. destruct V as [Li Vi]. apply valid_nth. unfold bidx.
  assert (E : length (combine a (skipn (length idx - length a) idx)) = length a) by (rewrite combine_length, skipn_length; lia).
  split; [rewrite map_length; exact E|]. intros k Hk. set (g := fun '(s, i) => if s =? 1 then 0 else i). rewrite (nth_indep _ 0 (g (0, 0))) by now rewrite map_length, E.
  rewrite (map_nth g). subst g. rewrite combine_nth by (rewrite skipn_length; lia). rewrite nth_skipn'.
  specialize (N (length a - S k)). rewrite <- axis_nth in N by exact Hk. rewrite axis_nth' in N by lia. rewrite (nth_indep a 0 1) by exact Hk.
  destruct (Nat.eqb_spec (nth k a 1) 1) as [E1|E1]; [lia|]. destruct N as [N|N]; [congruence|]. rewrite <- N.
  replace (length c - S (length a - S k)) with (length idx - length a + k) by lia. rewrite (nth_indep c 1 0) by lia. apply Vi. lia.
Qed.
Lemma broadcasts_sym a b c : broadcasts a b c -> broadcasts b a c.
Proof.
  intros [C [L N]]. split; [intros k; destruct (C k) as [|[]]; auto|]. split; [lia|]. intros k. rewrite N. destruct (C k) as [E|[E|E]].
  - rewrite E. destruct (Nat.eqb_spec (axis b k) 1); congruence.
  - rewrite E. cbn. destruct (Nat.eqb_spec (axis b k) 1); congruence.
  - rewrite E. cbn [Nat.eqb]. destruct (Nat.eqb_spec (axis a k) 1); congruence.
Qed.
Lemma broadcasts_valid a b c idx : broadcasts a b c -> valid_index c idx -> valid_index a (bidx a idx) /\ bidx a idx = operand_index a idx.
Proof.
  intros [C [L N]] V. split.
  - eapply bidx_valid; [|intros k|exact V]; [lia|]. destruct (Nat.eqb_spec (axis a k) 1) as [E|E]; [now left|right]. rewrite N. destruct (Nat.eqb_spec (axis a k) 1); congruence.
  - apply bidx_operand. apply valid_length in V. lia.
Qed.

(** ** arrays given by tabulation *)
Definition ptab (pre : list nat) (I J D : nat) (t : dtype) (f : list nat -> nat -> nat -> nat -> Z) : parr :=
  mkA pre I J D t (map (fun idx => btab I J D (f idx)) (indices pre)).
Lemma ptab_wf pre I J D t f : (forall idx i j d, valid_index pre idx -> i < I -> j < J -> d < D -> in_dtype t (f idx i j d)) -> wfa (ptab pre I J D t f).
Proof.
  intros H. unfold wfa, ptab. cbn [apre aI aJ aD adt ablocks]. split; [now rewrite map_length, indices_length|]. split; apply Forall_map, Forall_forall; intros idx Hin%in_indices.
  - rewrite btab_length. cbn. lia.
  - apply Forall_btab. intros. now apply H.
Qed.
Lemma ptab_coef pre I J D t f idx i j d : (forall idx i j d, valid_index pre idx -> i < I -> j < J -> d < D -> in_dtype t (f idx i j d)) -> valid_index pre idx -> i < I -> j < J ->
  acoef (ptab pre I J D t f) idx i j d = if d <? D then f idx i j d else 0%Z.
Proof.
  intros H V Hi Hj. rewrite coef_block; [|now apply ptab_wf|exact V|exact Hi|exact Hj]. unfold ptab, block. cbn [apre aI aJ aD ablocks]. destruct (Nat.ltb_spec d D) as [Hd|]; [|reflexivity].
  rewrite (nth_map_indices (fun idx => btab I J D (f idx))) by exact V. now apply bget_btab.
Qed.
(** two well-formed arrays of the same shape and dtype with the same entries are equal *)
Lemma nth_blocks_ext {A} (l l' : list (list A)) s : length l = size s -> length l' = size s -> (forall idx, valid_index s idx -> nth (ravel s idx) l [] = nth (ravel s idx) l' []) -> l = l'.
Proof.
  intros L L' H. apply (nth_ext _ _ [] []); [congruence|]. rewrite L. intros k Hk. rewrite <- indices_length in Hk.
  pose proof (nth_In (indices s) [] Hk) as Hin. apply in_indices in Hin. set (idx := nth k (indices s) []) in *.
  assert (E : ravel s idx = k). { subst idx. clear H L L' Hin l l'. revert k Hk. induction s as [|m s IH]; intros k Hk.
    - cbn in Hk. replace k with 0 by lia. reflexivity.
    - rewrite indices_length in Hk. rewrite size_cons in Hk. assert (size s <> 0) by (intros E; rewrite E in Hk; lia).
      pose proof (Nat.div_mod k (size s) H) as DM. set (q := k / size s) in *. set (r := k mod size s) in *. assert (r < size s) by (apply Nat.mod_upper_bound; lia). assert (q < m) by (apply Nat.div_lt_upper_bound; lia).
      cbn [indices]. replace k with (q * size s + r) at 1 by lia. rewrite nth_flat_seq; [|intros; now rewrite map_length, indices_length|lia|lia].
      rewrite (nth_indep _ [] (cons q [])) by (rewrite map_length, indices_length; lia). rewrite map_nth. cbn [ravel]. rewrite IH by (rewrite indices_length; lia). lia. }
  rewrite <- E. apply H. exact Hin.
Qed.
Lemma arr_ext A B : wfa A -> wfa B -> apre A = apre B -> aI A = aI B -> aJ A = aJ B -> aD A = aD B -> adt A = adt B ->
  (forall idx i j d, valid_index (apre A) idx -> i < aI A -> j < aJ A -> d < aD A -> acoef A idx i j d = acoef B idx i j d) -> A = B.
Proof.
  intros WA WB E1 E2 E3 E4 E5 H. assert (EB : ablocks A = ablocks B).
  { apply (nth_blocks_ext _ _ (apre A)); [apply WA|rewrite E1; apply WB|]. intros idx V. change (nth (ravel (apre A) idx) (ablocks A) []) with (block A idx). rewrite E1. change (nth (ravel (apre B) idx) (ablocks B) []) with (block B idx).
    pose proof V as V'. rewrite E1 in V'. apply (block_ext (aI A) (aJ A) (aD A)); [apply wfa_block; auto|rewrite E2, E3, E4; apply wfa_block; auto|].
    intros i j d Hi Hj Hd. specialize (H idx i j d V Hi Hj Hd). rewrite !coef_block in H; try congruence; auto. rewrite <- E4 in H. apply Nat.ltb_lt in Hd. rewrite Hd in H. rewrite H. now rewrite E3. }
  destruct A, B. cbn in *. congruence.
Qed.
(** every array is a tabulation *)
Lemma map_blocks {B} A (f : list Z -> B) : wfa A -> map f (ablocks A) = map (fun idx => f (block A idx)) (indices (apre A)).
Proof.
  intros WA. assert (L : length (ablocks A) = size (apre A)) by apply WA.
  assert (E : ablocks A = map (block A) (indices (apre A))).
  { apply (nth_blocks_ext _ _ (apre A)); [exact L|now rewrite map_length, indices_length|]. intros idx V. rewrite nth_map_indices by exact V. reflexivity. }
  rewrite E at 1. now rewrite map_map.
Qed.

(** ** non-zero degrees *)
Lemma acoef_range A idx i j d : wfa A -> valid_index (apre A) idx -> i < aI A -> j < aJ A -> in_dtype (adt A) (acoef A idx i j d).
Proof.
  intros W V Hi Hj. rewrite coef_block by auto. destruct (Nat.ltb_spec d (aD A)); [|unfold in_dtype; destruct (adt A); cbn; lia].
  destruct (wfa_block A idx W V) as [L F]. now apply (Forall_bget _ (aI A) (aJ A) (aD A)).
Qed.
Lemma acoef_over A idx i j d : aD A <= d -> acoef A idx i j d = 0%Z.
Proof. intros H. unfold acoef. destruct (Nat.ltb_spec d (aD A)); [lia|reflexivity]. Qed.
Lemma bnz_true I J D b d : bnz I J D b d = true <-> exists i j, i < I /\ j < J /\ bget J D b i j d <> 0%Z.
Proof.
  unfold bnz. rewrite existsb_exists. split.
  - intros [i [Hi%in_seq H]]. apply existsb_exists in H. destruct H as [j [Hj%in_seq H]]. exists i, j. split; [lia|]. split; [lia|]. intros E. rewrite E in H. discriminate.
  - intros [i [j [Hi [Hj H]]]]. exists i. split; [apply in_seq; lia|]. apply existsb_exists. exists j. split; [apply in_seq; lia|]. apply negb_true_iff, Z.eqb_neq, H.
Qed.
Lemma bnz_false I J D b d : bnz I J D b d = false <-> forall i j, i < I -> j < J -> bget J D b i j d = 0%Z.
Proof.
  split.
  - intros H i j Hi Hj. destruct (Z.eq_dec (bget J D b i j d) 0) as [|N]; [assumption|]. assert (bnz I J D b d = true) by (apply bnz_true; eauto). congruence.
  - intros H. destruct (bnz I J D b d) eqn:E; [|reflexivity]. apply bnz_true in E. destruct E as [i [j [Hi [Hj N]]]]. rewrite H in N by auto. contradiction.
Qed.
Lemma bany_true I J D b : length b = I * J * D -> bany b = true <-> exists d, d < D /\ bnz I J D b d = true.
Proof.
  intros L. unfold bany. rewrite existsb_exists. split.
  - intros [x [Hx Nx]]. apply (In_nth _ _ 0%Z) in Hx. destruct Hx as [q [Hq E]]. rewrite L in Hq. destruct (bpos_split _ _ _ _ Hq) as [i [j [d [Hi [Hj [Hd ->]]]]]].
    exists d. split; [exact Hd|]. apply bnz_true. exists i, j. split; [exact Hi|]. split; [exact Hj|]. unfold bget. rewrite E. intros ->. discriminate.
  - intros [d [Hd H]]. apply bnz_true in H. destruct H as [i [j [Hi [Hj N]]]]. exists (bget J D b i j d). split; [apply nth_In; rewrite L; now apply bpos_lt|]. apply negb_true_iff, Z.eqb_neq, N.
Qed.
Fixpoint go (l : list bool) (i : nat) := match l with [] => 0 | b :: l' => if b then i else go l' (S i) end.
Lemma argmax_go l : argmax l = go l 0. Proof. reflexivity. Qed.
Lemma go_spec l : forall i, (exists k, k < length l /\ nth k l false = true /\ go l i = i + k /\ forall m, m < k -> nth m l false = false) \/ (go l i = 0 /\ forall m, nth m l false = false).
Proof.
  induction l as [|b l IH]; intros i; cbn [go].
  - right. split; [reflexivity|]. intros [|m]; reflexivity.
  - destruct b.
    + left. exists 0. cbn. split; [lia|]. split; [reflexivity|]. split; [lia|]. lia.
    + destruct (IH (S i)) as [[k [Hk [T [G N]]]]|[G N]].
      * left. exists (S k). cbn [length nth]. split; [lia|]. split; [exact T|]. split; [lia|]. intros [|m] Hm; [reflexivity|]. apply N. lia.
      * right. split; [exact G|]. intros [|m]; [reflexivity|]. apply N.
Qed.
Lemma argmax_true l : (exists k, nth k l false = true) -> argmax l < length l /\ nth (argmax l) l false = true /\ forall m, m < argmax l -> nth m l false = false.
Proof.
  intros [k0 H0]. rewrite argmax_go. destruct (go_spec l 0) as [[k [Hk [T [G N]]]]|[G N]]; [|rewrite N in H0; discriminate]. rewrite G. cbn [Nat.add]. auto.
Qed.
Lemma argmax_none l : (forall k, nth k l false = false) -> argmax l = 0.
Proof. intros H. rewrite argmax_go. destruct (go_spec l 0) as [[k [Hk [T _]]]|[G _]]; [|exact G]. rewrite H in T. discriminate. Qed.
Definition lo (A : parr) (b : list Z) : nat := argmax (nonzeros A b).
Definition hi (A : parr) (b : list Z) : nat := aD A - argmax (rev (nonzeros A b)).
Lemma nonzeros_nth A b d : nth d (nonzeros A b) false = (d <? aD A) && bnz (aI A) (aJ A) (aD A) b d.
Proof.
  unfold nonzeros. destruct (Nat.ltb_spec d (aD A)) as [H|H].
  - rewrite (nth_indep _ false (bnz (aI A) (aJ A) (aD A) b 0)) by now rewrite map_length, seq_length. rewrite map_nth, seq_nth by exact H. reflexivity.
  - apply nth_overflow. now rewrite map_length, seq_length.
Qed.
Lemma nonzeros_length A b : length (nonzeros A b) = aD A. Proof. unfold nonzeros. now rewrite map_length, seq_length. Qed.
Lemma lo_hi A b : length b = aI A * aJ A * aD A -> bany b = true ->
  let nz := bnz (aI A) (aJ A) (aD A) b in
  lo A b < hi A b /\ hi A b <= aD A /\ nz (lo A b) = true /\ nz (hi A b - 1) = true /\ (forall d, d < lo A b -> nz d = false) /\ (forall d, hi A b <= d -> d < aD A -> nz d = false).
Proof.
  intros L H nz. apply (bany_true _ _ _ _ L) in H. destruct H as [d0 [Hd0 N0]].
  assert (X : exists k, nth k (nonzeros A b) false = true) by (exists d0; rewrite nonzeros_nth, N0; apply Nat.ltb_lt in Hd0; now rewrite Hd0).
  destruct (argmax_true _ X) as [L1 [T1 N1]]. fold (lo A b) in L1, T1, N1. rewrite nonzeros_length in L1.
  assert (Y : exists k, nth k (rev (nonzeros A b)) false = true). { destruct X as [k Hk]. assert (k < aD A) by (rewrite nonzeros_nth in Hk; apply andb_true_iff in Hk; destruct Hk as [K _]; now apply Nat.ltb_lt). exists (aD A - S k). rewrite rev_nth by (rewrite nonzeros_length; lia). rewrite nonzeros_length. replace (aD A - S (aD A - S k)) with k by lia. exact Hk. }
  destruct (argmax_true _ Y) as [L2 [T2 N2]]. rewrite rev_length, nonzeros_length in L2. rewrite rev_nth in T2 by now rewrite nonzeros_length. rewrite nonzeros_length in T2.
  replace (aD A - S (argmax (rev (nonzeros A b)))) with (hi A b - 1) in T2 by (unfold hi; lia). rewrite nonzeros_nth in T1, T2. apply andb_true_iff in T1, T2.
  assert (Z : forall d, hi A b <= d -> d < aD A -> nz d = false).
  { intros d H1 H2. assert (K : aD A - S d < argmax (rev (nonzeros A b))) by (unfold hi in H1; lia). apply N2 in K. rewrite rev_nth in K by (rewrite nonzeros_length; lia). rewrite nonzeros_length in K. replace (aD A - S (aD A - S d)) with d in K by lia. rewrite nonzeros_nth in K. apply Nat.ltb_lt in H2. rewrite H2 in K. exact K. }
  split; [|split; [unfold hi; lia|]].
  - destruct (Nat.lt_ge_cases (lo A b) (hi A b)) as [|K]; [assumption|]. specialize (Z _ K L1). destruct T1 as [_ T1]. unfold nz in Z. congruence.
  - split; [apply T1|]. split; [apply T2|]. split; [|exact Z]. intros d Hd. pose proof (N1 d Hd) as K. rewrite nonzeros_nth in K. assert (E : d <? aD A = true) by (apply Nat.ltb_lt; lia). rewrite E in K. exact K.
Qed.
Lemma lo_hi_zero A b : length b = aI A * aJ A * aD A -> bany b = false -> lo A b = 0 /\ hi A b = aD A.
Proof.
  intros L H. assert (N : forall k, nth k (nonzeros A b) false = false). { intros k. rewrite nonzeros_nth. destruct (Nat.ltb_spec k (aD A)) as [Hk|]; [|reflexivity]. cbn. destruct (bnz (aI A) (aJ A) (aD A) b k) eqn:E; [|reflexivity]. assert (bany b = true) by (apply (bany_true _ _ _ _ L); eauto). congruence. }
  split; [now apply argmax_none|]. unfold hi. rewrite argmax_none; [lia|]. intros k. destruct (Nat.lt_ge_cases k (length (nonzeros A b))) as [Hk|Hk]; [now rewrite rev_nth|]. apply nth_overflow. now rewrite rev_length.
Qed.
(** the same, in terms of coefficients *)
Lemma bnz_acoef A idx d : wfa A -> valid_index (apre A) idx -> d < aD A -> bnz (aI A) (aJ A) (aD A) (block A idx) d = true <-> exists i j, i < aI A /\ j < aJ A /\ acoef A idx i j d <> 0%Z.
Proof.
  intros W V Hd. rewrite bnz_true. apply Nat.ltb_lt in Hd. split; intros [i [j [Hi [Hj N]]]]; exists i, j; (split; [exact Hi|]; split; [exact Hj|]); rewrite coef_block, Hd in *; auto.
Qed.
Lemma bnz_acoef_f A idx d : wfa A -> valid_index (apre A) idx -> d < aD A -> bnz (aI A) (aJ A) (aD A) (block A idx) d = false -> forall i j, i < aI A -> j < aJ A -> acoef A idx i j d = 0%Z.
Proof. intros W V Hd H i j Hi Hj. rewrite coef_block by auto. apply Nat.ltb_lt in Hd. rewrite Hd. rewrite bnz_false in H. now apply H. Qed.
Lemma bany_acoef A idx : wfa A -> valid_index (apre A) idx -> bany (block A idx) = true <-> nonzero_poly (acoef A idx) (aI A) (aJ A).
Proof.
  intros W V. destruct (wfa_block A idx W V) as [L _]. rewrite (bany_true _ _ _ _ L). unfold nonzero_poly. split.
  - intros [d [Hd H]]. apply bnz_acoef in H; auto. destruct H as [i [j [Hi [Hj N]]]]. exists i, j, d. auto.
  - intros [i [j [d [Hi [Hj N]]]]]. assert (Hd : d < aD A) by (destruct (Nat.lt_ge_cases d (aD A)); [assumption|]; rewrite acoef_over in N by assumption; contradiction). exists d. split; [exact Hd|]. apply bnz_acoef; eauto.
Qed.
Lemma lo_least A idx : wfa A -> valid_index (apre A) idx -> nonzero_poly (acoef A idx) (aI A) (aJ A) ->
  least_degree (acoef A idx) (aI A) (aJ A) (lo A (block A idx)) /\ greatest_degree (acoef A idx) (aI A) (aJ A) (hi A (block A idx) - 1) /\ lo A (block A idx) < hi A (block A idx) /\ hi A (block A idx) <= aD A.
Proof.
  intros W V N. destruct (wfa_block A idx W V) as [L _]. apply bany_acoef in N; auto. destruct (lo_hi A _ L N) as [H1 [H2 [H3 [H4 [H5 H6]]]]].
  split; [|split; [|split; assumption]].
  - split; [apply bnz_acoef; auto; lia|]. intros i j e Hi Hj He. apply bnz_acoef_f; auto; lia.
  - split; [apply bnz_acoef; auto; lia|]. intros i j e Hi Hj He. destruct (Nat.lt_ge_cases e (aD A)); [|now apply acoef_over]. apply bnz_acoef_f; auto. apply H6; lia.
Qed.
Lemma least_unique a I J d e : least_degree a I J d -> least_degree a I J e -> d = e.
Proof.
  intros [[i [j [Hi [Hj N]]]] Z] [[i' [j' [Hi' [Hj' N']]]] Z']. destruct (Nat.lt_trichotomy d e) as [K|[K|K]]; [|exact K|].
  - now rewrite Z' in N by auto.
  - now rewrite Z in N' by auto.
Qed.
Lemma greatest_unique a I J d e : greatest_degree a I J d -> greatest_degree a I J e -> d = e.
Proof.
  intros [[i [j [Hi [Hj N]]]] Z] [[i' [j' [Hi' [Hj' N']]]] Z']. destruct (Nat.lt_trichotomy d e) as [K|[K|K]]; [|exact K|].
  - now rewrite Z in N' by auto.
  - now rewrite Z' in N by auto.
Qed.
Lemma forallb_blocks A f : wfa A -> forallb f (ablocks A) = true <-> forall idx, valid_index (apre A) idx -> f (block A idx) = true.
Proof.
  intros W. rewrite <- (map_id (ablocks A)), (map_blocks A (fun b => b) W), forallb_forall. split.
  - intros H idx V. apply H. apply in_map_iff. exists idx. split; [reflexivity|]. now apply in_indices.
  - intros H b Hb. apply in_map_iff in Hb. destruct Hb as [idx [<- Hi%in_indices]]. now apply H.
Qed.
Lemma any_deg_true A d : wfa A -> d < aD A -> any_deg A d = true <-> exists idx i j, valid_index (apre A) idx /\ i < aI A /\ j < aJ A /\ acoef A idx i j d <> 0%Z.
Proof.
  intros W Hd. unfold any_deg. rewrite <- (map_id (ablocks A)), (map_blocks A (fun b => b) W), existsb_exists. split.
  - intros [b [Hb H]]. apply in_map_iff in Hb. destruct Hb as [idx [<- Hi%in_indices]]. apply bnz_acoef in H; auto. destruct H as [i [j H]]. exists idx, i, j. tauto.
  - intros [idx [i [j [V [Hi [Hj N]]]]]]. exists (block A idx). split; [apply in_map_iff; exists idx; split; [reflexivity|]; now apply in_indices|]. apply bnz_acoef; eauto.
Qed.

(** ** projectivise *)
Lemma combine_map2 {A B C} (f : A -> B) (g : A -> C) l : combine (map f l) (map g l) = map (fun x => (f x, g x)) l.
Proof. induction l as [|x l IH]; cbn; congruence. Qed.
Lemma combine_self_map {A B} (f : A -> B) l : combine l (map f l) = map (fun x => (x, f x)) l.
Proof. induction l as [|x l IH]; cbn; congruence. Qed.
Lemma list_max_ge l x : In x l -> x <= list_max l.
Proof. induction l as [|y l IH]; [intros []|]. intros [->|H]; cbn [list_max fold_right]; [lia|]. specialize (IH H). unfold list_max in IH. lia. Qed.
Lemma list_max_in l : l <> [] -> In (list_max l) l.
Proof.
  induction l as [|x l IH]; [contradiction|]. intros _. unfold list_max in *. cbn [fold_right]. destruct l as [|y l]; [left; cbn; lia|].
  destruct (Nat.max_spec x (fold_right Nat.max 0 (y :: l))) as [[_ ->]|[_ ->]]; [right; apply IH; discriminate|now left].
Qed.
Lemma starts_ends_ok A : wfa A -> (forall idx, valid_index (apre A) idx -> nonzero_poly (acoef A idx) (aI A) (aJ A)) -> aD A <> 0 ->
  proj_starts_ends A = Ok (map (lo A) (ablocks A), map (hi A) (ablocks A)).
Proof.
  intros W N HD. unfold proj_starts_ends. assert (F : forallb bany (ablocks A) = true) by (apply forallb_blocks; auto; intros; now apply bany_acoef; auto).
  rewrite F. cbn [assert_ bind]. unfold argmax_axis. rewrite (proj2 (Nat.eqb_neq _ _) HD). cbn [bind]. rewrite map_map. reflexivity.
Qed.
Definition width (A : parr) : nat := list_max (map (fun b => hi A b - lo A b) (ablocks A)).
Definition pjtab (A : parr) : parr := ptab (apre A) (aI A) (aJ A) (width A) (adt A)
  (fun idx i j d => if d <? hi A (block A idx) - lo A (block A idx) then bget (aJ A) (aD A) (block A idx) i j (lo A (block A idx) + d) else 0%Z).
Definition isproj (A : parr) : bool := forallb (fun b => bnz (aI A) (aJ A) (aD A) b 0) (ablocks A) && any_deg A (aD A - 1).
Lemma nonempty_D A : wfa A -> 1 <= nitems (apre A) -> (forall idx, valid_index (apre A) idx -> nonzero_poly (acoef A idx) (aI A) (aJ A)) -> aD A <> 0.
Proof.
  intros W NE N HD. assert (H : ablocks A <> []) by (intros E; destruct W as [L _]; rewrite E in L; cbn in L; lia).
  assert (exists idx, valid_index (apre A) idx) as [idx V].
  { destruct (indices (apre A)) as [|idx l] eqn:E; [pose proof (indices_length (apre A)) as K; rewrite E in K; cbn in K; unfold nitems in NE; unfold size in K; lia|]. exists idx. apply in_indices. rewrite E. now left. }
  destruct (N idx V) as [i [j [d [_ [_ K]]]]]. rewrite acoef_over in K by lia. contradiction.
Qed.
Lemma projectivise_unfold A : wfa A -> 1 <= nitems (apre A) -> (forall idx, valid_index (apre A) idx -> nonzero_poly (acoef A idx) (aI A) (aJ A)) ->
  projectivise A = Ok (if isproj A then A else pjtab A).
Proof.
  intros W NE N. pose proof (nonempty_D A W NE N) as HD. unfold projectivise. assert (F : forallb bany (ablocks A) = true) by (apply forallb_blocks; auto; intros; now apply bany_acoef; auto).
  rewrite F. cbn [assert_ bind]. rewrite (proj2 (Nat.eqb_neq _ _) HD). fold (isproj A). destruct (isproj A); [reflexivity|].
  rewrite (starts_ends_ok A W N HD). cbn [bind]. destruct (ablocks A) as [|b0 bs] eqn:EB; [exfalso; destruct W as [L _]; rewrite EB in L; cbn in L; lia|]. rewrite <- EB.
  rewrite combine_map2, combine_self_map, !map_map. unfold pjtab, ptab, width. rewrite <- (map_blocks A (fun b => btab (aI A) (aJ A) (list_max (map (fun b => hi A b - lo A b) (ablocks A))) (fun i j d => if d <? hi A b - lo A b then bget (aJ A) (aD A) b i j (lo A b + d) else 0%Z)) W). reflexivity.
Qed.
Lemma pj_range A idx i j d : wfa A -> (forall idx, valid_index (apre A) idx -> nonzero_poly (acoef A idx) (aI A) (aJ A)) -> valid_index (apre A) idx -> i < aI A -> j < aJ A ->
  (if d <? hi A (block A idx) - lo A (block A idx) then bget (aJ A) (aD A) (block A idx) i j (lo A (block A idx) + d) else 0%Z) = acoef A idx i j (lo A (block A idx) + d).
Proof.
  intros W N V Hi Hj. destruct (lo_least A idx W V (N idx V)) as [[_ Zl] [[_ Zh] [H1 H2]]]. destruct (Nat.ltb_spec d (hi A (block A idx) - lo A (block A idx))) as [K|K].
  - rewrite coef_block by auto. destruct (Nat.ltb_spec (lo A (block A idx) + d) (aD A)); [reflexivity|lia].
  - symmetry. apply Zh; auto. lia.
Qed.
Lemma width_ge A idx : wfa A -> valid_index (apre A) idx -> hi A (block A idx) - lo A (block A idx) <= width A.
Proof. intros W V. apply list_max_ge. rewrite (map_blocks A (fun b => hi A b - lo A b) W). apply in_map_iff. exists idx. split; [reflexivity|]. now apply in_indices. Qed.
Lemma width_in A : wfa A -> 1 <= nitems (apre A) -> exists idx, valid_index (apre A) idx /\ width A = hi A (block A idx) - lo A (block A idx).
Proof.
  intros W NE. assert (H : In (width A) (map (fun b => hi A b - lo A b) (ablocks A))).
  { apply list_max_in. intros E. apply map_eq_nil in E. destruct W as [L _]. rewrite E in L. cbn in L. lia. }
  rewrite (map_blocks A (fun b => hi A b - lo A b) W) in H. apply in_map_iff in H. destruct H as [idx [E Hi%in_indices]]. eauto.
Qed.
Lemma pjtab_wf A : wfa A -> (forall idx, valid_index (apre A) idx -> nonzero_poly (acoef A idx) (aI A) (aJ A)) -> wfa (pjtab A).
Proof. intros W N. apply ptab_wf. intros idx i j d V Hi Hj Hd. rewrite pj_range by auto. now apply acoef_range. Qed.
Lemma pjtab_coef A idx i j d : wfa A -> (forall idx, valid_index (apre A) idx -> nonzero_poly (acoef A idx) (aI A) (aJ A)) -> valid_index (apre A) idx -> i < aI A -> j < aJ A ->
  acoef (pjtab A) idx i j d = acoef A idx i j (lo A (block A idx) + d).
Proof.
  intros W N V Hi Hj. unfold pjtab. rewrite ptab_coef; auto.
  - destruct (Nat.ltb_spec d (width A)) as [K|K]; [now apply pj_range|]. destruct (lo_least A idx W V (N idx V)) as [[_ Zl] [[_ Zh] [H1 H2]]]. pose proof (width_ge A idx W V). symmetry. apply Zh; auto. lia.
  - intros idx' i' j' d' V' Hi' Hj' Hd'. rewrite pj_range by auto. now apply acoef_range.
Qed.
Lemma isproj_lo A idx : wfa A -> 1 <= nitems (apre A) -> (forall idx, valid_index (apre A) idx -> nonzero_poly (acoef A idx) (aI A) (aJ A)) -> isproj A = true -> valid_index (apre A) idx -> lo A (block A idx) = 0.
Proof.
  intros W NE N H V. unfold isproj in H. apply andb_true_iff in H. destruct H as [H _]. rewrite (forallb_blocks A (fun b => bnz (aI A) (aJ A) (aD A) b 0) W) in H. specialize (H idx V).
  pose proof (nonempty_D A W NE N). destruct (lo_least A idx W V (N idx V)) as [[_ Zl] _]. apply bnz_acoef in H; auto; [|lia]. destruct H as [i [j [Hi [Hj K]]]]. destruct (lo A (block A idx)) eqn:E; [reflexivity|]. exfalso. apply K. apply Zl; auto. lia.
Qed.
(** the result of projectivise, uniformly *)
Lemma projectivise_spec A : wfa A -> 1 <= nitems (apre A) -> (forall idx, valid_index (apre A) idx -> nonzero_poly (acoef A idx) (aI A) (aJ A)) ->
  exists P, projectivise A = Ok P /\ wfa P /\ apre P = apre A /\ aI P = aI A /\ aJ P = aJ A /\ adt P = adt A /\
    (forall idx i j d, valid_index (apre A) idx -> i < aI A -> j < aJ A -> acoef P idx i j d = acoef A idx i j (lo A (block A idx) + d)) /\
    (exists idx i j, valid_index (apre A) idx /\ i < aI A /\ j < aJ A /\ acoef P idx i j (aD P - 1) <> 0%Z) /\ 1 <= aD P.
Proof.
  intros W NE N. rewrite (projectivise_unfold A W NE N). pose proof (nonempty_D A W NE N) as HD. destruct (isproj A) eqn:E.
  - exists A. split; [reflexivity|]. split; [exact W|]. split; [reflexivity|]. split; [reflexivity|]. split; [reflexivity|]. split; [reflexivity|]. split; [|split].
    + intros idx i j d V Hi Hj. now rewrite (isproj_lo A idx W NE N E V).
    + unfold isproj in E. apply andb_true_iff in E. destruct E as [_ E]. apply any_deg_true in E; auto. lia.
    + lia.
  - exists (pjtab A). split; [reflexivity|]. split; [now apply pjtab_wf|]. split; [reflexivity|]. split; [reflexivity|]. split; [reflexivity|]. split; [reflexivity|].
    destruct (width_in A W NE) as [idx [V Ew]]. destruct (lo_least A idx W V (N idx V)) as [Ll [[Nh Zh] [H1 H2]]]. split; [|split].
    + intros. now apply pjtab_coef.
    + destruct Nh as [i [j [Hi [Hj K]]]]. exists idx, i, j. split; [exact V|]. split; [exact Hi|]. split; [exact Hj|]. rewrite pjtab_coef by auto. cbn [pjtab ptab aD]. rewrite Ew. replace (lo A (block A idx) + (hi A (block A idx) - lo A (block A idx) - 1)) with (hi A (block A idx) - 1) by lia. exact K.
    + cbn [pjtab ptab aD]. lia.
Qed.
