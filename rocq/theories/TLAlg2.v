(** TLAlg2.v – identities, juxtaposition and flip of matchings. *)
From Verif Require Import Base ModelTL SpecTL GlueTheory GlueWalk ComposeTheory TLTheory TLAlg.
From Coq Require Import Relations Permutation.
Local Arguments Nat.ltb : simpl never.
Local Arguments Nat.sub : simpl never.

Lemma nth_map_in {A B} (f : A -> B) l i (d : A) (d' : B) : i < length l -> nth i (map f l) d' = f (nth i l d).
Proof. revert i. induction l as [|x l IH]; intros i H; [cbn in H; lia|]. destruct i; [reflexivity|]. apply IH. cbn in H. lia. Qed.
Lemma in_pg L mid x y : In (x, y) (pgs L mid) <-> exists k, k < mid /\ x = Lo (L - 1 - k) /\ y = Up k.
Proof.
  unfold pgs. rewrite in_map_iff. split.
  - intros [k [E H]]. apply in_seq in H. injection E as <- <-. exists k. repeat split. lia.
  - intros [k [H [-> ->]]]. exists k. split; [reflexivity|apply in_seq; lia].
Qed.
(** a gluing without loops, by a retraction to the boundary *)
Lemma glued_retract {X} (D : X -> Prop) f gs r (rho : X -> X) : matching D f -> good D gs -> matching (bd D gs) r ->
  (forall x, D x -> bd D gs (rho x) /\ conn D f gs x (rho x)) -> (forall x, bd D gs x -> rho x = x) ->
  (forall x, bd D gs x -> conn D f gs x (r x)) ->
  (forall x, D x -> rho (f x) = rho x \/ rho (f x) = r (rho x)) -> (forall x y, In (x, y) gs -> rho x = rho y) -> glued D f gs r 0.
Proof.
  intros M G Mr H1 H2 H3 H4 H5. split; auto.
  - intros x y Bx By C.
    assert (K : x = y \/ (D x /\ D y /\ (rho y = rho x \/ rho y = r (rho x)))).
    { clear Bx By. induction C as [x y [[H ->]|H]| |x y _ IH|x y z _ IH1 _ IH2]; auto.
      - right. destruct (M x H) as [A _]. auto.
      - right. assert (D x /\ D y) as [A B] by (split; apply G, in_ends; eauto). rewrite (H5 x y H). auto.
      - destruct IH as [->|[A [B [E|E]]]]; auto; right; repeat split; auto. right. rewrite E. symmetry. apply Mr. now apply H1.
      - destruct IH1 as [->|[A1 [B1 E1]]]; auto. destruct IH2 as [<-|[A2 [B2 E2]]]; [right; auto|]. right. repeat split; auto.
        destruct E1 as [E1|E1]; rewrite E1 in E2; [exact E2|]. destruct E2 as [E2|E2]; [auto|]. left. rewrite E2. apply Mr. now apply H1. }
    destruct K as [->|[_ [_ K]]]; auto. rewrite !H2 in K by auto. exact K.
  - intros x Hx. right. exists (rho x). now apply H1.
  - exists []. split; [reflexivity|]. split; [intros ? []|]. split; [constructor|]. intros x [Dx K]. exfalso. apply (K (rho x)); now apply H1.
Qed.

Lemma id_seq_length n : length (id_seq n) = 2 * n.
Proof. unfold id_seq. now rewrite map_length, seq_length. Qed.
Lemma nth_id n i : i < 2 * n -> nth i (id_seq n) 0 = 2 * n - 1 - i.
Proof. intros H. unfold id_seq. rewrite (nth_map_in _ _ _ 0) by (rewrite seq_length; lia). rewrite seq_nth by lia. lia. Qed.
Lemma crossingless_id n : crossingless (id_seq n).
Proof.
  unfold crossingless. rewrite id_seq_length. split.
  - intros i Hi. rewrite nth_id by exact Hi. split; [lia|]. split; [lia|]. rewrite nth_id by lia. lia.
  - intros i j Hj [H1 [H2 H3]]. rewrite !nth_id in * by lia. lia.
Qed.
Lemma read_matching upper lower mid r : mid <= length lower -> mid <= length upper -> length r = length lower - mid + (length upper - mid) ->
  matched r -> matching (bd (pD upper lower) (pgs (length lower) mid)) (read lower mid r).
Proof.
  intros HL HU Lr M x Bx. rewrite <- (outer_code upper lower mid HL HU x Bx). pose proof (code_lt upper lower mid HL HU x Bx) as Hi.
  set (i := code _ _ x) in *. destruct (M i ltac:(lia)) as [A [B C]].
  rewrite !(read_outer lower mid (length upper)) by lia. split; [apply outer_bd; lia|]. split; [intros E; apply outer_inj in E; lia|]. now rewrite C.
Qed.
Lemma compose_id_l a n : crossingless a -> n <= length a -> compose (id_seq n) a n = Ok (a, 0).
Proof.
  intros Ca Hn. pose proof (crossingless_matched _ Ca) as Ma. pose proof (crossingless_id n) as Ci. pose proof (crossingless_matched _ Ci) as Mi.
  pose proof (id_seq_length n) as Li. set (bot := length a - n).
  assert (Len : length a = length a - n + (length (id_seq n) - n)) by lia.
  assert (HU : n <= length (id_seq n)) by lia.
  apply compose_glued; auto.
  set (U := id_seq n) in *. pose proof (pD_matching U a Mi Ma) as M. pose proof (pgood U a n Hn HU) as G.
  set (rho := fun x => match x with Lo i => outer bot n i | Up k => if k <? n then Up (2 * n - 1 - k) else Up k end).
  assert (Cr : forall x, pD U a x -> conn (pD U a) (pf U a) (pgs (length a) n) x (rho x)).
  { assert (K : forall k, k < 2 * n -> conn (pD U a) (pf U a) (pgs (length a) n) (Up k) (Up (2 * n - 1 - k))).
    { intros k Hk. assert (E : Up (2 * n - 1 - k) = pf U a (Up k)) by (cbn [pf]; unfold U; now rewrite nth_id). rewrite E. apply conn_f. cbn [pD]. lia. }
    intros [i|k] Hx; cbn [pD] in Hx; cbn [rho].
    - unfold outer. destruct (Nat.ltb_spec i bot); [apply conn_refl|]. eapply conn_trans; [apply conn_g; apply (proj2 (in_pg _ _ _ (Up (length a - 1 - i)))); exists (length a - 1 - i)|].
      + unfold bot in *. repeat split; try lia. f_equal. lia.
      + replace (i - bot + n) with (2 * n - 1 - (length a - 1 - i)) by (unfold bot in *; lia). apply K. unfold bot in *. lia.
    - destruct (Nat.ltb_spec k n); [|apply conn_refl]. apply K. lia. }
  apply (glued_retract _ _ _ _ rho); auto.
  - apply read_matching; auto.
  - intros x Hx. split; [|now apply Cr]. destruct x as [i|k]; cbn [pD rho] in *.
    + apply outer_bd; lia.
    + apply pbd; try lia. destruct (Nat.ltb_spec k n); lia.
  - intros x Hx. apply pbd in Hx; auto. destruct x as [i|k]; cbn [rho].
    + unfold outer. fold bot in Hx. destruct (Nat.ltb_spec i bot); [reflexivity|lia].
    + destruct (Nat.ltb_spec k n); [lia|reflexivity].
  - intros x Bx. rewrite <- (outer_code U a n Hn HU x Bx). pose proof (code_lt U a n Hn HU x Bx) as Hi. set (i := code _ _ x) in *.
    rewrite (read_outer a n (length U)) by lia. assert (Hi' : i < length a) by lia. destruct (Ma i Hi') as [A _].
    pose proof (Cr (Lo i) Hi') as C1. pose proof (Cr (Lo (nth i a 0)) A) as C2. cbn [rho] in C1, C2. fold bot.
    eapply conn_trans; [apply conn_sym, C1|]. eapply conn_trans; [|apply C2]. apply (conn_f _ (pf U a) _ (Lo i)). exact Hi'.
  - intros [i|k] Hx; cbn [pD] in Hx; cbn [pf rho].
    + right. symmetry. unfold bot. apply (read_outer a n (length U)); lia.
    + left. unfold U. rewrite nth_id by lia. destruct (Nat.ltb_spec k n), (Nat.ltb_spec (2 * n - 1 - k) n); try lia; f_equal; lia.
  - intros x y H. rewrite in_pg in H. destruct H as [k [Hk [-> ->]]]. cbn [rho]. unfold outer, bot.
    destruct (Nat.ltb_spec (length a - 1 - k) (length a - n)), (Nat.ltb_spec k n); try lia. f_equal. lia.
Qed.
Lemma compose_id_r a n : crossingless a -> n <= length a -> compose a (id_seq n) n = Ok (a, 0).
Proof.
  intros Ca Hn. pose proof (crossingless_matched _ Ca) as Ma. pose proof (crossingless_id n) as Ci. pose proof (crossingless_matched _ Ci) as Mi.
  pose proof (id_seq_length n) as Li.
  assert (Len : length a = length (id_seq n) - n + (length a - n)) by lia.
  assert (HL : n <= length (id_seq n)) by lia.
  apply compose_glued; auto.
  set (L := id_seq n) in *. pose proof (pD_matching a L Ma Mi) as M. pose proof (pgood a L n HL Hn) as G.
  assert (Eb : length L - n = n) by lia.
  set (rho := fun x => match x with Up i => outer n n i | Lo k => if k <? n then Lo k else Lo (2 * n - 1 - k) end).
  assert (Cr : forall x, pD a L x -> conn (pD a L) (pf a L) (pgs (length L) n) x (rho x)).
  { assert (K : forall k, k < 2 * n -> conn (pD a L) (pf a L) (pgs (length L) n) (Lo k) (Lo (2 * n - 1 - k))).
    { intros k Hk. assert (E : Lo (2 * n - 1 - k) = pf a L (Lo k)) by (cbn [pf]; unfold L; now rewrite nth_id). rewrite E. apply conn_f. cbn [pD]. lia. }
    intros [k|i] Hx; cbn [pD] in Hx; cbn [rho].
    - destruct (Nat.ltb_spec k n); [apply conn_refl|]. apply K. lia.
    - unfold outer. destruct (Nat.ltb_spec i n); [|replace (i - n + n) with i by lia; apply conn_refl].
      eapply conn_trans; [apply conn_sym, conn_g; apply (proj2 (in_pg _ _ (Lo (length L - 1 - i)) _)); exists i; repeat split; lia|].
      replace (Lo i) with (Lo (2 * n - 1 - (length L - 1 - i))) by (f_equal; lia). apply K. lia. }
  apply (glued_retract _ _ _ _ rho); auto.
  - apply read_matching; auto.
  - intros x Hx. split; [|now apply Cr]. destruct x as [k|i]; cbn [pD rho] in *.
    + apply pbd; try lia. destruct (Nat.ltb_spec k n); lia.
    + replace (outer n n i) with (outer (length L - n) n i) by now rewrite Eb. apply outer_bd; lia.
  - intros x Hx. apply pbd in Hx; auto. destruct x as [k|i]; cbn [rho].
    + destruct (Nat.ltb_spec k n); [reflexivity|lia].
    + unfold outer. destruct (Nat.ltb_spec i n); [lia|f_equal; lia].
  - intros x Bx. rewrite <- (outer_code a L n HL Hn x Bx). pose proof (code_lt a L n HL Hn x Bx) as Hi. set (i := code _ _ x) in *.
    rewrite (read_outer L n (length a)) by lia. assert (Hi' : i < length a) by lia. destruct (Ma i Hi') as [A _].
    pose proof (Cr (Up i) Hi') as C1. pose proof (Cr (Up (nth i a 0)) A) as C2. cbn [rho] in C1, C2. rewrite Eb.
    eapply conn_trans; [apply conn_sym, C1|]. eapply conn_trans; [|apply C2]. apply (conn_f _ (pf a L) _ (Up i)). exact Hi'.
  - intros [k|i] Hx; cbn [pD] in Hx; cbn [pf rho].
    + left. unfold L. rewrite nth_id by lia. destruct (Nat.ltb_spec k n), (Nat.ltb_spec (2 * n - 1 - k) n); try lia; f_equal; lia.
    + right. symmetry. pose proof (read_outer L n (length a) a i) as Q. rewrite Eb in Q. apply Q; lia.
  - intros x y H. rewrite in_pg in H. destruct H as [k [Hk [-> ->]]]. cbn [rho]. unfold outer.
    destruct (Nat.ltb_spec (length L - 1 - k) n), (Nat.ltb_spec k n); try lia. f_equal. lia.
Qed.

(** ** Insertion of one matching into another *)
Definition eo (k n j : nat) : nat := if j <? k then j else j + n.
Definition ins (o i : list nat) (k : nat) : list nat :=
  map (eo k (length i)) (firstn k o) ++ map (fun x => x + k) i ++ map (eo k (length i)) (skipn k o).
Lemma insert_ins o i k : insert o i k = if k <=? length o then Ok (ins o i k) else Err AssertionError.
Proof. unfold insert. destruct (k <=? length o); reflexivity. Qed.
Section Ins.
Context (o i : list nat) (k : nat) (Hk : k <= length o).
Local Notation n := (length i).
Lemma ins_length : length (ins o i k) = length o + n.
Proof. unfold ins. rewrite !app_length, !map_length, firstn_length, skipn_length. lia. Qed.
Lemma ins_eo j : j < length o -> nth (eo k n j) (ins o i k) 0 = eo k n (nth j o 0).
Proof.
  intros Hj. unfold ins. unfold eo at 1. destruct (Nat.ltb_spec j k).
  - rewrite app_nth1 by (rewrite map_length, firstn_length; lia). rewrite (nth_map_in _ _ _ 0) by (rewrite firstn_length; lia).
    f_equal. rewrite <- (firstn_skipn k o) at 2. rewrite app_nth1; [reflexivity|]. rewrite firstn_length; lia.
  - rewrite app_nth2 by (rewrite map_length, firstn_length; lia). rewrite map_length, firstn_length, Nat.min_l by lia.
    rewrite app_nth2 by (rewrite map_length; lia). rewrite map_length. rewrite (nth_map_in _ _ _ 0) by (rewrite skipn_length; lia).
    f_equal. rewrite <- (firstn_skipn k o) at 2. rewrite app_nth2; rewrite firstn_length, Nat.min_l by lia; [|lia]. f_equal. lia.
Qed.
Lemma ins_ei j : j < n -> nth (j + k) (ins o i k) 0 = nth j i 0 + k.
Proof.
  intros Hj. unfold ins. rewrite app_nth2 by (rewrite map_length, firstn_length; lia). rewrite map_length, firstn_length, Nat.min_l by lia.
  rewrite app_nth1 by (rewrite map_length; lia). replace (j + k - k) with j by lia. apply (nth_map_in (fun x => x + k)). exact Hj.
Qed.
Lemma ins_cases x : x < length o + n -> (exists j, j < length o /\ x = eo k n j) \/ (exists j, j < n /\ x = j + k).
Proof.
  intros H. destruct (Nat.lt_ge_cases x k); [left; exists x; unfold eo; destruct (Nat.ltb_spec x k); lia|].
  destruct (Nat.lt_ge_cases x (k + n)); [right; exists (x - k); lia|]. left. exists (x - n). unfold eo. destruct (Nat.ltb_spec (x - n) k); lia.
Qed.
Lemma eo_lt j : j < length o -> eo k n j < length o + n.
Proof. unfold eo. destruct (Nat.ltb_spec j k); lia. Qed.
End Ins.
Lemma eo_mono k n j j' : eo k n j < eo k n j' <-> j < j'.
Proof. unfold eo. destruct (Nat.ltb_spec j k), (Nat.ltb_spec j' k); lia. Qed.
Lemma eo_inj k n j j' : eo k n j = eo k n j' -> j = j'.
Proof. unfold eo. destruct (Nat.ltb_spec j k), (Nat.ltb_spec j' k); lia. Qed.
Lemma eo_ne k n j j' : j' < n -> eo k n j <> j' + k.
Proof. unfold eo. destruct (Nat.ltb_spec j k); lia. Qed.
Lemma crossingless_ins o i k : k <= length o -> crossingless o -> crossingless i -> crossingless (ins o i k).
Proof.
  intros Hk Co Ci. unfold crossingless. rewrite ins_length by exact Hk. split.
  - intros x Hx. destruct (ins_cases o i k Hk x Hx) as [[j [Hj ->]]|[j [Hj ->]]].
    + destruct (proj1 Co j Hj) as [A [B C]]. rewrite ins_eo by auto. split; [apply eo_lt; auto|]. split; [intros E; now apply eo_inj in E|].
      rewrite ins_eo by auto. now rewrite C.
    + destruct (proj1 Ci j Hj) as [A [B C]]. rewrite ins_ei by auto. split; [lia|]. split; [lia|]. rewrite ins_ei by auto. now rewrite C.
  - intros x y Hy [H1 [H2 H3]].
    destruct (ins_cases o i k Hk x ltac:(lia)) as [[j [Hj ->]]|[j [Hj ->]]], (ins_cases o i k Hk y Hy) as [[j' [Hj' ->]]|[j' [Hj' ->]]];
      rewrite ?ins_eo, ?ins_ei in * by auto.
    + rewrite !eo_mono in *. exact (proj2 Co j j' Hj' (conj H1 (conj H2 H3))).
    + destruct (proj1 Ci j' Hj') as [A _]. destruct (proj1 Co j Hj) as [B _]. unfold eo in *. destruct (Nat.ltb_spec (nth j o 0) k), (Nat.ltb_spec j k); lia.
    + destruct (proj1 Ci j Hj) as [A _]. unfold eo in *. destruct (Nat.ltb_spec j' k); lia.
    + apply (proj2 Ci j j' Hj'). lia.
Qed.
Lemma ins_assoc a b c i j : i <= length a -> j <= length b -> ins (ins a b i) c (i + j) = ins a (ins b c j) i.
Proof.
  intros Hi Hj. assert (Hij : i + j <= length (ins a b i)) by (rewrite ins_length by lia; lia).
  apply (nth_ext_len _ _ (length a + length b + length c) 0); try (rewrite !ins_length by (auto; rewrite ins_length; lia); lia).
  intros x Hx. destruct (ins_cases (ins a b i) c (i + j) Hij x) as [[y [Hy ->]]|[y [Hy ->]]]; [rewrite ins_length by lia; lia| |].
  - rewrite ins_eo by auto. rewrite ins_length in Hy by lia. destruct (ins_cases a b i Hi y Hy) as [[z [Hz ->]]|[z [Hz ->]]].
    + rewrite ins_eo by auto. assert (E : forall w, w < length a -> eo (i + j) (length c) (eo i (length b) w) = eo i (length (ins b c j)) w).
      { intros w Hw. rewrite ins_length by lia. unfold eo. destruct (Nat.ltb_spec w i), (Nat.ltb_spec w (i + j)), (Nat.ltb_spec (w + length b) (i + j)); lia. }
      assert (nth z a 0 < length a \/ length a <= nth z a 0) as [K|K] by lia; [rewrite !E by auto; now rewrite ins_eo|].
      rewrite (E z Hz). rewrite ins_eo by auto. rewrite ins_length by lia. unfold eo. destruct (Nat.ltb_spec (nth z a 0) i); [lia|]. destruct (Nat.ltb_spec (nth z a 0 + length b) (i + j)); lia.
    + rewrite ins_ei by auto. assert (E : forall w, eo (i + j) (length c) (w + i) = eo j (length c) w + i).
      { intros w. unfold eo. destruct (Nat.ltb_spec (w + i) (i + j)), (Nat.ltb_spec w j); lia. }
      rewrite !E. rewrite ins_ei; [|exact Hi|rewrite ins_length by lia; now apply eo_lt]. now rewrite ins_eo.
  - rewrite ins_ei by auto. replace (y + (i + j)) with (y + j + i) by lia. rewrite ins_ei; [|exact Hi|rewrite ins_length by lia; lia].
    rewrite ins_ei by auto. lia.
Qed.
Lemma ins_nil_r a i : i <= length a -> ins a [] i = a.
Proof.
  intros Hi. apply (nth_ext_len _ _ (length a) 0); auto; [rewrite ins_length by lia; cbn; lia|]. intros j Hj.
  pose proof (ins_eo a [] i Hi j Hj) as E. cbn [length] in E. assert (K : forall w, eo i 0 w = w) by (intros w; unfold eo; destruct (w <? i); lia). now rewrite !K in E.
Qed.
Lemma ins_nil_l b : ins [] b 0 = b.
Proof. unfold ins. cbn. rewrite app_nil_r. erewrite map_ext; [apply map_id|]. intros; cbn; lia. Qed.
Lemma ins_id a b : ins (id_seq a) (id_seq b) a = id_seq (a + b).
Proof.
  assert (Ha : a <= length (id_seq a)) by (rewrite id_seq_length; lia).
  apply (nth_ext_len _ _ (2 * (a + b)) 0); [rewrite ins_length, !id_seq_length by lia; lia|apply id_seq_length|]. intros x Hx. rewrite nth_id by lia.
  destruct (ins_cases (id_seq a) (id_seq b) a Ha x) as [[y [Hy ->]]|[y [Hy ->]]]; [rewrite !id_seq_length; lia| |]; rewrite id_seq_length in Hy.
  - rewrite ins_eo by (rewrite id_seq_length; lia). rewrite nth_id by lia. rewrite id_seq_length. unfold eo.
    destruct (Nat.ltb_spec y a), (Nat.ltb_spec (2 * a - 1 - y) a); lia.
  - rewrite ins_ei by (rewrite id_seq_length; lia). rewrite nth_id by lia. lia.
Qed.

(** *** the interchange law *)
Section Interchange.
Context (a b c d : list nat) (ma mb : nat) (Ca : crossingless a) (Cb : crossingless b) (Cc : crossingless c) (Cd : crossingless d).
Context (Ha : ma <= length a) (Hb : mb <= length b) (Hc : ma <= length c) (Hd : mb <= length d).
Local Notation bc := (length c - ma).
Local Notation bdd := (length d - mb).
Theorem compose_ins : exists ac n1 bd_ n2, compose a c ma = Ok (ac, n1) /\ compose b d mb = Ok (bd_, n2) /\
  compose (ins a b ma) (ins c d bc) (ma + mb) = Ok (ins ac bd_ bc, n1 + n2).
Proof.
  destruct (compose_ok a c ma Ca Cc Hc Ha) as [ac [n1 [E1 [L1 [C1 G1]]]]].
  destruct (compose_ok b d mb Cb Cd Hd Hb) as [bd_ [n2 [E2 [L2 [C2 G2]]]]].
  exists ac, n1, bd_, n2. split; [exact E1|]. split; [exact E2|].
  assert (Hbc : bc <= length c) by lia. assert (Hac : bc <= length ac) by lia.
  pose proof (crossingless_ins a b ma Ha Ca Cb) as CU. pose proof (crossingless_ins c d bc Hbc Cc Cd) as CL.
  pose proof (ins_length a b ma Ha) as LU. pose proof (ins_length c d bc Hbc) as LL. pose proof (ins_length ac bd_ bc Hac) as LR.
  apply compose_glued; auto; try lia.
  set (U := ins a b ma) in *. set (L := ins c d bc) in *. set (R := ins ac bd_ bc) in *. set (m := ma + mb).
  set (p1 := fun x => match x with Lo i => Lo (eo bc (length d) i) | Up i => Up (eo ma (length b) i) end).
  set (p2 := fun x => match x with Lo i => Lo (i + bc) | Up i => Up (i + ma) end).
  set (D1 := fun y => exists x, pD a c x /\ y = p1 x). set (D2 := fun y => exists x, pD b d x /\ y = p2 x).
  assert (Mac : matching (pD a c) (pf a c)) by (apply pD_matching; now apply crossingless_matched).
  assert (Mbd : matching (pD b d) (pf b d)) by (apply pD_matching; now apply crossingless_matched).
  assert (inj1 : forall x y, pD a c x -> pD a c y -> p1 x = p1 y -> x = y).
  { intros [i|i] [j|j] _ _ E; cbn in E; try discriminate; injection E as E; apply eo_inj in E; congruence. }
  assert (inj2 : forall x y, pD b d x -> pD b d y -> p2 x = p2 y -> x = y).
  { intros [i|i] [j|j] _ _ E; cbn in E; try discriminate; injection E as E; f_equal; lia. }
  assert (Hf1 : forall x, pD a c x -> pf U L (p1 x) = p1 (pf a c x)).
  { intros [i|i] Hx; cbn in *; f_equal; unfold U, L; apply ins_eo; auto. }
  assert (Hf2 : forall x, pD b d x -> pf U L (p2 x) = p2 (pf b d x)).
  { intros [i|i] Hx; cbn in *; f_equal; unfold U, L; apply ins_ei; auto. }
  pose proof (pgood a c ma Hc Ha) as Gac. pose proof (pgood b d mb Hd Hb) as Gbd.
  set (gs1 := map (fun p => (p1 (fst p), p1 (snd p))) (pgs (length c) ma)).
  set (gs2 := map (fun p => (p2 (fst p), p2 (snd p))) (pgs (length d) mb)).
  assert (H1 : glued D1 (pf U L) gs1 (read L m R) n1).
  { apply (glued_relabel p1 (pD a c) (pf a c) _ (read c ma ac) n1 D1); auto; [intros y; reflexivity|].
    intros x Bx. rewrite <- (outer_code a c ma Hc Ha x Bx). pose proof (code_lt a c ma Hc Ha x Bx) as Hi. set (i := code _ _ x) in *.
    rewrite (read_outer c ma (length a)) by auto.
    assert (K : forall j, p1 (outer bc ma j) = outer (length L - m) m (eo bc (length bd_) j)).
    { intros j. unfold outer, eo, m. rewrite LL. destruct (Nat.ltb_spec j bc) as [H|H].
      - destruct (Nat.ltb_spec j (length c + length d - (ma + mb))); [|lia]. cbn. unfold eo. destruct (Nat.ltb_spec j bc); [reflexivity|lia].
      - destruct (Nat.ltb_spec (j + length bd_) (length c + length d - (ma + mb))); [lia|]. cbn. unfold eo. destruct (Nat.ltb_spec (j - bc + ma) ma); [lia|]. f_equal. lia. }
    rewrite !K. rewrite (read_outer L m (length U)); try (unfold m; lia).
    - f_equal. unfold R. apply ins_eo; auto. lia.
    - rewrite LU, LL. pose proof (eo_lt ac bd_ bc Hac i ltac:(lia)). unfold m. lia. }
  assert (H2 : glued D2 (pf U L) gs2 (read L m R) n2).
  { apply (glued_relabel p2 (pD b d) (pf b d) _ (read d mb bd_) n2 D2); auto; [intros y; reflexivity|].
    intros x Bx. rewrite <- (outer_code b d mb Hd Hb x Bx). pose proof (code_lt b d mb Hd Hb x Bx) as Hi. set (i := code _ _ x) in *.
    rewrite (read_outer d mb (length b)) by auto.
    assert (K : forall j, p2 (outer bdd mb j) = outer (length L - m) m (j + bc)).
    { intros j. unfold outer, m. rewrite LL. destruct (Nat.ltb_spec j bdd) as [H|H].
      - destruct (Nat.ltb_spec (j + bc) (length c + length d - (ma + mb))); [|lia]. reflexivity.
      - destruct (Nat.ltb_spec (j + bc) (length c + length d - (ma + mb))); [lia|]. cbn. f_equal. lia. }
    rewrite !K. rewrite (read_outer L m (length U)); try (unfold m; lia). f_equal. unfold R. apply ins_ei; auto. lia. }
  assert (G1' : good D1 gs1) by (apply (good_relabel p1 (pD a c) (pgs (length c) ma) D1 inj1); auto; intros y; reflexivity).
  assert (G2' : good D2 gs2) by (apply (good_relabel p2 (pD b d) (pgs (length d) mb) D2 inj2); auto; intros y; reflexivity).
  assert (M1 : matching D1 (pf U L)) by (eapply (matching_relabel p1 (pD a c) (pf a c)); eauto; intros y; reflexivity).
  assert (M2 : matching D2 (pf U L)) by (eapply (matching_relabel p2 (pD b d) (pf b d)); eauto; intros y; reflexivity).
  assert (dis : forall x, D1 x -> D2 x -> False).
  { intros x [y [Hy ->]] [z [Hz E]]. destruct y as [i|i], z as [j|j]; cbn in *; try discriminate; injection E as E; now apply eo_ne in E. }
  pose proof (glued_union D1 D2 (pf U L) gs1 gs2 (read L m R) n1 n2 dis M1 M2 G1' G2' H1 H2) as H.
  assert (I1 : forall x y, In (x, y) gs1 <-> exists k, k < ma /\ x = Lo (eo bc (length d) (length c - 1 - k)) /\ y = Up (eo ma (length b) k)).
  { intros x y. unfold gs1. rewrite in_map_iff. split.
    - intros [[u v] [E I]]. rewrite in_pg in I. destruct I as [k [Hk [-> ->]]]. cbn in E. injection E as <- <-. eauto.
    - intros [k [Hk [-> ->]]]. exists (Lo (length c - 1 - k), Up k). split; [reflexivity|]. apply in_pg. eauto. }
  assert (I2 : forall x y, In (x, y) gs2 <-> exists k, k < mb /\ x = Lo (length d - 1 - k + bc) /\ y = Up (k + ma)).
  { intros x y. unfold gs2. rewrite in_map_iff. split.
    - intros [[u v] [E I]]. rewrite in_pg in I. destruct I as [k [Hk [-> ->]]]. cbn in E. injection E as <- <-. eauto.
    - intros [k [Hk [-> ->]]]. exists (Lo (length d - 1 - k), Up k). split; [reflexivity|]. apply in_pg. eauto. }
  assert (Egs : forall x y, In (x, y) (gs1 ++ gs2) <-> In (x, y) (pgs (length L) m)).
  { intros x y. rewrite in_app_iff, I1, I2, in_pg, LL. unfold m, eo. split.
    - intros [[k [Hk [-> ->]]]|[k [Hk [-> ->]]]].
      + destruct (Nat.ltb_spec (length c - 1 - k) bc), (Nat.ltb_spec k ma); try lia. exists k. repeat split; [lia|f_equal; lia].
      + exists (k + ma). repeat split; [lia|f_equal; lia].
    - intros [k [Hk [-> ->]]]. destruct (Nat.lt_ge_cases k ma) as [Q|Q].
      + left. exists k. destruct (Nat.ltb_spec (length c - 1 - k) bc), (Nat.ltb_spec k ma); try lia. repeat split; [lia|f_equal; lia].
      + right. exists (k - ma). repeat split; [lia|f_equal; lia|f_equal; lia]. }
  eapply glued_ext; [| | | | |exact H]; auto.
  - intros [i|i]; unfold D1, D2; cbn; split.
    + intros [[[j|j] [Hj E]]|[[j|j] [Hj E]]]; cbn in *; try discriminate; injection E as ->; rewrite LL; [now apply eo_lt|lia].
    + rewrite LL. intros Hi. destruct (ins_cases c d bc Hbc i Hi) as [[j [Hj ->]]|[j [Hj ->]]]; [left|right]; exists (Lo j); auto.
    + intros [[[j|j] [Hj E]]|[[j|j] [Hj E]]]; cbn in *; try discriminate; injection E as ->; rewrite LU; [now apply eo_lt|lia].
    + rewrite LU. intros Hi. destruct (ins_cases a b ma Ha i Hi) as [[j [Hj ->]]|[j [Hj ->]]]; [left|right]; exists (Up j); auto.
  - intros x y I. left. now apply Egs.
  - intros x y I. left. now apply Egs.
Qed.
End Interchange.

(** ** The flip *)
Definition fl (s : list nat) : list nat := map (fun i => length s - 1 - i) (rev s).
Lemma fl_length s : length (fl s) = length s.
Proof. unfold fl. now rewrite map_length, rev_length. Qed.
Lemma nth_fl s i : i < length s -> nth i (fl s) 0 = length s - 1 - nth (length s - 1 - i) s 0.
Proof. intros H. unfold fl. rewrite (nth_map_in _ _ _ 0) by now rewrite rev_length. rewrite rev_nth by exact H. do 2 f_equal. lia. Qed.
Lemma crossingless_fl s : crossingless s -> crossingless (fl s).
Proof.
  intros [M NC]. unfold crossingless. rewrite fl_length. split.
  - intros i Hi. rewrite nth_fl by exact Hi. destruct (M (length s - 1 - i) ltac:(lia)) as [A [B C]]. split; [lia|]. split; [lia|].
    rewrite nth_fl by lia. replace (length s - 1 - (length s - 1 - nth (length s - 1 - i) s 0)) with (nth (length s - 1 - i) s 0) by lia. rewrite C. lia.
  - intros i j Hj [H1 [H2 H3]]. rewrite !nth_fl in * by lia. destruct (M (length s - 1 - i) ltac:(lia)) as [A [B C]], (M (length s - 1 - j) ltac:(lia)) as [A' [B' C']].
    set (x := nth (length s - 1 - i) s 0) in *. set (y := nth (length s - 1 - j) s 0) in *.
    apply (NC y x A). rewrite C, C'. lia.
Qed.
Lemma fl_fl s : matched s -> fl (fl s) = s.
Proof.
  intros M. apply (nth_ext_len _ _ (length s) 0); auto; [now rewrite !fl_length|]. intros i Hi. rewrite nth_fl by now rewrite fl_length. rewrite fl_length, nth_fl by lia.
  destruct (M i Hi) as [A _]. replace (length s - 1 - (length s - 1 - i)) with i by lia. lia.
Qed.
Lemma fl_id n : fl (id_seq n) = id_seq n.
Proof.
  apply (nth_ext_len _ _ (2 * n) 0); rewrite ?fl_length, ?id_seq_length; auto. intros i Hi. rewrite nth_fl by (rewrite id_seq_length; lia).
  rewrite id_seq_length, !nth_id by lia. lia.
Qed.
Lemma fl_ins a b i : matched a -> matched b -> i <= length a -> fl (ins a b i) = ins (fl a) (fl b) (length a - i).
Proof.
  intros Ma Mb Hi. pose proof (ins_length a b i Hi) as LI.
  assert (Hf : length a - i <= length (fl a)) by (rewrite fl_length; lia).
  apply (nth_ext_len _ _ (length a + length b) 0); [now rewrite fl_length|rewrite ins_length, !fl_length by exact Hf; lia|].
  intros x Hx. rewrite nth_fl by lia. rewrite LI.
  destruct (ins_cases a b i Hi (length a + length b - 1 - x) ltac:(lia)) as [[j [Hj E]]|[j [Hj E]]]; rewrite E.
  - rewrite ins_eo by auto. destruct (Ma j Hj) as [A _].
    assert (K : forall w, w < length a -> length a + length b - 1 - eo i (length b) w = eo (length a - i) (length (fl b)) (length a - 1 - w)).
    { intros w Hw. rewrite fl_length. unfold eo. destruct (Nat.ltb_spec w i), (Nat.ltb_spec (length a - 1 - w) (length a - i)); lia. }
    rewrite K by exact A. assert (Ex : x = eo (length a - i) (length (fl b)) (length a - 1 - j)) by (rewrite <- K by exact Hj; lia).
    rewrite Ex. rewrite ins_eo; [|exact Hf|rewrite fl_length; lia]. rewrite nth_fl by lia. do 2 f_equal. f_equal. lia.
  - rewrite ins_ei by auto. destruct (Mb j Hj) as [A _]. assert (Ex : x = length b - 1 - j + (length a - i)) by lia. rewrite Ex.
    rewrite ins_ei; [|exact Hf|rewrite fl_length; lia]. rewrite nth_fl by lia. replace (length b - 1 - (length b - 1 - j)) with j by lia. lia.
Qed.
Theorem compose_fl a b m : crossingless a -> crossingless b -> m <= length a -> m <= length b ->
  exists ab n, compose a b m = Ok (ab, n) /\ compose (fl b) (fl a) m = Ok (fl ab, n).
Proof.
  intros Ca Cb Ha Hb. destruct (compose_ok a b m Ca Cb Hb Ha) as [ab [n [E [Lab [Cab G]]]]]. exists ab, n. split; [exact E|].
  pose proof (crossingless_fl _ Ca) as Fa. pose proof (crossingless_fl _ Cb) as Fb.
  apply compose_glued; auto; rewrite ?fl_length; auto; [lia|].
  set (phi := fun x => match x with Lo i => Up (length b - 1 - i) | Up i => Lo (length a - 1 - i) end).
  pose proof (pD_matching a b (crossingless_matched _ Ca) (crossingless_matched _ Cb)) as M. pose proof (pgood a b m Hb Ha) as Gd.
  assert (H : glued (pD (fl b) (fl a)) (pf (fl b) (fl a)) (map (fun p => (phi (fst p), phi (snd p))) (pgs (length b) m)) (read (fl a) m (fl ab)) n).
  { apply (glued_relabel phi (pD a b) (pf a b) _ (read b m ab) n); auto.
    - intros [i|i] [j|j]; cbn; intros Hi Hj [=]; f_equal; lia.
    - intros [i|i]; cbn; rewrite fl_length; split.
      + intros Hi. exists (Up (length a - 1 - i)). cbn. split; [lia|f_equal; lia].
      + intros [[j|j] [Hj [=]]]. cbn in Hj. lia.
      + intros Hi. exists (Lo (length b - 1 - i)). cbn. split; [lia|f_equal; lia].
      + intros [[j|j] [Hj [=]]]. cbn in Hj. lia.
    - intros [i|i]; cbn; intros Hi; f_equal; rewrite nth_fl by lia; f_equal; f_equal; lia.
    - intros x Bx. rewrite <- (outer_code a b m Hb Ha x Bx). pose proof (code_lt a b m Hb Ha x Bx) as Hi. set (i := code _ _ x) in *.
      rewrite (read_outer b m (length a)) by auto.
      assert (K : forall j, j < length ab -> phi (outer (length b - m) m j) = outer (length (fl a) - m) m (length ab - 1 - j)).
      { intros j Hj. rewrite fl_length. unfold outer. destruct (Nat.ltb_spec j (length b - m)), (Nat.ltb_spec (length ab - 1 - j) (length a - m)); cbn; try lia; f_equal; lia. }
      assert (Hn : nth i ab 0 < length ab) by (apply Cab; lia).
      rewrite !K by lia. rewrite (read_outer (fl a) m (length b)); rewrite ?fl_length; try lia. f_equal. rewrite nth_fl by lia. do 2 f_equal. lia. }
  eapply glued_ext; [| | | | |exact H]; auto; [tauto| |].
  - intros x y I. apply in_map_iff in I. destruct I as [[u v] [[= <- <-] I]]. rewrite in_pg in I. destruct I as [k [Hk [-> ->]]]. right. cbn.
    apply in_map_iff. exists k. split; [f_equal; f_equal; lia|apply in_seq; lia].
  - intros x y I. apply in_map_iff in I. destruct I as [k [[= <- <-] I]]. apply in_seq in I. right. apply in_map_iff.
    exists (Lo (length b - 1 - k), Up k). split; [cbn; f_equal; f_equal; lia|]. apply in_pg. exists k. repeat split; lia.
Qed.
