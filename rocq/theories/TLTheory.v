(** TLTheory.v – correctness of [is_crossingless_matching], [compose] and the
    diagram constructors. *)
From Verif Require Import Base ModelTL SpecTL GlueTheory GlueWalk ComposeTheory.
From Coq Require Import Relations Permutation.

(** ** is_crossingless_matching *)
Lemma rev_seq_S i : rev (seq 0 (S i)) = i :: rev (seq 0 i).
Proof. now rewrite seq_S, rev_app_distr. Qed.
Lemma in_rev_seq i j : In j (rev (seq 0 i)) <-> j < i.
Proof. rewrite <- in_rev, in_seq. lia. Qed.
Lemma filter_head_max P i h l : filter P (rev (seq 0 i)) = h :: l -> h < i /\ P h = true /\ forall j, j < i -> P j = true -> j <= h.
Proof.
  induction i as [|i IH]; intros H; [discriminate|]. rewrite rev_seq_S in H. cbn [filter] in H. destruct (P i) eqn:E.
  - injection H as <- <-. repeat split; auto; lia.
  - destruct (IH H) as [A [B C]]. split; [lia|]. split; [exact B|]. intros j Hj Pj. apply C; [|exact Pj].
    destruct (Nat.eq_dec j i) as [->|]; [congruence|lia].
Qed.
Lemma filter_filter {A} (P Q : A -> bool) l : filter P (filter Q l) = filter (fun x => Q x && P x) l.
Proof. induction l as [|x l IH]; [reflexivity|]. cbn. destruct (Q x); cbn; [destruct (P x); now rewrite IH|exact IH]. Qed.
Lemma filter_all {A} (P : A -> bool) l : (forall x, In x l -> P x = true) -> filter P l = l.
Proof. induction l as [|x l IH]; intros H; [reflexivity|]. cbn. rewrite H by now left. f_equal. apply IH. intros y Hy. apply H. now right. Qed.

Section Stack.
Context (t : list nat) (M : matched t).
Local Notation N := (length t).
Local Notation T i := (nth i t 0).
Definition stk (i : nat) : list nat := map (fun j => T j) (filter (fun j => i <=? T j) (rev (seq 0 i))).
(** no crossing among arcs the first of which closes at or after i *)
Definition nc_from (i : nat) : Prop := forall j l, l < N -> j < l -> i <= T j -> l < T j -> T j < T l -> False.
Lemma icm_loop_ok k : forall i, i + k = N ->
  exists b, icm_loop (map Z.of_nat (skipn i t)) (Z.of_nat i) (map Z.of_nat (stk i)) = Ok b /\ (b = true <-> nc_from i).
Proof.
  induction k as [|k IH]; intros i Hi.
  - rewrite skipn_all2 by lia. exists true. split; [reflexivity|]. split; [|reflexivity]. intros _ j l Hl Hjl H1 H2 H3.
    destruct (M j ltac:(lia)) as [A _]. lia.
  - assert (Hlt : i < N) by lia. destruct (M i Hlt) as [A [B C]].
    assert (Es : skipn i t = T i :: skipn (S i) t).
    { clear - Hlt. revert i Hlt. induction t as [|x l IHl]; intros i H; [cbn in H; lia|]. destruct i; [reflexivity|]. cbn. apply IHl. cbn in H. lia. }
    rewrite Es. cbn [map icm_loop]. replace (Z.of_nat i + 1)%Z with (Z.of_nat (S i)) by lia.
    destruct (Z.ltb_spec (Z.of_nat i) (Z.of_nat (T i))) as [Hx|Hx].
    + assert (E : stk (S i) = T i :: stk i).
      { unfold stk. rewrite rev_seq_S. cbn [filter map]. destruct (Nat.leb_spec (S i) (T i)); [|lia]. cbn [map]. f_equal. f_equal.
        apply filter_ext_in. intros j Hj. apply in_rev_seq in Hj. destruct (Nat.leb_spec (S i) (T j)), (Nat.leb_spec i (T j)); auto; try lia.
        exfalso. assert (T j = i) by lia. destruct (M j ltac:(lia)) as [_ [_ Cj]]. rewrite H2 in Cj. cbn beta in *. lia. }
      change (Z.of_nat (T i) :: map Z.of_nat (stk i)) with (map Z.of_nat (T i :: stk i)). rewrite <- E.
      destruct (IH (S i) ltac:(lia)) as [b [Eb Hb]]. exists b. split; [exact Eb|]. rewrite Hb. split; intros K j l H1 H2 H3 H4 H5.
      * destruct (Nat.eq_dec (T j) i) as [Ej|]; [|apply (K j l); auto; lia]. destruct (M j ltac:(lia)) as [_ [_ Cj]]. rewrite Ej in Cj. cbn beta in *. lia.
      * apply (K j l); auto; lia.
    + assert (Hx' : T i < i) by lia. set (x := T i) in *.
      assert (Hxs : In x (filter (fun j => i <=? T j) (rev (seq 0 i)))).
      { apply filter_In. split; [now apply in_rev_seq|]. apply Nat.leb_le. lia. }
      destruct (filter (fun j => i <=? T j) (rev (seq 0 i))) as [|h rest] eqn:Ef; [destruct Hxs|].
      destruct (filter_head_max _ _ _ _ Ef) as [H1 [H2 H3]]. apply Nat.leb_le in H2.
      assert (Hxh : x <= h) by (apply H3; [exact Hx'|apply Nat.leb_le; lia]).
      unfold stk at 1. rewrite Ef. cbn [map].
      destruct (Z.eqb_spec (Z.of_nat (T h)) (Z.of_nat i)) as [E|E]; cbn [negb].
      * assert (h = x). { destruct (M h ltac:(lia)) as [_ [_ Ch]]. assert (T h = i) by lia. cbn beta in *. rewrite H in Ch. exact (eq_sym Ch). }
        rewrite H in *. clear h H. assert (E' : map (fun j => T j) rest = stk (S i)).
        { unfold stk. f_equal. rewrite rev_seq_S. cbn [filter]. fold x. destruct (Nat.leb_spec (S i) x); [lia|].
          transitivity (filter (fun j => negb (j =? x)) (filter (fun j => i <=? T j) (rev (seq 0 i)))).
          - rewrite Ef. cbn [filter]. rewrite Nat.eqb_refl. cbn [negb]. symmetry. apply filter_all. intros j Hj.
            assert (ND : NoDup (filter (fun j => i <=? T j) (rev (seq 0 i)))) by (apply NoDup_filter, NoDup_rev, seq_NoDup).
            rewrite Ef in ND. apply NoDup_cons_iff in ND. destruct (Nat.eqb_spec j x) as [Ej|]; [rewrite Ej in Hj; tauto|reflexivity].
          - rewrite filter_filter. apply filter_ext_in. intros j Hj. apply in_rev_seq in Hj.
            destruct (Nat.leb_spec i (T j)), (Nat.leb_spec (S i) (T j)), (Nat.eqb_spec j x) as [Ej|Nj]; cbn [andb negb]; auto; try (rewrite Ej in *; lia); try lia.
            exfalso. assert (Tj : T j = i) by lia. destruct (M j ltac:(lia)) as [_ [_ Cj]]. rewrite Tj in Cj. apply Nj. exact (eq_sym Cj). }
        rewrite E'. destruct (IH (S i) ltac:(lia)) as [b [Eb Hb]]. exists b. split; [exact Eb|]. rewrite Hb. split; intros K j l K1 K2 K3 K4 K5.
        -- destruct (Nat.eq_dec (T j) i) as [Ej|]; [|apply (K j l); auto; lia].
           assert (j = x) by (destruct (M j ltac:(lia)) as [_ [_ Cj]]; rewrite Ej in Cj; exact (eq_sym Cj)). rewrite H in *.
           assert (l <= x); [|lia]. apply H3; [lia|]. apply Nat.leb_le. lia.
        -- apply (K j l); auto; lia.
      * exists false. split; [reflexivity|]. split; [discriminate|]. intros K. exfalso. assert (Nh : x <> h) by (intros Exh; apply E; f_equal; rewrite <- Exh; exact C).
        assert (TX : T x = i) by exact C. apply (K x h); rewrite ?TX; cbn beta in *; lia.
Qed.
End Stack.

Lemma icm_entry_spec s i : i < length s ->
  icm_entry s i = true <-> (let x := nth i s (-1)%Z in (0 <= x < Z.of_nat (length s))%Z /\ x <> Z.of_nat i /\ nth (Z.to_nat x) s (-1)%Z = Z.of_nat i).
Proof.
  intros H. unfold icm_entry. cbv zeta. rewrite !andb_true_iff, negb_true_iff, Z.eqb_neq, Z.eqb_eq, Z.leb_le, Z.ltb_lt. tauto.
Qed.
Theorem icm_spec s : exists b, is_crossingless_matching s = Ok b /\ (b = true <-> crossinglessZ s).
Proof.
  unfold is_crossingless_matching. destruct (forallb (icm_entry s) (seq 0 (length s))) eqn:F; cbn [negb].
  - rewrite forallb_forall in F.
    assert (F' : forall i, i < length s -> let x := nth i s (-1)%Z in (0 <= x < Z.of_nat (length s))%Z /\ x <> Z.of_nat i /\ nth (Z.to_nat x) s (-1)%Z = Z.of_nat i).
    { intros i Hi. apply icm_entry_spec; [exact Hi|]. apply F, in_seq. lia. }
    clear F. set (t := map Z.to_nat s). assert (Lt : length t = length s) by apply map_length.
    assert (Nt : forall i, i < length s -> Z.of_nat (nth i t 0) = nth i s (-1)%Z).
    { intros i Hi. unfold t. change 0 with (Z.to_nat (-1)). rewrite map_nth. destruct (F' i Hi) as [A _]. lia. }
    assert (Es : s = map Z.of_nat t).
    { apply (nth_ext_len _ _ (length s) (-1)%Z); auto; [now rewrite map_length|]. intros i Hi. rewrite <- Nt by exact Hi.
      rewrite (nth_indep (map Z.of_nat t) _ (Z.of_nat 0)) by (rewrite map_length; lia). now rewrite map_nth. }
    assert (Mt : matched t).
    { intros i Hi. rewrite Lt in Hi. destruct (F' i Hi) as [A [B C]]. cbv zeta in *. rewrite <- (Nt i Hi) in A, B, C. rewrite Nat2Z.id in C.
      assert (H1 : nth i t 0 < length t) by lia. repeat split; [exact H1|lia|]. apply Nat2Z.inj. rewrite Nt by lia. exact C. }
    destruct (icm_loop_ok t Mt (length t) 0 eq_refl) as [b [Eb Hb]]. exists b. split.
    + rewrite Es. exact Eb.
    + rewrite Hb. unfold nc_from, crossinglessZ. rewrite Lt. split.
      * intros K. split.
        -- intros i Hi. destruct (F' (Z.to_nat i) ltac:(lia)) as [A [B C]]. rewrite Z2Nat.id in B, C by lia. auto.
        -- intros i j Hi Hj [H1 [H2 H3]]. rewrite <- !Nt in * by lia. apply (K (Z.to_nat i) (Z.to_nat j)); lia.
      * intros [_ K] j l Hl Hjl _ H1 H2. apply (K (Z.of_nat j) (Z.of_nat l)); rewrite ?Nat2Z.id, <- ?Nt by lia; lia.
  - exists false. split; [reflexivity|]. split; [discriminate|]. intros [K _]. exfalso.
    enough (forallb (icm_entry s) (seq 0 (length s)) = true) by congruence. apply forallb_forall. intros i Hi. apply in_seq in Hi.
    apply icm_entry_spec; [lia|]. specialize (K (Z.of_nat i) ltac:(lia)). rewrite Nat2Z.id in K. exact K.
Qed.
Lemma crossinglessZ_nat t : crossinglessZ (map Z.of_nat t) <-> crossingless t.
Proof.
  unfold crossinglessZ, crossingless. rewrite map_length.
  assert (Nt : forall i, i < length t -> nth i (map Z.of_nat t) (-1)%Z = Z.of_nat (nth i t 0)).
  { intros i Hi. rewrite (nth_indep _ _ (Z.of_nat 0)) by (rewrite map_length; lia). apply map_nth. }
  split; intros [A B]; split.
  - intros i Hi. specialize (A (Z.of_nat i) ltac:(lia)). rewrite Nat2Z.id, Nt in A by exact Hi. destruct A as [A1 [A2 A3]].
    rewrite Nat2Z.id, Nt in A3 by lia. lia.
  - intros i j Hj [H1 [H2 H3]]. specialize (B (Z.of_nat i) (Z.of_nat j) ltac:(lia) ltac:(lia)). rewrite !Nat2Z.id, !Nt in B by lia. apply B. lia.
  - intros i Hi. destruct (A (Z.to_nat i) ltac:(lia)) as [A1 [A2 A3]]. rewrite Nt by lia. split; [lia|]. split; [lia|]. rewrite Nat2Z.id, Nt by lia. lia.
  - intros i j Hi Hj [H1 [H2 H3]]. rewrite !Nt in * by lia. apply (B (Z.to_nat i) (Z.to_nat j)); lia.
Qed.
Theorem is_cm_spec t : exists b, is_cm t = Ok b /\ (b = true <-> crossingless t).
Proof. unfold is_cm. destruct (icm_spec (map Z.of_nat t)) as [b [E H]]. exists b. split; [exact E|]. now rewrite H, crossinglessZ_nat. Qed.
Lemma is_cm_true t : crossingless t -> is_cm t = Ok true.
Proof. intros C. destruct (is_cm_spec t) as [b [E H]]. apply H in C. now subst. Qed.
Lemma is_cm_Ok t : is_cm t = Ok true -> crossingless t.
Proof. intros C. destruct (is_cm_spec t) as [b [E H]]. apply H. congruence. Qed.
Lemma crossingless_matched t : crossingless t -> matched t.
Proof. intros [A _]. exact A. Qed.

(** ** compose *)
(** crossingless as the planarity of GlueWalk *)
Lemma crossingless_nocross t : matched t -> (crossingless t <-> nocross (fun i => i) (fun i => i < length t) (fun i => nth i t 0)).
Proof.
  intros M. split.
  - intros [_ NC] x y Hx Hy H. destruct (M x Hx) as [X1 [X2 X3]], (M y Hy) as [Y1 [Y2 Y3]].
    set (X := nth x t 0) in *. set (Y := nth y t 0) in *.
    assert (Y <> x) by (intros E; rewrite E in Y3; fold X in Y3; lia). assert (Y <> X) by (intros E; rewrite E, X3 in Y3; lia).
    pose proof (NC x y Hy) as K1. fold X Y in K1. pose proof (NC Y x Hx) as K2. rewrite Y3 in K2. fold X in K2. lia.
  - intros NC. split; [exact M|]. intros i j Hj [H1 [H2 H3]]. unfold nocross in NC. cbv beta in NC. pose proof (NC i j ltac:(lia) Hj ltac:(lia)). lia.
Qed.
Definition ppos (L : nat) (p : point) : nat := match p with Lo i => i | Up i => L + i end.
Section Planar.
Context (upper lower : list nat) (mid : nat) (CU : crossingless upper) (CL : crossingless lower).
Context (HmL : mid <= length lower) (HmU : mid <= length upper).
Local Notation L := (length lower).
Local Notation U := (length upper).
Local Notation bot := (length lower - mid).
Local Notation D := (pD upper lower).
Local Notation f := (pf upper lower).
Let MU : matched upper := crossingless_matched _ CU.
Let ML : matched lower := crossingless_matched _ CL.
Lemma pnocross : nocross (ppos L) D f.
Proof.
  pose proof (proj1 (crossingless_nocross _ MU) CU) as NU. pose proof (proj1 (crossingless_nocross _ ML) CL) as NL.
  intros [i|i] [j|j]; cbn; intros Hi Hj H.
  - now apply NL.
  - destruct (ML i Hi). lia.
  - lia.
  - assert (i < nth j upper 0 < nth i upper 0); [|lia]. apply NU; auto; lia.
Qed.
Lemma ppos_inj : pos_inj (ppos L) D.
Proof. intros [i|i] [j|j]; cbn; intros Hi Hj H; try lia; f_equal; lia. Qed.
(** the middle pairs are removed from the inside out *)
Lemma pcapping : capping (ppos L) D (pgs L mid).
Proof.
  unfold pgs. assert (K : forall k s (E : point -> Prop), s + k <= mid ->
     (forall z, E z <-> match z with Lo i => i < L - s | Up i => s <= i < U end) ->
     capping (ppos L) E (map (fun k => (Lo (L - 1 - k), Up k)) (seq s k))).
  { induction k as [|k IH]; intros s E H HE; cbn [seq map]; [constructor|]. constructor.
    - apply HE. lia.
    - apply HE. lia.
    - cbn. lia.
    - intros [i|i] Hz; apply HE in Hz; cbn; lia.
    - apply IH; [lia|]. intros z. rewrite bd_one, HE. destruct z as [i|i].
      + split; [intros [A [B _]]|intros A; repeat split; try lia; try congruence]. 
        * assert (i <> L - 1 - s) by congruence. lia.
        * intros [= ->]. lia.
      + split; [intros [A [_ B]]|intros A; repeat split; try lia; try congruence].
        * assert (i <> s) by congruence. lia.
        * intros [= ->]. lia. }
  apply K; [lia|]. intros [i|i]; cbn; lia.
Qed.
Lemma read_crossingless r n : length r = bot + (U - mid) -> glued D f (pgs L mid) (read lower mid r) n -> crossingless r.
Proof.
  intros Lr G. pose proof (glued_planar point_dec (ppos L) D f _ _ _ (pD_matching upper lower MU ML) (pgood upper lower mid HmL HmU) ppos_inj pnocross pcapping G) as NC.
  assert (LT : forall i, i < length r -> nth i r 0 < length r).
  { intros i Hi. rewrite Lr in *. pose proof (gl_match _ _ _ _ _ G _ (outer_bd upper lower mid HmL HmU i Hi)) as [A _].
    unfold read in A. rewrite (code_outer upper lower mid HmL HmU) in A by exact Hi. apply pbd in A; auto. unfold outer in A.
    destruct (Nat.ltb_spec (nth i r 0) bot); lia. }
  assert (OI : forall i j, i < length r -> j < length r -> outer bot mid i = outer bot mid j -> i = j).
  { intros i j Hi Hj E. rewrite Lr in *. rewrite <- (code_outer upper lower mid HmL HmU i Hi), <- (code_outer upper lower mid HmL HmU j Hj). now rewrite E. }
  assert (RO : forall i, i < length r -> read lower mid r (outer bot mid i) = outer bot mid (nth i r 0)).
  { intros i Hi. unfold read. rewrite Lr in Hi. now rewrite (code_outer upper lower mid HmL HmU). }
  assert (Mr : matched r).
  { intros i Hi. pose proof (LT i Hi) as Hn. split; [exact Hn|].
    pose proof (gl_match _ _ _ _ _ G _ (outer_bd upper lower mid HmL HmU i ltac:(lia))) as [_ [B C]]. rewrite RO in B, C by exact Hi. rewrite RO in C by exact Hn.
    split; [intros E; apply B; now rewrite E|]. apply OI; auto. }
  apply crossingless_nocross; [exact Mr|]. intros x y Hx Hy H.
  assert (PO : forall i, i < length r -> ppos L (outer bot mid i) = if i <? bot then i else i + 2 * mid).
  { intros i Hi. unfold outer. destruct (Nat.ltb_spec i bot); cbn; lia. }
  pose proof (NC (outer bot mid x) (outer bot mid y) (outer_bd upper lower mid HmL HmU x ltac:(lia)) (outer_bd upper lower mid HmL HmU y ltac:(lia))) as K.
  pose proof (LT x Hx). pose proof (LT y Hy).
  rewrite !RO, !PO in K by auto.
  destruct (Nat.ltb_spec x bot), (Nat.ltb_spec y bot), (Nat.ltb_spec (nth x r 0) bot), (Nat.ltb_spec (nth y r 0) bot); lia.
Qed.
Theorem compose_ok : exists r n, compose upper lower mid = Ok (r, n) /\ length r = bot + (U - mid) /\ crossingless r /\
  glued D f (pgs L mid) (read lower mid r) n.
Proof.
  destruct (compose_loops upper lower mid MU ML HmL HmU) as [r [n [Lr [G E]]]]. exists r, n.
  pose proof (read_crossingless r n Lr G) as Cr. rewrite E, is_cm_true by exact Cr. auto.
Qed.
End Planar.
