(** TLBasis.v – enumeration of crossingless matchings and of cell bases. *)
From Verif Require Import Base ModelTL SpecTL ComposeTheory TLTheory TLAlg2.
From Coq Require Import Permutation Sorting.Sorted.
Local Arguments Nat.ltb : simpl never.
Local Arguments Nat.sub : simpl never.

(** ** Decomposition of a matching at its first arc *)
Definition node (l r : list nat) : list nat := S (length l) :: map S l ++ 0 :: map (fun x => x + (length l + 2)) r.
Lemma crossingless_nil : crossingless [].
Proof. split; intros i; cbn; lia. Qed.
Lemma crossingless_cap : crossingless [1; 0].
Proof.
  split.
  - intros [|[|i]] H; cbn in *; lia.
  - intros [|[|i]] [|[|j]] H; cbn in *; try lia.
Qed.
Definition node' (l r : list nat) : list nat := ins (ins [1; 0] l 1) r (length l + 2).
Lemma node'_length l r : length (node' l r) = length l + length r + 2.
Proof. unfold node'. rewrite ins_length; rewrite ins_length; cbn; lia. Qed.
Lemma node'_crossingless l r : crossingless l -> crossingless r -> crossingless (node' l r).
Proof. intros. unfold node'. apply crossingless_ins; auto; [rewrite ins_length; cbn; lia|]. apply crossingless_ins; auto using crossingless_cap. cbn. lia. Qed.
Lemma nth_node' l r x : matched l -> nth x (node' l r) 0 =
  if x =? 0 then S (length l) else if x <? S (length l) then S (nth (x - 1) l 0)
  else if x =? S (length l) then 0 else if x <? length l + length r + 2 then nth (x - (length l + 2)) r 0 + (length l + 2) else 0.
Proof.
  intros Ml. unfold node'. set (o := ins [1; 0] l 1). assert (Lo : length o = length l + 2) by (unfold o; rewrite ins_length; cbn; lia).
  assert (E : forall j, j < length o -> eo (length l + 2) (length r) j = j) by (intros j Hj; unfold eo; destruct (Nat.ltb_spec j (length l + 2)); lia).
  assert (E' : forall j, j < length o -> nth j (ins o r (length l + 2)) 0 = eo (length l + 2) (length r) (nth j o 0)).
  { intros j Hj. rewrite <- (ins_eo o r (length l + 2)) by lia. now rewrite E. }
  assert (N0 : nth 0 o 0 = S (length l)). { pose proof (ins_eo [1; 0] l 1 ltac:(cbn; lia) 0 ltac:(cbn; lia)) as Q. unfold eo in Q. cbn in Q. exact Q. }
  assert (N1 : nth (S (length l)) o 0 = 0). { pose proof (ins_eo [1; 0] l 1 ltac:(cbn; lia) 1 ltac:(cbn; lia)) as Q. unfold eo in Q. cbn in Q. exact Q. }
  destruct (Nat.eqb_spec x 0) as [->|]; [rewrite E', N0 by lia; apply E; lia|].
  destruct (Nat.ltb_spec x (S (length l))).
  - rewrite E' by lia. pose proof (ins_ei [1; 0] l 1 ltac:(cbn; lia) (x - 1) ltac:(lia)) as Q. replace (x - 1 + 1) with x in Q by lia. fold o in Q. rewrite Q.
    destruct (Ml (x - 1) ltac:(lia)) as [A _]. rewrite E; lia.
  - destruct (Nat.eqb_spec x (S (length l))) as [->|]; [rewrite E', N1 by lia; apply E; lia|].
    destruct (Nat.ltb_spec x (length l + length r + 2)).
    + pose proof (ins_ei o r (length l + 2) ltac:(lia) (x - (length l + 2)) ltac:(lia)) as Q. replace (x - (length l + 2) + (length l + 2)) with x in Q by lia. exact Q.
    + apply nth_overflow. rewrite ins_length by lia. lia.
Qed.
Lemma node_node' l r : matched l -> node l r = node' l r.
Proof.
  intros Ml. apply (nth_ext_len _ _ (length l + length r + 2) 0).
  - unfold node. cbn. rewrite app_length, map_length. cbn. rewrite map_length. lia.
  - apply node'_length.
  - intros x Hx. rewrite nth_node' by exact Ml. unfold node. destruct x as [|x]; [reflexivity|]. destruct (Nat.eqb_spec (S x) 0); [lia|]. cbn [nth].
    destruct (Nat.ltb_spec (S x) (S (length l))).
    + rewrite app_nth1 by (rewrite map_length; lia). rewrite (nth_map_in _ _ _ 0) by lia. do 2 f_equal. lia.
    + rewrite app_nth2; rewrite map_length; [|lia]. destruct (Nat.eqb_spec (S x) (S (length l))); [now replace (x - length l) with 0 by lia|].
      destruct (x - length l) as [|y] eqn:Ey; [lia|]. cbn [nth]. destruct (Nat.ltb_spec (S x) (length l + length r + 2)); [|lia].
      rewrite (nth_map_in _ _ _ 0) by lia. f_equal. f_equal. lia.
Qed.
Lemma decompose d : crossingless d -> d <> [] -> exists l r, crossingless l /\ crossingless r /\ d = node l r.
Proof.
  intros [M NC] Hd. assert (L0 : 0 < length d) by (destruct d; [congruence|cbn; lia]).
  destruct (M 0 L0) as [A [B C]]. set (p := nth 0 d 0) in *.
  assert (I1 : forall j, 0 < j < p -> 0 < nth j d 0 < p).
  { intros j Hj. destruct (M j ltac:(lia)) as [A' [B' C']]. pose proof (NC 0 j ltac:(lia)) as K. fold p in K.
    assert (nth j d 0 <> p) by (intros E; rewrite E in C'; lia). assert (nth j d 0 <> 0) by (intros E; rewrite E in C'; fold p in C'; lia). lia. }
  assert (I2 : forall j, p < j < length d -> p < nth j d 0 < length d).
  { intros j Hj. destruct (M j ltac:(lia)) as [A' [B' C']].
    assert (nth j d 0 <> p) by (intros E; rewrite E in C'; lia). assert (nth j d 0 <> 0) by (intros E; rewrite E in C'; fold p in C'; lia).
    destruct (Nat.lt_ge_cases (nth j d 0) p); [|lia]. pose proof (I1 (nth j d 0) ltac:(lia)) as Q. rewrite C' in Q. lia. }
  set (l := map (fun i => nth (S i) d 0 - 1) (seq 0 (p - 1))). set (r := map (fun i => nth (i + p + 1) d 0 - (p + 1)) (seq 0 (length d - p - 1))).
  assert (Ll : length l = p - 1) by (unfold l; now rewrite map_length, seq_length).
  assert (Lr : length r = length d - p - 1) by (unfold r; now rewrite map_length, seq_length).
  assert (Nl : forall i, i < p - 1 -> nth i l 0 = nth (S i) d 0 - 1) by (intros i Hi; unfold l; now rewrite nth_map_seq).
  assert (Nr : forall i, i < length d - p - 1 -> nth i r 0 = nth (i + p + 1) d 0 - (p + 1)) by (intros i Hi; unfold r; now rewrite nth_map_seq).
  assert (Cl : crossingless l).
  { split; rewrite Ll.
    - intros i Hi. rewrite Nl by exact Hi. pose proof (I1 (S i) ltac:(lia)) as Q. destruct (M (S i) ltac:(lia)) as [_ [B' C']].
      split; [lia|]. split; [lia|]. rewrite Nl by lia. replace (S (nth (S i) d 0 - 1)) with (nth (S i) d 0) by lia. rewrite C'. lia.
    - intros i j Hj [H1 [H2 H3]]. rewrite !Nl in * by lia. apply (NC (S i) (S j)); lia. }
  assert (Cr : crossingless r).
  { split; rewrite Lr.
    - intros i Hi. rewrite Nr by exact Hi. pose proof (I2 (i + p + 1) ltac:(lia)) as Q. destruct (M (i + p + 1) ltac:(lia)) as [_ [B' C']].
      split; [lia|]. split; [lia|]. rewrite Nr by lia. replace (nth (i + p + 1) d 0 - (p + 1) + p + 1) with (nth (i + p + 1) d 0) by lia. rewrite C'. lia.
    - intros i j Hj [H1 [H2 H3]]. rewrite !Nr in * by lia. apply (NC (i + p + 1) (j + p + 1)); lia. }
  exists l, r. split; [exact Cl|]. split; [exact Cr|]. rewrite node_node' by now apply crossingless_matched.
  apply (nth_ext_len _ _ (length d) 0); auto; [rewrite node'_length; lia|]. intros x Hx. rewrite nth_node' by now apply crossingless_matched.
  rewrite Ll. destruct (Nat.eqb_spec x 0) as [->|]; [fold p; lia|]. destruct (Nat.ltb_spec x (S (p - 1))).
  - rewrite Nl by lia. pose proof (I1 x ltac:(lia)) as Q. replace (S (x - 1)) with x by lia. lia.
  - destruct (Nat.eqb_spec x (S (p - 1))) as [->|]; [replace (S (p - 1)) with p by lia; exact C|]. destruct (Nat.ltb_spec x (p - 1 + length r + 2)); [|lia].
    rewrite Nr by lia. pose proof (I2 x ltac:(lia)) as Q. replace (x - (p - 1 + 2) + p + 1) with x by lia. lia.
Qed.
Lemma crossingless_even d : crossingless d -> exists m, length d = 2 * m.
Proof.
  remember (length d) as N. revert d HeqN. induction N as [N IH] using lt_wf_ind. intros d -> C. destruct (length d) as [|k] eqn:E.
  - now exists 0.
  - destruct (decompose d C) as [l [r [Cl [Cr Ed]]]]; [intros ->; discriminate|].
    assert (L : length d = length l + length r + 2) by (rewrite Ed, (node_node' l r (crossingless_matched l Cl)); apply node'_length).
    destruct (IH (length l) ltac:(lia) l eq_refl Cl) as [a Ha], (IH (length r) ltac:(lia) r eq_refl Cr) as [b Hb]. exists (a + b + 1). lia.
Qed.

(** ** All matchings of 2m points *)
Fixpoint dyck (fuel m : nat) : list (list nat) :=
  match fuel with
  | 0 => []
  | S fuel' => if m =? 0 then [[]] else
      flat_map (fun left => flat_map (fun l => map (node l) (dyck fuel' (m - left - 1))) (dyck fuel' left)) (seq 0 m)
  end.
Lemma node_inj l r l' r' : node l r = node l' r' -> l = l' /\ r = r'.
Proof.
  unfold node. intros [= L E]. assert (length (map S l) = length (map S l')) by now rewrite !map_length.
  assert (E1 : map S l = map S l' /\ 0 :: map (fun x => x + (length l + 2)) r = 0 :: map (fun x => x + (length l' + 2)) r').
  { clear - E H. revert E H. generalize (0 :: map (fun x => x + (length l + 2)) r), (0 :: map (fun x => x + (length l' + 2)) r'), (map S l), (map S l').
    intros t t' u. induction u as [|x u IH]; intros [|y u'] E H; cbn in *; try discriminate; auto. injection E as -> E. destruct (IH u' E) as [-> ->]; auto. }
  destruct E1 as [E1 E2]. injection E2 as E2. rewrite L in E2. split.
  - clear - E1. revert l' E1. induction l as [|x l IH]; intros [|y l'] E; cbn in *; try discriminate; auto. injection E as -> E. f_equal. auto.
  - clear - E2. revert r' E2. induction r as [|x l IH]; intros [|y l''] E; cbn in *; try discriminate; auto. injection E as E' E. f_equal; [lia|auto].
Qed.
Lemma node_length l r : length (node l r) = length l + length r + 2.
Proof. unfold node. cbn. rewrite app_length. cbn. rewrite !map_length. lia. Qed.
Lemma dyck_spec fuel : forall m, m < fuel -> forall d, In d (dyck fuel m) <-> crossingless d /\ length d = 2 * m.
Proof.
  induction fuel as [|fuel IH]; intros m Hm d; [lia|]. cbn [dyck]. destruct (Nat.eqb_spec m 0) as [->|Hm0].
  - split; [intros [<-|[]]; split; [apply crossingless_nil|reflexivity]|]. intros [_ L]. destruct d; [now left|discriminate].
  - rewrite in_flat_map. split.
    + intros [left [H1 H2]]. apply in_seq in H1. apply in_flat_map in H2. destruct H2 as [l [Hl H2]]. apply in_map_iff in H2. destruct H2 as [r [<- Hr]].
      apply IH in Hl; [|lia]. apply IH in Hr; [|lia]. destruct Hl as [Cl Ll], Hr as [Cr Lr]. rewrite node_length. split; [|lia].
      rewrite node_node' by now apply crossingless_matched. now apply node'_crossingless.
    + intros [C L]. destruct (decompose d C) as [l [r [Cl [Cr ->]]]]; [intros ->; cbn in L; lia|]. rewrite node_length in L.
      destruct (crossingless_even l Cl) as [x Hx], (crossingless_even r Cr) as [y Hy]. exists x. split; [apply in_seq; lia|].
      apply in_flat_map. exists l. split; [apply IH; [lia|auto]|]. apply in_map. apply IH; [lia|]. split; [exact Cr|lia].
Qed.
Lemma NoDup_flat_map {A B} (f : A -> list B) l : NoDup l -> (forall x, In x l -> NoDup (f x)) ->
  (forall x y z, In x l -> In y l -> In z (f x) -> In z (f y) -> x = y) -> NoDup (flat_map f l).
Proof.
  induction l as [|x l IH]; intros N H1 H2; [constructor|]. cbn. inversion N as [|? ? N1 N2]; subst. apply NoDup_app_intro.
  - apply H1. now left.
  - apply IH; auto; [intros y Hy; apply H1; now right|]. intros y z w Hy Hz. apply H2; now right.
  - intros z Hz K. apply in_flat_map in K. destruct K as [y [Hy K]]. assert (x = y) by (apply (H2 x y z); [now left|now right|assumption|assumption]). now subst.
Qed.
Lemma dyck_NoDup fuel : forall m, m < fuel -> NoDup (dyck fuel m).
Proof.
  induction fuel as [|fuel IH]; intros m Hm; [lia|]. cbn [dyck]. destruct (Nat.eqb_spec m 0) as [->|Hm0]; [repeat constructor; intros []|].
  apply NoDup_flat_map; [apply seq_NoDup| |].
  - intros x Hx. apply in_seq in Hx. apply NoDup_flat_map; [apply IH; lia| |].
    + intros l Hl. apply FinFun.Injective_map_NoDup; [intros a b E; now apply node_inj in E|apply IH; lia].
    + intros l l' z _ _ H H'. apply in_map_iff in H, H'. destruct H as [r [<- _]], H' as [r' [E _]]. now apply node_inj in E.
  - intros x y z Hx Hy H H'. apply in_seq in Hx, Hy. apply in_flat_map in H, H'. destruct H as [l [Hl H]], H' as [l' [Hl' H']].
    apply in_map_iff in H, H'. destruct H as [r [<- _]], H' as [r' [E _]]. apply node_inj in E. destruct E as [-> _].
    apply dyck_spec in Hl, Hl'; lia.
Qed.

(** ** generate_sequences *)
Definition kspec (Q : list nat -> Prop) (N e : nat) (KO : list nat -> list (list nat)) (k : list nat -> gen_st) : Prop :=
  forall s, length s = N -> Q s -> snd (k s) = KO (firstn e s) /\ length (fst (k s)) = N /\ firstn e (fst (k s)) = firstn e s /\ Q (fst (k s)).
Definition stable (Q : list nat -> Prop) (N i e : nat) : Prop := forall s j x, length s = N -> i <= j < e -> Q s -> Q (upd s j x).
Lemma firstn_upd_ge {A} (s : list A) i j x : i <= j -> firstn i (upd s j x) = firstn i s.
Proof.
  revert i j. induction s as [|y s IH]; intros i j H; [destruct j; reflexivity|]. destruct j as [|j]; cbn [upd].
  - now replace i with 0 by lia.
  - destruct i; [reflexivity|]. cbn. f_equal. apply IH. lia.
Qed.
Lemma firstn_S_upd {A} (s : list A) i x : i < length s -> firstn (S i) (upd s i x) = firstn i s ++ [x].
Proof. revert i. induction s as [|y s IH]; intros i H; [cbn in H; lia|]. destruct i; [reflexivity|]. cbn [upd]. change (y :: firstn (S i) (upd s i x) = y :: firstn i s ++ [x]). f_equal. apply IH. cbn in H. lia. Qed.
Lemma firstn_S_nth {A} (s : list A) i d : i < length s -> firstn (S i) s = firstn i s ++ [nth i s d].
Proof. revert i. induction s as [|y s IH]; intros i H; [cbn in H; lia|]. destruct i; [reflexivity|]. change (y :: firstn (S i) s = y :: firstn i s ++ [nth i s d]). f_equal. apply IH. cbn in H. lia. Qed.
Lemma firstn_le {A} (s t : list A) i j : i <= j -> firstn j s = firstn j t -> firstn i s = firstn i t.
Proof. intros H E. replace i with (Nat.min i j) by lia. now rewrite <- !firstn_firstn, E. Qed.

Lemma place_trees_spec fuel : forall size i k Q N KO, size < fuel -> i + 2 * size <= N -> kspec Q N (i + 2 * size) KO k -> stable Q N i (i + 2 * size) ->
  kspec Q N i (fun p => flat_map (fun d => KO (p ++ map (fun x => x + i) d)) (dyck fuel size)) (place_trees fuel i size k).
Proof.
  induction fuel as [|fuel IH]; intros size i k Q N KO Hs HN HK HQ; [lia|]. cbn [place_trees dyck]. destruct (Nat.eqb_spec size 0) as [->|H0].
  { intros s Ls Qs. replace (i + 2 * 0) with i in HK by lia. destruct (HK s Ls Qs) as [A [B [C D]]]. cbn [flat_map]. cbn [map]. rewrite !app_nil_r. rewrite A. auto. }
  set (F := fun '(s, out) left_size =>
             let l := i in let r := i + 1 + 2 * left_size in
             let s1 := upd (upd s l r) r l in
             let '(s2, out2) :=
               place_trees fuel (l + 1) left_size
                 (fun s => place_trees fuel (r + 1) (size - left_size - 1) k s) s1 in
             (s2, out ++ out2) : gen_st).
  set (O := fun p left => flat_map (fun d => KO (p ++ map (fun x => x + i) d)) (flat_map (fun l => map (node l) (dyck fuel (size - left - 1))) (dyck fuel left))).
  assert (Step : forall s out left, length s = N -> Q s -> left < size ->
     snd (F (s, out) left) = out ++ O (firstn i s) left /\ length (fst (F (s, out) left)) = N /\ firstn i (fst (F (s, out) left)) = firstn i s /\ Q (fst (F (s, out) left))).
  { intros s out left Ls Qs Hl. unfold F. set (r := i + 1 + 2 * left). set (s1 := upd (upd s i r) r i).
    assert (K2 : kspec Q N (r + 1) (fun p => flat_map (fun d => KO (p ++ map (fun x => x + (r + 1)) d)) (dyck fuel (size - left - 1))) (fun s => place_trees fuel (r + 1) (size - left - 1) k s)).
    { apply IH; try (unfold r; lia).
      - replace (r + 1 + 2 * (size - left - 1)) with (i + 2 * size) by (unfold r; lia). exact HK.
      - intros t j x Lt Hj Qt. apply HQ; auto. unfold r in *. lia. }
    set (Q' := fun s => Q s /\ nth r s 0 = i).
    assert (K1 : kspec Q' N r (fun p => flat_map (fun d => KO ((p ++ [i]) ++ map (fun x => x + (r + 1)) d)) (dyck fuel (size - left - 1))) (fun s => place_trees fuel (r + 1) (size - left - 1) k s)).
    { intros t Lt [Qt Nt]. destruct (K2 t Lt Qt) as [A [B [C D]]]. repeat split; auto.
      - rewrite A. apply flat_map_ext. intros d. do 2 f_equal. replace (r + 1) with (S r) by lia. rewrite (firstn_S_nth t r 0) by (rewrite Lt; unfold r; lia). now rewrite Nt.
      - apply (firstn_le _ _ r (r + 1)); [lia|exact C].
      - assert (R : r < N) by (unfold r; lia).
        assert (E : firstn r (fst (place_trees fuel (r + 1) (size - left - 1) k t)) ++ [nth r (fst (place_trees fuel (r + 1) (size - left - 1) k t)) 0] = firstn r t ++ [nth r t 0]).
        { rewrite <- !firstn_S_nth by lia. replace (S r) with (r + 1) by lia. exact C. }
        apply app_inj_tail in E. destruct E as [_ E]. congruence. }
    assert (K0 : kspec Q' N (i + 1) (fun p => flat_map (fun d => (fun p => flat_map (fun d => KO ((p ++ [i]) ++ map (fun x => x + (r + 1)) d)) (dyck fuel (size - left - 1))) (p ++ map (fun x => x + (i + 1)) d)) (dyck fuel left))
               (place_trees fuel (i + 1) left (fun s => place_trees fuel (r + 1) (size - left - 1) k s))).
    { apply (IH left (i + 1) (fun s => place_trees fuel (r + 1) (size - left - 1) k s) Q' N (fun p => flat_map (fun d => KO ((p ++ [i]) ++ map (fun x => x + (r + 1)) d)) (dyck fuel (size - left - 1)))); try lia.
      - replace (i + 1 + 2 * left) with r by (unfold r; lia). exact K1.
      - intros t j x Lt Hj [Qt Nt]. split; [apply HQ; auto; lia|]. rewrite nth_upd_neq by (unfold r; lia). exact Nt. }
    assert (L1 : length s1 = N) by (unfold s1; now rewrite !upd_length).
    assert (Q1 : Q' s1).
    { split; [unfold s1; apply HQ; [now rewrite upd_length|unfold r; lia|apply HQ; auto; lia]|]. unfold s1. apply nth_upd_eq. rewrite upd_length, Ls. unfold r. lia. }
    destruct (K0 s1 L1 Q1) as [A [B [C [D _]]]].
    assert (F1 : firstn (i + 1) s1 = firstn i s ++ [r]).
    { unfold s1. rewrite firstn_upd_ge by (unfold r; lia). replace (i + 1) with (S i) by lia. apply firstn_S_upd. lia. }
    change (place_trees fuel (i + 1) left _ s1) with (place_trees fuel (i + 1) left (fun s => place_trees fuel (r + 1) (size - left - 1) k s) s1).
    destruct (place_trees fuel (i + 1) left (fun s => place_trees fuel (r + 1) (size - left - 1) k s) s1) as [s2 out2]. cbn [fst snd] in *.
    split; [|split; [exact B|split; [|exact D]]].
    - f_equal. rewrite A, F1. unfold O.
      assert (E : forall l, In l (dyck fuel left) ->
        flat_map (fun d => KO ((((firstn i s ++ [r]) ++ map (fun x => x + (i + 1)) l) ++ [i]) ++ map (fun x => x + (r + 1)) d)) (dyck fuel (size - left - 1)) =
        flat_map (fun d => KO (firstn i s ++ map (fun x => x + i) d)) (map (node l) (dyck fuel (size - left - 1)))).
      { intros l Hll. apply dyck_spec in Hll; [|lia]. destruct Hll as [Cl Ll].
        rewrite !flat_map_concat_map, map_map. f_equal. apply map_ext. intros d. f_equal. unfold node. cbn [map]. rewrite map_app. cbn [map]. rewrite !map_map.
        rewrite <- !app_assoc. cbn [app]. f_equal. f_equal; [unfold r; lia|]. f_equal; [apply map_ext; intros; lia|]. f_equal. apply map_ext. intros. unfold r. lia. }
      clear A K0. revert E. generalize (fun d : list nat => KO (firstn i s ++ map (fun x => x + i) d)) as G. intros G.
      induction (dyck fuel left) as [|l ls IHl]; intros E; [reflexivity|]. cbn [flat_map]. rewrite flat_map_app. f_equal; [apply E; now left|].
      apply IHl. intros l' Hl'. apply E. now right.
    - transitivity (firstn i s1).
      + apply (firstn_le _ _ i (i + 1)); [lia|exact C].
      + unfold s1. rewrite !firstn_upd_ge by (unfold r; lia). reflexivity. }
  assert (Fold : forall ls s out, (forall x, In x ls -> x < size) -> length s = N -> Q s ->
     snd (fold_left F ls (s, out)) = out ++ flat_map (O (firstn i s)) ls /\ length (fst (fold_left F ls (s, out))) = N /\
     firstn i (fst (fold_left F ls (s, out))) = firstn i s /\ Q (fst (fold_left F ls (s, out)))).
  { induction ls as [|x ls IHl]; intros s out Hx Ls Qs; cbn [fold_left flat_map].
    - rewrite app_nil_r. auto.
    - destruct (Step s out x Ls Qs (Hx x (or_introl eq_refl))) as [A [B [C D]]]. destruct (F (s, out) x) as [s' out']. cbn [fst snd] in *.
      destruct (IHl s' out' (fun y Hy => Hx y (or_intror Hy)) B D) as [A' [B' [C' D']]]. split; [now rewrite A', A, C, <- app_assoc|]. split; [exact B'|]. split; [congruence|exact D']. }
  intros s Ls Qs. destruct (Fold (seq 0 size) s [] (fun x Hx => proj2 (proj1 (in_seq _ _ _) Hx)) Ls Qs) as [A [B [C D]]].
  change (fold_left _ (seq 0 size) (s, [])) with (fold_left F (seq 0 size) (s, [])). repeat split; auto. rewrite A. cbn [app]. unfold O.
  generalize (fun d : list nat => KO (firstn i s ++ map (fun x => x + i) d)) as G. intros G.
  clear A B C D. induction (seq 0 size) as [|x xs IHx]; [reflexivity|]. cbn [flat_map]. rewrite IHx, flat_map_app. reflexivity.
Qed.
Theorem generate_spec n : generate_sequences n = if ((n <? 0) || (n mod 2 =? 1))%Z then Err ValueError else Ok (dyck (S (Z.to_nat (n / 2))) (Z.to_nat (n / 2))).
Proof.
  unfold generate_sequences. destruct ((n <? 0) || (n mod 2 =? 1))%Z eqn:E; [reflexivity|]. apply orb_false_iff in E. destruct E as [E1 E2].
  apply Z.ltb_ge in E1. apply Z.eqb_neq in E2. set (m := Z.to_nat (n / 2)).
  assert (Hn : Z.to_nat n = 2 * m). { unfold m. pose proof (Z.div_mod n 2 ltac:(lia)). pose proof (Z.mod_pos_bound n 2 ltac:(lia)). assert (n mod 2 = 0)%Z by lia. lia. }
  f_equal. rewrite Hn.
  destruct (place_trees_spec (S m) m 0 (fun s => (s, [s])) (fun _ => True) (2 * m) (fun p => [p]) ltac:(lia) ltac:(lia)) with (s := repeat 0 (2 * m)) as [A _].
  - intros s Ls _. cbn [fst snd]. rewrite firstn_all2 by lia. auto.
  - intros s j x _ _ _. exact I.
  - now rewrite repeat_length.
  - exact I.
  - rewrite A. cbn [firstn app]. generalize (dyck (S m) m) as l. induction l as [|d l IH]; [reflexivity|]. cbn [flat_map app]. f_equal; [|exact IH].
    erewrite map_ext; [apply map_id|]. intros; cbn; lia.
Qed.
