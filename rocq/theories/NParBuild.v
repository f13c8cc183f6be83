(** NParBuild.v – building noncrossing partitions from components and from
    permutations. *)
From Verif Require Import Base SpecTL ModelTL TLTheory ModelPerm PermTheory NCTheory CycleTheory SpecBraid BraidTheory SpecPerm PropsPerm2
  ModelBraid ModelNPar NParMatch NParOrbit NParBlocks.
From Coq Require Import Permutation Sorted.

Lemma succ_mod_inj L i j : i < L -> j < L -> (i + 1) mod L = (j + 1) mod L -> i = j.
Proof.
  intros Hi Hj. assert (K : forall x, x < L -> (x + 1) mod L = if x + 1 =? L then 0 else x + 1).
  { intros x Hx. destruct (Nat.eqb_spec (x + 1) L) as [->|N]; [apply Nat.mod_same; lia|apply Nat.mod_small; lia]. }
  rewrite !K by assumption. destruct (Nat.eqb_spec (i + 1) L), (Nat.eqb_spec (j + 1) L); lia.
Qed.
Lemma NoDup_nth_inj (c : list nat) i j : NoDup c -> i < length c -> j < length c -> nth i c 0 = nth j c 0 -> i = j.
Proof. intros N Hi Hj E. exact (proj1 (NoDup_nth c 0) N i j Hi Hj E). Qed.

Section Build.
Variable n : nat.
Notation P := (isperm n).
Notation Q := (NCTheory.Q n).
Notation ed := (NCTheory.ed n).
Notation sm := (NCTheory.sm n).

Definition lk (c s : list nat) : Prop := forall i, i < length c ->
  nth (2 * nth i c 0 + 1) s 0 = 2 * nth ((i + 1) mod length c) c 0 /\
  nth (2 * nth ((i + 1) mod length c) c 0) s 0 = 2 * nth i c 0 + 1.

Lemma link_component_ok s c : length s = 2 * n -> NoDup c -> (forall x, In x c -> x < n) ->
  exists s', link_component s c = Ok s' /\ length s' = 2 * n /\ lk c s' /\
    forall x, ~ In (x / 2) c -> nth x s' 0 = nth x s 0.
Proof.
  intros Ls ND B. unfold link_component. set (L := length c).
  assert (K : forall k, k <= L -> exists s', foldM (fun inv i => a <- get c i ;; b <- get c ((i + 1) mod L) ;;
      inv <- set_ inv (2 * a + 1) (2 * b) ;; set_ inv (2 * b) (2 * a + 1)) (seq 0 k) s = Ok s' /\ length s' = 2 * n /\
      (forall i, i < k -> nth (2 * nth i c 0 + 1) s' 0 = 2 * nth ((i + 1) mod L) c 0 /\
                          nth (2 * nth ((i + 1) mod L) c 0) s' 0 = 2 * nth i c 0 + 1) /\
      forall x, ~ In (x / 2) c -> nth x s' 0 = nth x s 0).
  { induction k as [|k IH]; intros Hk; [exists s; repeat split; auto; lia|].
    destruct IH as [s' [E [Ls' [H1 H2]]]]; [lia|]. rewrite seq_S, foldM_app, E. cbn [bind foldM Nat.add].
    assert (Lk1 : (k + 1) mod L < L) by (apply Nat.mod_upper_bound; lia).
    rewrite (get_ok c k 0), (get_ok c _ 0) by (fold L; lia). cbn [bind].
    assert (Ba : nth k c 0 < n) by (apply B, nth_In; fold L; lia). assert (Bb : nth ((k + 1) mod L) c 0 < n) by (apply B, nth_In; fold L; lia).
    set (a := nth k c 0) in *. set (b := nth ((k + 1) mod L) c 0) in *.
    rewrite set_ok by lia. cbn [bind]. rewrite set_ok by (rewrite upd_length; lia). cbn [bind]. eexists. split; [reflexivity|].
    rewrite !upd_length. split; [exact Ls'|].
    assert (U : forall x, nth x (upd (upd s' (2 * a + 1) (2 * b)) (2 * b) (2 * a + 1)) 0 =
      if x =? 2 * b then 2 * a + 1 else if x =? 2 * a + 1 then 2 * b else nth x s' 0).
    { intros x. rewrite !nth_upd, !upd_length. rewrite (Nat.eqb_sym x (2 * b)), (Nat.eqb_sym x (2 * a + 1)).
      destruct (Nat.ltb_spec (2 * b) (length s')), (Nat.ltb_spec (2 * a + 1) (length s')); try lia. now rewrite !andb_true_r. }
    split.
    - intros i Hi. rewrite !U.
      assert (Li1 : (i + 1) mod L < L) by (apply Nat.mod_upper_bound; lia).
      destruct (Nat.eq_dec i k) as [->|N].
      + fold a b. destruct (Nat.eqb_spec (2 * a + 1) (2 * b)); [lia|]. rewrite !Nat.eqb_refl. auto.
      + assert (A1 : nth i c 0 <> a) by (intros K; apply NoDup_nth_inj in K; auto; fold L; lia).
        assert (A2 : nth ((i + 1) mod L) c 0 <> b).
        { intros K. apply NoDup_nth_inj in K; auto. apply succ_mod_inj in K; lia. }
        destruct (H1 i ltac:(lia)) as [B1 B2]. rewrite B1, B2.
        repeat match goal with |- context[?x =? ?y] => destruct (Nat.eqb_spec x y) end; try lia.
    - intros x Hx. rewrite U, H2 by exact Hx.
      destruct (Nat.eqb_spec x (2 * b)) as [->|]; [exfalso; apply Hx; rewrite div_2; apply nth_In; fold L; lia|].
      destruct (Nat.eqb_spec x (2 * a + 1)) as [->|]; [exfalso; apply Hx; rewrite div_2'; apply nth_In; fold L; lia|]. reflexivity. }
  destruct (K L (le_n L)) as [s' [E [Ls' [H1 H2]]]]. exists s'. split; [exact E|]. auto.
Qed.

Lemma link_all cs : forall s, length s = 2 * n -> NoDup (concat cs) -> (forall x, In x (concat cs) -> x < n) ->
  exists s', foldM link_component cs s = Ok s' /\ length s' = 2 * n /\ (forall c, In c cs -> lk c s') /\
    forall x, ~ In (x / 2) (concat cs) -> nth x s' 0 = nth x s 0.
Proof.
  induction cs as [|c cs IH]; intros s Ls ND B; [exists s; repeat split; auto; destruct H|].
  cbn [concat] in *. assert (NDc : NoDup c) by (clear - ND; induction c as [|y c IHc]; [constructor|]; cbn in ND; inversion ND; subst; constructor; [rewrite in_app_iff in *; tauto|auto]).
  assert (NDs : NoDup (concat cs)) by (clear - ND; induction c as [|y c IHc]; [exact ND|]; cbn in ND; inversion ND; auto).
  destruct (link_component_ok s c Ls NDc) as [s1 [E1 [L1 [K1 U1]]]]; [intros x Hx; apply B, in_app_iff; now left|].
  destruct (IH s1 L1 NDs) as [s2 [E2 [L2 [K2 U2]]]]; [intros x Hx; apply B, in_app_iff; now right|].
  exists s2. cbn [foldM]. rewrite E1. cbn [bind]. split; [exact E2|]. split; [exact L2|]. split.
  - intros d [<-|Hd]; [|now apply K2]. intros i Hi. destruct (K1 i Hi) as [A1 A2].
    assert (O : forall x, In x c -> ~ In x (concat cs)).
    { intros x Hx Hx'. apply in_split in Hx. destruct Hx as [l1 [l2 ->]]. rewrite <- app_assoc in ND. apply NoDup_remove_2 in ND.
      apply ND. rewrite !in_app_iff. auto. }
    rewrite !U2.
    + auto.
    + rewrite div_2. apply O, nth_In, Nat.mod_upper_bound. lia.
    + rewrite div_2'. apply O, nth_In. lia.
  - intros x Hx. rewrite in_app_iff in Hx. rewrite U2, U1 by tauto. reflexivity.
Qed.

(** an array joining every even place to an odd one and back is a permutation *)
Lemma array_perm s : length s = 2 * n ->
  (forall i, i < n -> exists j, j < n /\ nth (2 * i) s 0 = 2 * j + 1 /\ nth (2 * j + 1) s 0 = 2 * i) -> exists v, P v /\ s = inv_of n v.
Proof.
  intros L H. set (w := map (fun i => nth (2 * i) s 0 / 2) (seq 0 n)).
  assert (W : forall i, i < n -> ap w i < n /\ nth (2 * i) s 0 = 2 * ap w i + 1 /\ nth (2 * ap w i + 1) s 0 = 2 * i).
  { intros i Hi. unfold w. rewrite nth_map_seq by exact Hi. destruct (H i Hi) as [j [Bj [E1 E2]]]. rewrite E1, div_2'. auto. }
  assert (Hw : P w).
  { apply isperm_of_app.
    - unfold w. now rewrite map_length, seq_length.
    - intros i Hi. now apply W.
    - intros i j Hi Hj E. destruct (W i Hi) as [_ [_ A]]. destruct (W j Hj) as [_ [_ B]]. rewrite E in A. lia. }
  exists w. split; [exact Hw|]. apply inv_of_ext; auto; intros i Hi; now apply W.
Qed.

(** v sends each element of a component to the one before it, the first to the last *)
Definition linked (v : list nat) (cs : list (list nat)) : Prop :=
  (forall c i, In c cs -> i < length c -> ap v (nth ((i + 1) mod length c) c 0) = nth i c 0) /\
  (forall x, x < n -> ~ In x (concat cs) -> ap v x = x).
Lemma pred_ex L k : k < L -> exists i, i < L /\ (i + 1) mod L = k.
Proof.
  intros H. destruct k as [|k]; [exists (L - 1); split; [lia|]; replace (L - 1 + 1) with L by lia; apply Nat.mod_same; lia|].
  exists k. split; [lia|]. rewrite Nat.mod_small by lia. lia.
Qed.
Lemma linked_unique u v cs : P u -> P v -> linked u cs -> linked v cs -> u = v.
Proof.
  intros Hu Hv [A1 A2] [B1 B2]. apply (isperm_ext n); auto. intros x Hx.
  destruct (in_dec Nat.eq_dec x (concat cs)) as [K|K]; [|now rewrite A2, B2].
  apply in_concat in K. destruct K as [c [Hc Hxc]]. apply (In_nth _ _ 0) in Hxc. destruct Hxc as [k [Hk <-]].
  destruct (pred_ex (length c) k Hk) as [i [Hi <-]]. now rewrite (A1 c i), (B1 c i).
Qed.

Lemma build_ok cs : NoDup (concat cs) -> (forall x, In x (concat cs) -> x < n) ->
  exists v, P v /\ linked v cs /\ foldM link_component cs (np_inv (finest n)) = Ok (inv_of n v).
Proof.
  intros ND B. rewrite finest_ok. cbn [np_inv].
  destruct (link_all cs (inv_of n (identity n)) (inv_of_length n _) ND B) as [s [E [L [K U]]]].
  destruct (array_perm s L) as [v [Hv ->]].
  - intros i Hi. destruct (in_dec Nat.eq_dec i (concat cs)) as [I|I].
    + pose proof I as I0. apply in_concat in I. destruct I as [c [Hc Hic]]. apply (In_nth _ _ 0) in Hic. destruct Hic as [k [Hk <-]].
      destruct (pred_ex (length c) k Hk) as [j [Hj <-]]. destruct (K c Hc j Hj) as [K1 K2].
      exists (nth j c 0). split; [apply B, in_concat; exists c; split; [exact Hc|now apply nth_In]|]. auto.
    + exists i. split; [exact Hi|]. rewrite !U by (rewrite ?div_2, ?div_2'; exact I).
      rewrite inv_even, inv_odd, pinv_id, app_id by exact Hi. auto.
  - exists v. split; [exact Hv|]. split; [|exact E]. split.
    + intros c i Hc Hi. destruct (K c Hc i Hi) as [_ K2]. rewrite inv_even in K2; [lia|].
      apply B, in_concat. exists c. split; [exact Hc|]. apply nth_In, Nat.mod_upper_bound. lia.
    + intros x Hx Hn. pose proof (U (2 * x)) as Ux. rewrite div_2 in Ux. specialize (Ux Hn).
      rewrite !inv_even, app_id in Ux by exact Hx. lia.
Qed.

(** ** from_components *)
Lemma disjoint_loop_ok l : forall seen, disjoint_loop seen l = true <-> NoDup l /\ forall x, In x l -> ~ In x seen.
Proof.
  induction l as [|e l IH]; intros seen; cbn [disjoint_loop]; [split; [intros _; split; [constructor|intros x []]|reflexivity]|].
  assert (Ex : existsb (Z.eqb e) seen = true <-> In e seen).
  { rewrite existsb_exists. split; [intros [y [H K]]; apply Z.eqb_eq in K; now subst|intros H; exists e; split; [exact H|apply Z.eqb_refl]]. }
  destruct (existsb (Z.eqb e) seen).
  - split; [discriminate|]. intros [_ K]. exfalso. apply (K e); [now left|now apply Ex].
  - rewrite IH. assert (Ne : ~ In e seen) by (intros K; apply Ex in K; discriminate). split.
    + intros [A B]. split.
      * constructor; [|exact A]. intros K. apply (B e K). now left.
      * intros x [<-|Hx]; [exact Ne|]. intros K. apply (B x Hx). now right.
    + intros [A B]. inversion A; subst. split; [assumption|]. intros x Hx [<-|K]; [contradiction|]. apply (B x); [now right|exact K].
Qed.
Definition zcs (zs : list (list Z)) : list (list nat) := map (fun c => sorted Nat.leb (map Z.to_nat c)) zs.
Definition good (zs : list (list Z)) : Prop := NoDup (concat zs) /\ forall x, In x (concat zs) -> (0 <= x < Z.of_nat n)%Z.
Lemma zcs_perm zs : Permutation (concat (zcs zs)) (map Z.to_nat (concat zs)).
Proof.
  induction zs as [|c zs IH]; [reflexivity|]. cbn [zcs map concat]. rewrite map_app. apply Permutation_app; [apply sorted_perm|exact IH].
Qed.
Lemma zcs_good zs : good zs -> NoDup (concat (zcs zs)) /\ (forall x, In x (concat (zcs zs)) -> x < n).
Proof.
  intros [ND B]. split.
  - eapply Permutation_NoDup; [symmetry; apply zcs_perm|]. clear - ND B. induction (concat zs) as [|x l IH]; [constructor|].
    inversion ND; subst. cbn. constructor; [|apply IH; [assumption|intros y Hy; apply B; now right]].
    intros K. apply in_map_iff in K. destruct K as [y [E Hy]]. pose proof (B x ltac:(now left)). pose proof (B y ltac:(now right)).
    apply Z2Nat.inj in E; [|lia|lia]. subst. contradiction.
  - intros x Hx. apply (Permutation_in _ (zcs_perm zs)) in Hx. apply in_map_iff in Hx. destruct Hx as [z [<- Hz]]. apply B in Hz. lia.
Qed.
Theorem from_components_ok zs : good zs -> exists v, P v /\ linked v (zcs zs) /\
  ((NC n v /\ from_components n zs = Ok (NPar n (inv_of n v))) \/ (~ NC n v /\ from_components n zs = Err ValueError)).
Proof.
  intros G. pose proof G as [G1 G2]. destruct (zcs_good zs G) as [ND B]. destruct (build_ok (zcs zs) ND B) as [v [Hv [Lv E]]].
  exists v. split; [exact Hv|]. split; [exact Lv|]. unfold from_components.
  replace (are_pairwise_disjoint zs) with true.
  2:{ symmetry. unfold are_pairwise_disjoint. apply disjoint_loop_ok. split; [exact G1|intros x _ []]. }
  replace (forallb (forallb (fun x => (0 <=? x)%Z && (x <? Z.of_nat n)%Z)) zs) with true.
  2:{ symmetry. apply forallb_forall. intros c Hc. apply forallb_forall. intros x Hx.
      assert (K : In x (concat zs)) by (apply in_concat; eauto). apply G2 in K. apply andb_true_iff. split; [apply Z.leb_le|apply Z.ltb_lt]; lia. }
  cbn [negb]. change (map (fun c => sorted Nat.leb (map Z.to_nat c)) zs) with (zcs zs). rewrite E. cbn [bind].
  destruct (is_cm_spec (inv_of n v)) as [b [-> Hb]]. cbn [bind]. rewrite inv_of_crossingless in Hb by exact Hv.
  destruct b; cbn [negb]; [left|right]; (split; [|reflexivity]); [now apply Hb|]. intros K. apply Hb in K. discriminate.
Qed.
Theorem from_components_bad zs : ~ good zs -> from_components n zs = Err ValueError.
Proof.
  intros G. unfold from_components. destruct (are_pairwise_disjoint zs) eqn:E1; [|reflexivity]. cbn [negb].
  destruct (forallb (forallb (fun x => (0 <=? x)%Z && (x <? Z.of_nat n)%Z)) zs) eqn:E2; [|reflexivity]. exfalso. apply G.
  unfold are_pairwise_disjoint in E1. apply disjoint_loop_ok in E1. split; [apply E1|]. intros x Hx. apply in_concat in Hx. destruct Hx as [c [Hc Hx]].
  rewrite forallb_forall in E2. apply E2 in Hc. rewrite forallb_forall in Hc. apply Hc in Hx. apply andb_true_iff in Hx.
  destruct Hx as [A B]. apply Z.leb_le in A. apply Z.ltb_lt in B. lia.
Qed.

(** w is linked along its blocks *)
Lemma blocks_linked w cs : Q w -> blocks n w cs -> linked w cs.
Proof.
  intros Hw [F [ND [B H]]]. rewrite Forall_forall in F. pose proof Hw as [Pw N].
  assert (Bl : forall c x y, In c cs -> In x c -> sm w x y -> In y c).
  { intros c x y Hc Hx [<-|K]; [exact Hx|].
    assert (Z : exists d, In d cs /\ In x d /\ In y d).
    { destruct K as [K|K]; pose proof K as [L _]; apply (H _ _ L) in K; destruct K as [d [A1 [A2 A3]]]; eauto. }
    destruct Z as [d [Hd [Hxd Hyd]]]. now rewrite (NoDup_concat_in cs c d x). }
  assert (Bx : forall c i, In c cs -> i < length c -> nth i c 0 < n).
  { intros c i Hc Hi. apply B, in_concat. exists c. split; [exact Hc|now apply nth_In]. }
  assert (Ed : forall c i j, In c cs -> i < j -> j < length c -> ed w (nth i c 0) (nth j c 0)).
  { intros c i j Hc L Hj. assert (Lij : nth i c 0 < nth j c 0) by (apply SS_nth; auto).
    apply (H _ _ Lij). exists c. split; [exact Hc|]. split; apply nth_In; lia. }
  split.
  - intros c i Hc Hi. destruct (Nat.eq_dec (i + 1) (length c)) as [El|Nl].
    + rewrite El, Nat.mod_same by lia. pose proof (Bx c 0 Hc ltac:(lia)) as B0.
      pose proof (Bl c (nth 0 c 0) (ap w (nth 0 c 0)) Hc ltac:(apply nth_In; lia) (N _ B0)) as I.
      apply (In_nth _ _ 0) in I. destruct I as [k [Hk Ek]]. rewrite <- Ek. f_equal.
      destruct (Nat.eq_dec k i) as [->|Nk]; [reflexivity|exfalso].
      destruct (Ed c 0 i Hc ltac:(lia) Hi) as [Le [_ E]]. specialize (E _ B0). rewrite <- Ek in E.
      assert (nth k c 0 < nth i c 0) by (apply SS_nth; auto; lia).
      assert (nth 0 c 0 <= nth k c 0) by (destruct k; [lia|]; apply Nat.lt_le_incl, SS_nth; auto; lia). lia.
    + rewrite Nat.mod_small by lia. pose proof (Bx c (i + 1) Hc ltac:(lia)) as B1.
      pose proof (Bl c (nth (i + 1) c 0) (ap w (nth (i + 1) c 0)) Hc ltac:(apply nth_In; lia) (N _ B1)) as I.
      apply (In_nth _ _ 0) in I. destruct I as [k [Hk Ek]]. rewrite <- Ek. f_equal.
      destruct (Ed c i (i + 1) Hc ltac:(lia) ltac:(lia)) as [Le [_ E]]. specialize (E _ B1). rewrite <- Ek in E.
      destruct (lt_eq_lt_dec k i) as [[L|L]|L]; [|exact L|]; exfalso.
      * assert (nth k c 0 < nth i c 0) by (apply SS_nth; auto; lia). lia.
      * assert (nth (i + 1) c 0 <= nth k c 0).
        { destruct (Nat.eq_dec k (i + 1)) as [->|]; [lia|]. apply Nat.lt_le_incl, SS_nth; auto; lia. } lia.
  - intros x Hx K. destruct (N x Hx) as [E|E]; [now symmetry|exfalso]. apply K.
    assert (Z : exists d, In d cs /\ In x d).
    { destruct E as [E|E]; pose proof E as [L _]; apply (H _ _ L) in E; destruct E as [d [A1 [A2 A3]]]; eauto. }
    destruct Z as [d [A1 A2]]. apply in_concat. eauto.
Qed.
(** the orbits of a linked permutation are the components *)
Lemma linked_so v cs : P v -> NoDup (concat cs) -> (forall x, In x (concat cs) -> x < n) -> linked v cs ->
  forall x y, x < n -> (same_orbit v x y <-> x = y \/ exists c, In c cs /\ In x c /\ In y c).
Proof.
  intros Hv ND B [L1 L2] x y Hx. split.
  - intros [k <-]. induction k as [|k IH]; [now left|]. set (z := Nat.iter k (fun z => ap v z) x) in *.
    change (Nat.iter (S k) (fun z => ap v z) x) with (ap v z).
    assert (Hz : z < n) by exact (it_lt n v Hv k x Hx).
    destruct (in_dec Nat.eq_dec z (concat cs)) as [I|I]; [|rewrite (L2 z Hz I); exact IH]. right.
    assert (Zc : exists c, In c cs /\ In x c /\ In z c).
    { destruct IH as [E|IH]; [|exact IH]. apply in_concat in I. destruct I as [c [Hc Hzc]]. exists c. rewrite E. auto. }
    destruct Zc as [c [Hc [Hxc Hzc]]]. exists c. split; [exact Hc|]. split; [exact Hxc|].
    apply (In_nth _ _ 0) in Hzc. destruct Hzc as [j [Hj <-]]. destruct (pred_ex (length c) j Hj) as [i [Hi <-]].
    rewrite (L1 c i Hc Hi). now apply nth_In.
  - intros [->|[c [Hc [Hxc Hyc]]]]; [apply so_refl|].
    assert (D : forall i, i < length c -> same_orbit v (nth i c 0) (nth 0 c 0)).
    { induction i as [|i IH]; intros Hi; [apply so_refl|]. apply (so_trans v _ (nth i c 0)); [|apply IH; lia].
      pose proof (L1 c i Hc ltac:(lia)) as E. rewrite Nat.mod_small, Nat.add_1_r in E by lia. rewrite <- E. apply so_step. }
    apply (In_nth _ _ 0) in Hxc, Hyc. destruct Hxc as [i [Hi <-]], Hyc as [j [Hj <-]].
    apply (so_trans v _ (nth 0 c 0)); [now apply D|]. apply (so_sym n v); [exact Hv| |now apply D].
    apply B, in_concat. exists c. split; [exact Hc|now apply nth_In].
Qed.
Lemma SS_le_lt c : StronglySorted le c -> NoDup c -> StronglySorted lt c.
Proof.
  induction 1 as [|x c S IH F]; intros N; [constructor|]. inversion N; subst. constructor; [now apply IH|].
  rewrite Forall_forall in *. intros y Hy. specialize (F y Hy). destruct (Nat.eq_dec x y); [subst; contradiction|lia].
Qed.
Lemma sorted_SS l : NoDup l -> StronglySorted lt (sorted Nat.leb l).
Proof.
  intros N. apply SS_le_lt.
  - apply sorted_sorted; intros x y; [rewrite Nat.leb_le|rewrite Nat.leb_gt|]; lia.
  - eapply Permutation_NoDup; [symmetry; apply sorted_perm|exact N].
Qed.
Lemma NoDup_concat_each {A} (cs : list (list A)) c : NoDup (concat cs) -> In c cs -> NoDup c.
Proof.
  intros ND Hc. apply in_split in Hc. destruct Hc as [l1 [l2 ->]]. rewrite concat_app in ND. cbn [concat] in ND.
  clear - ND. induction (concat l1) as [|y l IH]; cbn in ND.
  - induction c as [|y c IHc]; [constructor|]. cbn in ND. inversion ND; subst. constructor; [rewrite in_app_iff in *; tauto|auto].
  - inversion ND; auto.
Qed.
Lemma linked_blocks v cs : Q v -> Forall (StronglySorted lt) cs -> NoDup (concat cs) -> (forall x, In x (concat cs) -> x < n) ->
  linked v cs -> blocks n v cs.
Proof.
  intros Hv F ND B L. split; [exact F|]. split; [exact ND|]. split; [exact B|]. intros p q Lpq.
  assert (Z : p < n -> (ed v p q <-> exists c, In c cs /\ In p c /\ In q c)).
  { intros Hp. pose proof (linked_so v cs (proj1 Hv) ND B L p q Hp) as S. rewrite <- (sm_so n v p q Hv Hp) in S.
    split; intros K.
    - apply ed_sm in K. apply S in K. destruct K as [->|K]; [lia|exact K].
    - apply sm_ed; [exact Lpq|]. apply S. now right. }
  destruct (le_lt_dec n p) as [G|G]; [|now apply Z]. split.
  - intros [_ [Bq _]]. lia.
  - intros [c [Hc [Hp _]]]. assert (I : In p (concat cs)) by (apply in_concat; eauto). apply B in I. lia.
Qed.

(** building from the blocks of w gives w back *)
Theorem from_components_blocks w zs : Q w -> good zs -> blocks n w (zcs zs) -> from_components n zs = Ok (NPar n (inv_of n w)).
Proof.
  intros Hw G Hb. destruct (from_components_ok zs G) as [v [Hv [L K]]].
  assert (E : v = w) by (apply (linked_unique v w (zcs zs)); auto; [apply Hw|now apply blocks_linked]). subst v.
  destruct K as [[_ K]|[K _]]; [exact K|]. exfalso. apply K, Hw.
Qed.
Lemma good_nat cs : NoDup (concat cs) -> (forall x, In x (concat cs) -> x < n) -> good (map (map Z.of_nat) cs).
Proof.
  intros ND B. unfold good. rewrite <- concat_map. split.
  - apply FinFun.Injective_map_NoDup; [intros x y; lia|exact ND].
  - intros x Hx. apply in_map_iff in Hx. destruct Hx as [y [<- Hy]]. apply B in Hy. lia.
Qed.
Lemma zcs_nat cs : zcs (map (map Z.of_nat) cs) = map (sorted Nat.leb) cs.
Proof.
  unfold zcs. rewrite map_map. apply map_ext. intros c. rewrite map_map. f_equal. rewrite <- (map_id c) at 2. apply map_ext. intros. apply Nat2Z.id.
Qed.
Theorem from_components_edge a b : a < b -> b < n -> from_components n [[Z.of_nat a; Z.of_nat b]] = Ok (NPar n (inv_of n (ptrans n a b))).
Proof.
  intros L B. destruct (NCGerm.Q_ptrans n a b L B) as [Hq He].
  assert (ND : NoDup (concat [[a; b]])) by (cbn; repeat constructor; cbn; intuition lia).
  assert (Bx : forall x, In x (concat [[a; b]]) -> x < n) by (cbn; intuition lia).
  apply (from_components_blocks _ (map (map Z.of_nat) [[a; b]])); [exact Hq|now apply good_nat|]. rewrite zcs_nat. cbn [map].
  rewrite sorted_id by (repeat constructor; exact L). split; [repeat constructor; exact L|]. split; [exact ND|]. split; [exact Bx|].
  intros p q Lpq. split.
  - intros K. apply NCGerm.ptrans_ed in K; auto. destruct K as [-> ->]. exists [a; b]. cbn. auto.
  - intros [c [[<-|[]] [Hp Hq']]]. cbn in Hp, Hq'. assert (p = a /\ q = b) as [-> ->] by intuition lia. exact He.
Qed.

(** ** from_permutation *)
Theorem from_permutation_ok w : P w ->
  (NC n w /\ from_permutation w = Ok (NPar n (inv_of n w))) \/ (~ NC n w /\ from_permutation w = Err ValueError).
Proof.
  intros Hw. unfold from_permutation. destruct (C08_parallel_descending n w Hw) as [b [-> Hb]]. cbn [bind].
  rewrite <- (NC_spec n w Hw) in Hb. destruct b; cbn [negb]; [left|right]; cycle 1.
  { split; [|reflexivity]. intros K. apply Hb in K. discriminate. }
  assert (N : NC n w) by now apply Hb. split; [exact N|]. assert (Hq : Q w) by (split; assumption).
  destruct (disjoint_cycles_ok n w Hw) as [cs [E [HP [HC _]]]]. rewrite E. cbn [bind]. rewrite (isperm_length n w Hw).
  assert (ND : NoDup (concat cs)) by (eapply Permutation_NoDup; [symmetry; exact HP|apply seq_NoDup]).
  assert (B : forall x, In x (concat cs) -> x < n) by (intros x Hx; apply (Permutation_in _ HP), in_seq in Hx; lia).
  apply from_components_blocks; [exact Hq|now apply good_nat|]. rewrite zcs_nat.
  assert (PC : Permutation (concat (map (sorted Nat.leb) cs)) (concat cs)).
  { clear. induction cs as [|c cs IH]; [reflexivity|]. cbn. apply Permutation_app; [apply sorted_perm|exact IH]. }
  split; [|split; [|split]].
  - rewrite Forall_map. apply Forall_forall. intros c Hc. apply sorted_SS. eapply NoDup_concat_each; eauto.
  - eapply Permutation_NoDup; [symmetry; exact PC|exact ND].
  - intros x Hx. apply B. eapply Permutation_in; [exact PC|exact Hx].
  - assert (SI : forall c x, In x (sorted Nat.leb c) <-> In x c).
    { intros c x. split; apply Permutation_in; [apply sorted_perm|symmetry; apply sorted_perm]. }
    intros p q L. split.
    + intros K. pose proof K as [_ [Bq _]]. destruct (c_ex n cs HP p ltac:(lia)) as [c [Hc Hp]]. exists (sorted Nat.leb c).
      rewrite !SI. split; [now apply in_map|]. split; [exact Hp|]. apply (so_in n w cs HC c p q); auto.
      apply (sm_so n w); [exact Hq|lia|now apply ed_sm].
    + intros [c [Hc [Hp Hq']]]. apply in_map_iff in Hc. destruct Hc as [d [<- Hd]]. rewrite SI in Hp, Hq'.
      pose proof (c_lt n cs HP d p Hd Hp). apply sm_ed; [exact L|]. apply so_sm; [exact Hq|assumption|]. now apply (so_of n w cs HC d).
Qed.
End Build.
