(** NParMatch.v – crossingless matchings of 2n points and noncrossing
    permutations of n points are the same thing. *)
From Verif Require Import Base SpecTL ModelTL GlueTheory ComposeTheory TLTheory TLBasis TLCells ModelPerm PermTheory NCTheory ModelBraid ModelNPar.
From Coq Require Import Permutation.

Lemma odd_cases x : (exists k, x = 2 * k) \/ (exists k, x = 2 * k + 1).
Proof. destruct (Nat.Even_or_Odd x) as [[k ->]|[k ->]]; eauto. Qed.
Lemma even_2 k : Nat.even (2 * k) = true.
Proof. apply Nat.even_spec. now exists k. Qed.
Lemma even_2' k : Nat.even (2 * k + 1) = false.
Proof. rewrite Nat.add_1_r, Nat.even_succ, <- Nat.negb_even, even_2. reflexivity. Qed.
Lemma div_2 k : 2 * k / 2 = k. Proof. rewrite Nat.mul_comm. apply Nat.div_mul. lia. Qed.
Lemma div_2' k : (2 * k + 1) / 2 = k.
Proof. rewrite Nat.mul_comm, Nat.div_add_l by lia. cbn. lia. Qed.

(** in a crossingless matching every arc joins an even and an odd point *)
Lemma crossingless_parity s : crossingless s -> forall i, i < length s -> exists k, i + nth i s 0 = 2 * k + 1.
Proof.
  remember (length s) as N. revert s HeqN. induction N as [N IH] using lt_wf_ind. intros s -> C i Hi.
  destruct (decompose s C) as [l [r [Cl [Cr Ed]]]]; [intros ->; cbn in Hi; lia|].
  assert (Ml : matched l) by now apply crossingless_matched.
  destruct (crossingless_even l Cl) as [m Em].
  pose proof (node_length l r) as Ln. rewrite Ed in Hi. rewrite Ed, (node_node' l r Ml), nth_node' by exact Ml.
  rewrite Ed, Ln in IH. 
  destruct (Nat.eqb_spec i 0) as [->|N0]; [exists m; lia|].
  destruct (Nat.ltb_spec i (S (length l))).
  - destruct (IH (length l) ltac:(lia) l eq_refl Cl (i - 1) ltac:(lia)) as [k Hk]. exists (k + 1). lia.
  - destruct (Nat.eqb_spec i (S (length l))) as [->|]; [exists m; lia|].
    destruct (Nat.ltb_spec i (length l + length r + 2)); [|lia].
    destruct (IH (length r) ltac:(lia) r eq_refl Cr (i - (length l + 2)) ltac:(lia)) as [k Hk].
    exists (k + length l + 2). lia.
Qed.

Section Match.
Variable n : nat.
Notation P := (isperm n).
Notation Q := (NCTheory.Q n).
Notation cox := (NCTheory.cox n).
Notation "u ** v" := (pcomp u v) (at level 40, left associativity).

(** the matching of a permutation: the arc of i joins 2i and 2w(i)+1 *)
Definition inv_at (w : list nat) (x : nat) : nat :=
  if Nat.even x then 2 * ap w (x / 2) + 1 else 2 * ap (pinv w) (x / 2).
Definition inv_of (w : list nat) : list nat := map (inv_at w) (seq 0 (2 * n)).

Lemma inv_of_length w : length (inv_of w) = 2 * n.
Proof. unfold inv_of. now rewrite map_length, seq_length. Qed.
Lemma inv_of_nth w x : x < 2 * n -> nth x (inv_of w) 0 = inv_at w x.
Proof. intros H. unfold inv_of. now rewrite nth_map_seq. Qed.
Lemma inv_at_even w i : inv_at w (2 * i) = 2 * ap w i + 1.
Proof. unfold inv_at. now rewrite even_2, div_2. Qed.
Lemma inv_at_odd w i : inv_at w (2 * i + 1) = 2 * ap (pinv w) i.
Proof. unfold inv_at. now rewrite even_2', div_2'. Qed.
Lemma inv_even w i : i < n -> nth (2 * i) (inv_of w) 0 = 2 * ap w i + 1.
Proof. intros H. rewrite inv_of_nth by lia. apply inv_at_even. Qed.
Lemma inv_odd w i : i < n -> nth (2 * i + 1) (inv_of w) 0 = 2 * ap (pinv w) i.
Proof. intros H. rewrite inv_of_nth by lia. apply inv_at_odd. Qed.
Lemma inv_of_ext w s : length s = 2 * n -> P w -> (forall i, i < n -> nth (2 * i) s 0 = 2 * ap w i + 1) ->
  (forall i, i < n -> nth (2 * ap w i + 1) s 0 = 2 * i) -> s = inv_of w.
Proof.
  intros L Hw H K. apply (nth_ext_len _ _ (2 * n) 0); auto using inv_of_length. intros x Hx.
  destruct (odd_cases x) as [[k ->]|[k ->]].
  - rewrite inv_even, H by lia. reflexivity.
  - rewrite inv_odd by lia. pose proof (K (ap (pinv w) k)) as K'.
    assert (B : ap (pinv w) k < n) by (apply isperm_app_lt; auto using isperm_pinv; lia).
    rewrite (app_pinv n) in K' by (auto; lia). auto.
Qed.

Lemma NC_arcs w : P w -> (NC n w <-> forall i k, i < n -> k < n ->
  (Nat.min (2 * i) (2 * ap w i + 1) <= 2 * k <= Nat.max (2 * i) (2 * ap w i + 1) <->
   Nat.min (2 * i) (2 * ap w i + 1) <= 2 * ap w k + 1 <= Nat.max (2 * i) (2 * ap w i + 1))).
Proof.
  intros Hw. assert (J : forall i k, i < n -> k < n -> ap w i = ap w k -> i = k) by (intros; now apply (isperm_inj n w)).
  split.
  - intros N i k Hi Hk. pose proof (isperm_app_lt n w i Hw Hi) as Bi. specialize (J i k Hi Hk).
    assert (J' : i = k -> ap w i = ap w k) by now intros ->.
    destruct (N i Hi) as [K|[K|K]].
    + rewrite <- K in *. clear - J J'. lia.
    + destruct K as [L [B H]]. specialize (H k Hk). clear - L B H J J'. lia.
    + destruct K as [L [B H]]. specialize (H k Hk). clear - L B H J J'. lia.
  - intros H i Hi. pose proof (isperm_app_lt n w i Hw Hi) as Bi.
    destruct (Nat.lt_trichotomy i (ap w i)) as [L|[K|L]]; [right; left|now left|right; right];
    (split; [exact L|]; split; [assumption|]; intros k Hk; specialize (H i k Hi Hk); specialize (J i k Hi Hk);
      assert (J' : i = k -> ap w i = ap w k) by (now intros ->); clear - L H J J'; lia).
Qed.

Local Ltac lia0 := repeat match goal with H : ~ (_ /\ _ /\ _) |- _ => clear H end; lia.
Lemma inv_of_crossingless w : P w -> (crossingless (inv_of w) <-> NC n w).
Proof.
  intros Hw. pose proof (isperm_pinv n w Hw) as Hi. rewrite (NC_arcs w Hw). unfold crossingless. rewrite inv_of_length. split.
  - intros [M C] i k Bi Bk. pose proof (isperm_app_lt n w i Hw Bi) as Wi. pose proof (isperm_app_lt n w k Hw Bk) as Wk.
    assert (J : ap w i = ap w k -> i = k) by (intros; now apply (isperm_inj n w)).
    assert (J' : i = k -> ap w i = ap w k) by now intros ->.
    assert (Ei := inv_even w i Bi). assert (Ek := inv_even w k Bk).
    assert (Oi := inv_odd w (ap w i) Wi). assert (Ok_ := inv_odd w (ap w k) Wk). rewrite (pinv_app n) in Oi, Ok_ by auto.
    assert (C1 := C (2 * i) (2 * k) ltac:(lia)). assert (C2 := C (2 * k) (2 * i) ltac:(lia)).
    assert (C3 := C (2 * i) (2 * ap w k + 1) ltac:(lia)). assert (C4 := C (2 * ap w k + 1) (2 * i) ltac:(lia)).
    assert (C5 := C (2 * ap w i + 1) (2 * k) ltac:(lia)). assert (C6 := C (2 * k) (2 * ap w i + 1) ltac:(lia)).
    assert (C7 := C (2 * ap w i + 1) (2 * ap w k + 1) ltac:(lia)). assert (C8 := C (2 * ap w k + 1) (2 * ap w i + 1) ltac:(lia)).
    rewrite Ei, Ek, Oi, Ok_ in *. clear - J J' C1 C2 C3 C4 C5 C6 C7 C8.
    destruct (Nat.lt_trichotomy i k) as [Lik|[Lik|Lik]]; [|subst k; clear; lia|];
    (destruct (Nat.lt_trichotomy (ap w i) (ap w k)) as [Lw|[Lw|Lw]]; [|exfalso; apply J in Lw; lia0|]);
    split; intros K;
    (destruct (Nat.le_gt_cases i (ap w i)), (Nat.le_gt_cases k (ap w k)), (Nat.le_gt_cases i (ap w k)), (Nat.le_gt_cases k (ap w i));
     first [ lia0 | exfalso; 
      clear J J'; first [ apply C1; lia0 | apply C2; lia0 | apply C3; lia0 | apply C4; lia0 | apply C5; lia0 | apply C6; lia0 | apply C7; lia0 | apply C8; lia0] ]).
  - intros H. split.
    + intros x Hx. destruct (odd_cases x) as [[k ->]|[k ->]].
      * rewrite inv_even by lia. pose proof (isperm_app_lt n w k Hw ltac:(lia)). split; [lia|]. split; [lia|].
        rewrite inv_odd by lia. rewrite (pinv_app n) by (auto; lia). reflexivity.
      * rewrite inv_odd by lia. pose proof (isperm_app_lt n (pinv w) k Hi ltac:(lia)). split; [lia|]. split; [lia|].
        rewrite inv_even by lia. rewrite (app_pinv n) by (auto; lia). reflexivity.
    + assert (K : forall x, x < 2 * n -> exists i, i < n /\ (x = 2 * i /\ nth x (inv_of w) 0 = 2 * ap w i + 1 \/
        x = 2 * ap w i + 1 /\ nth x (inv_of w) 0 = 2 * i)).
      { intros x Hx. destruct (odd_cases x) as [[k ->]|[k ->]].
        - exists k. split; [lia|]. left. split; [reflexivity|]. apply inv_even. lia.
        - exists (ap (pinv w) k). split; [apply isperm_app_lt; auto; lia|]. right. rewrite (app_pinv n) by (auto; lia).
          split; [reflexivity|]. apply inv_odd. lia. }
      intros x y Hy [L1 [L2 L3]]. destruct (K x ltac:(lia)) as [i [Bi Ei]]. destruct (K y ltac:(lia)) as [k [Bk Ek]].
      specialize (H i k Bi Bk). clear - L1 L2 L3 Ei Ek H. lia.
Qed.

Lemma crossingless_inv_of s : crossingless s -> length s = 2 * n -> exists w, Q w /\ s = inv_of w.
Proof.
  intros C L. pose proof (crossingless_parity s C) as Par. rewrite L in Par. pose proof C as [M _]. rewrite L in M.
  set (w := map (fun i => nth (2 * i) s 0 / 2) (seq 0 n)).
  assert (W : forall i, i < n -> nth (2 * i) s 0 = 2 * ap w i + 1).
  { intros i Hi. unfold w. rewrite nth_map_seq by exact Hi. destruct (Par (2 * i) ltac:(lia)) as [k Hk].
    replace (nth (2 * i) s 0) with (2 * (k - i) + 1) by lia. now rewrite div_2'. }
  assert (Hw : P w).
  { apply isperm_of_app.
    - unfold w. now rewrite map_length, seq_length.
    - intros i Hi. pose proof (W i Hi). destruct (M (2 * i) ltac:(lia)) as [B _]. lia.
    - intros i j Hi Hj E. pose proof (W i Hi) as Wi. pose proof (W j Hj) as Wj. rewrite <- E in Wj.
      destruct (M (2 * i) ltac:(lia)) as [_ [_ A]]. destruct (M (2 * j) ltac:(lia)) as [_ [_ B]]. rewrite Wi in A. rewrite Wj in B. lia. }
  assert (Es : s = inv_of w).
  { apply inv_of_ext; auto. intros i Hi. rewrite <- W by exact Hi. apply (M (2 * i)). lia. }
  exists w. split; [|exact Es]. split; [exact Hw|]. apply inv_of_crossingless; [exact Hw|]. now rewrite <- Es.
Qed.
Lemma inv_of_inj v w : P v -> P w -> inv_of v = inv_of w -> v = w.
Proof.
  intros Hv Hw E. apply (isperm_ext n); auto. intros i Hi. pose proof (inv_even v i Hi) as A. pose proof (inv_even w i Hi) as B.
  rewrite E in A. lia.
Qed.

(** ** the named partitions, permutations and complements *)
Lemma finest_ok : finest n = NPar n (inv_of (identity n)).
Proof.
  unfold finest. f_equal. apply inv_of_ext; auto using isperm_id.
  - now rewrite map_length, seq_length.
  - intros i Hi. rewrite nth_map_seq, app_id by lia. replace (2 * i) with (i * 2) by lia. rewrite Nat.mod_mul by lia. cbn. lia.
  - intros i Hi. rewrite app_id by lia. rewrite nth_map_seq by lia.
    replace (2 * i + 1) with (1 + i * 2) by lia. rewrite Nat.mod_add by lia. cbn. lia.
Qed.
Lemma coarsest_ok : coarsest n = NPar n (inv_of cox).
Proof.
  unfold coarsest. f_equal. apply inv_of_ext; auto using P_cox.
  - now rewrite map_length, seq_length.
  - intros i Hi. rewrite nth_map_seq, ap_cox by lia.
    replace (2 * i mod 2) with 0 by (replace (2 * i) with (i * 2) by lia; now rewrite Nat.mod_mul). cbn [Nat.eqb].
    destruct (Nat.eqb_spec i 0) as [->|N].
    + rewrite Nat.mod_small by lia. lia.
    + replace (2 * i + 2 * n - 1) with (2 * (i - 1) + 1 + 1 * (2 * n)) by lia. rewrite Nat.mod_add, Nat.mod_small by lia. reflexivity.
  - intros i Hi. rewrite ap_cox by lia.
    assert (A : forall k, (2 * k + 1) mod 2 = 1) by (intros k; replace (2 * k + 1) with (1 + k * 2) by lia; now rewrite Nat.mod_add).
    destruct (Nat.eqb_spec i 0) as [->|N]; rewrite nth_map_seq, A by lia; cbn [Nat.eqb].
    + replace (2 * (n - 1) + 1 + 1) with (1 * (2 * n)) by lia. now rewrite Nat.mod_mul by lia.
    + rewrite Nat.mod_small by lia. lia.
Qed.
Lemma to_permutation_ok w : P w -> to_permutation (NPar n (inv_of w)) = Ok w.
Proof.
  intros Hw. unfold to_permutation. cbn [np_n np_inv]. pose proof (isperm_length n w Hw) as Lw.
  assert (K : forall k, k <= n -> foldM (fun word i => x <- get (inv_of w) (2 * i) ;; set_ word i (x / 2)) (seq 0 k) (repeat 0 n) =
    Ok (firstn k w ++ repeat 0 (n - k))).
  { induction k as [|k IH]; intros Hk; [cbn; now rewrite Nat.sub_0_r|].
    rewrite seq_S, foldM_app, IH by lia. cbn [bind foldM Nat.add].
    rewrite (get_ok _ _ 0) by (rewrite inv_of_length; lia). rewrite inv_even by lia. cbn [bind].
    rewrite set_ok by (rewrite app_length, firstn_length, repeat_length; lia). cbn [bind]. f_equal. rewrite div_2'.
    apply (nth_ext_len _ _ n 0).
    - rewrite upd_length, app_length, firstn_length, repeat_length. lia.
    - rewrite app_length, firstn_length, repeat_length. lia.
    - assert (F : forall j x, j <= n -> x < n -> nth x (firstn j w ++ repeat 0 (n - j)) 0 = if x <? j then ap w x else 0).
      { intros j x Hj Hx. destruct (Nat.ltb_spec x j).
        - rewrite app_nth1 by (rewrite firstn_length; lia). rewrite <- (firstn_skipn j w) at 2. 
          rewrite (app_nth1 (firstn j w)) by (rewrite firstn_length; lia). reflexivity.
        - rewrite app_nth2 by (rewrite firstn_length; lia). now rewrite nth_repeat. }
      intros x Hx. rewrite nth_upd, !F by lia. rewrite app_length, firstn_length, repeat_length.
      destruct (Nat.eqb_spec k x) as [<-|N]; destruct (Nat.ltb_spec k (Nat.min k (length w) + (n - k))); cbn [andb];
      repeat match goal with |- context[?a <? ?b] => destruct (Nat.ltb_spec a b) end; try lia; reflexivity. }
  rewrite K by lia. rewrite firstn_all2 by lia. rewrite Nat.sub_diag. cbn. now rewrite app_nil_r.
Qed.

Lemma mapM_seq {A} (f : nat -> res A) (g : nat -> A) m : (forall i, i < m -> f i = Ok (g i)) -> mapM f (seq 0 m) = Ok (map g (seq 0 m)).
Proof. intros H. apply mapM_ok. intros i Hi. apply in_seq in Hi. apply H. lia. Qed.

Lemma mod_2n a : 0 < n -> (a < 2 * n -> a mod (2 * n) = a) /\ (2 * n <= a < 4 * n -> a mod (2 * n) = a - 2 * n).
Proof.
  intros H. split; intros L; [now apply Nat.mod_small|]. replace a with (a - 2 * n + 1 * (2 * n)) at 1 by lia.
  rewrite Nat.mod_add, Nat.mod_small by lia. reflexivity.
Qed.

Lemma right_complement_ok w : P w -> right_complement (NPar n (inv_of w)) = Ok (NPar n (inv_of (pinv w ** cox))).
Proof.
  intros Hw. pose proof (isperm_pinv n w Hw) as Hi. unfold right_complement. cbn [np_n np_inv].
  rewrite (mapM_seq _ (fun i => (nth ((i + 2 * n - 1) mod (2 * n)) (inv_of w) 0 + 1) mod (2 * n))).
  2:{ intros i Li. rewrite (get_ok _ _ 0); [reflexivity|]. rewrite inv_of_length. apply Nat.mod_upper_bound. lia. }
  cbn [bind]. f_equal. f_equal. pose proof (P_cox n) as Hc. pose proof (isperm_pcomp n _ _ Hi Hc) as Hp.
  apply inv_of_ext; [now rewrite map_length, seq_length|exact Hp| |].
  - intros i Li. rewrite nth_map_seq by lia. rewrite (app_pcomp n) by auto. rewrite ap_cox by exact Li.
    replace ((2 * i + 2 * n - 1) mod (2 * n)) with (2 * (if i =? 0 then n - 1 else i - 1) + 1).
    + rewrite inv_odd by (destruct (i =? 0); lia). rewrite Nat.mod_small; [reflexivity|].
      assert (ap (pinv w) (if i =? 0 then n - 1 else i - 1) < n) by (apply isperm_app_lt; auto; destruct (i =? 0); lia). lia.
    + destruct (mod_2n (2 * i + 2 * n - 1) ltac:(lia)) as [A B]. destruct (Nat.eqb_spec i 0); [rewrite A|rewrite B]; lia.
  - intros i Li. rewrite (app_pcomp n) by auto. rewrite ap_cox by exact Li. set (c := if i =? 0 then n - 1 else i - 1).
    assert (Lc : c < n) by (unfold c; destruct (i =? 0); lia). pose proof (isperm_app_lt n _ c Hi Lc).
    rewrite nth_map_seq by lia.
    replace ((2 * ap (pinv w) c + 1 + 2 * n - 1) mod (2 * n)) with (2 * ap (pinv w) c).
    + rewrite inv_even by lia. rewrite (app_pinv n) by auto. destruct (mod_2n (2 * c + 1 + 1) ltac:(lia)) as [A B].
      unfold c in *. destruct (Nat.eqb_spec i 0); [rewrite B|rewrite A]; lia.
    + destruct (mod_2n (2 * ap (pinv w) c + 1 + 2 * n - 1) ltac:(lia)) as [A B]. rewrite B; lia.
Qed.
Lemma left_complement_ok w : P w -> left_complement (NPar n (inv_of w)) = Ok (NPar n (inv_of (cox ** pinv w))).
Proof.
  intros Hw. pose proof (isperm_pinv n w Hw) as Hi. unfold left_complement. cbn [np_n np_inv].
  rewrite (mapM_seq _ (fun i => (nth ((i + 1) mod (2 * n)) (inv_of w) 0 + 2 * n - 1) mod (2 * n))).
  2:{ intros i Li. rewrite (get_ok _ _ 0); [reflexivity|]. rewrite inv_of_length. apply Nat.mod_upper_bound. lia. }
  cbn [bind]. f_equal. f_equal. pose proof (P_cox n) as Hc. pose proof (isperm_pcomp n _ _ Hc Hi) as Hp.
  apply inv_of_ext; [now rewrite map_length, seq_length|exact Hp| |].
  - intros i Li. rewrite nth_map_seq by lia. rewrite (app_pcomp n) by auto. pose proof (isperm_app_lt n _ i Hi Li).
    rewrite ap_cox by assumption. rewrite (Nat.mod_small (2 * i + 1)) by lia. rewrite inv_odd by lia.
    destruct (mod_2n (2 * ap (pinv w) i + 2 * n - 1) ltac:(lia)) as [A B].
    destruct (Nat.eqb_spec (ap (pinv w) i) 0); [rewrite A|rewrite B]; lia.
  - intros i Li. rewrite (app_pcomp n) by auto. pose proof (isperm_app_lt n _ i Hi Li) as Lj. set (j := ap (pinv w) i) in *.
    rewrite ap_cox by exact Lj. rewrite nth_map_seq by (destruct (j =? 0); lia).
    replace ((2 * (if j =? 0 then n - 1 else j - 1) + 1 + 1) mod (2 * n)) with (2 * j).
    + rewrite inv_even by exact Lj. unfold j. rewrite (app_pinv n) by auto.
      destruct (mod_2n (2 * i + 1 + 2 * n - 1) ltac:(lia)) as [A B]. rewrite B; lia.
    + destruct (mod_2n (2 * (if j =? 0 then n - 1 else j - 1) + 1 + 1) ltac:(lia)) as [A B].
      destruct (Nat.eqb_spec j 0); [rewrite B|rewrite A]; lia.
Qed.

(** ** enumeration *)
Definition NE : list npar := map (NPar n) (dyck (S n) n).
Lemma all_of_size_ok : all_of_size n = Ok NE.
Proof.
  unfold all_of_size. rewrite generate_spec. destruct (Z.ltb_spec (2 * Z.of_nat n) 0); [lia|].
  rewrite (Z.mul_comm 2), Z.mod_mul, Z.div_mul by lia. cbn [orb Z.eqb]. cbn [bind]. rewrite Nat2Z.id. reflexivity.
Qed.
Lemma NE_in p : In p NE <-> exists w, Q w /\ p = NPar n (inv_of w).
Proof.
  unfold NE. rewrite in_map_iff. split.
  - intros [s [<- Hs]]. apply (dyck_spec (S n) n ltac:(lia)) in Hs. destruct Hs as [C L].
    destruct (crossingless_inv_of s C L) as [w [Hw ->]]. eauto.
  - intros [w [Hw ->]]. exists (inv_of w). split; [reflexivity|]. apply (dyck_spec (S n) n); [lia|].
    split; [|apply inv_of_length]. apply inv_of_crossingless; apply Hw.
Qed.
Lemma NE_NoDup : NoDup NE.
Proof.
  unfold NE. apply FinFun.Injective_map_NoDup; [intros x y E; now injection E|]. apply dyck_NoDup. lia.
Qed.
Lemma NE_length : length NE = catalan n.
Proof.
  unfold NE. rewrite map_length. unfold catalan. rewrite <- dyck_catalan. now rewrite Nat.div_mul by lia.
Qed.
End Match.
