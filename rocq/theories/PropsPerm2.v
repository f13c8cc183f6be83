(** PropsPerm2.v – properties C05 to C11: permutations. *)
From Verif Require Import Base ModelPerm PermTheory WeakOrder PermWords CycleTheory SpecBraid SpecPerm SpecPermTheory PropsPerm.
From Coq Require Import Permutation Sorted.

(** ** C06 *)
Lemma orb_traverses w n i m : isperm n w -> 0 < m -> it w m i = i -> traverses w (orb w m i).
Proof.
  intros Hw Hm E k Hk. rewrite (orb_length w) in *. unfold orb.
  rewrite !(nth_map_seq (fun k => it w k i)) by (try apply Nat.mod_upper_bound; lia).
  rewrite <- it_S. destruct (Nat.eq_dec (k + 1) m) as [<-|N].
  - rewrite Nat.mod_same by lia. replace (S k) with (k + 1) by lia. exact E.
  - rewrite Nat.mod_small by lia. f_equal. lia.
Qed.
Theorem C06_disjoint_cycles n w : is_perm_word n w ->
  exists cycles, disjoint_cycles w = Ok cycles /\
    Permutation (concat cycles) (seq 0 n) /\
    Forall (fun c => c <> [] /\ traverses w c /\ Forall (fun x => hd 0 c <= x) c) cycles /\
    StronglySorted (fun c c' => hd 0 c < hd 0 c') cycles.
Proof.
  intros Hw. destruct (disjoint_cycles_ok n w Hw) as [cs [E [HP [HC HS]]]].
  exists cs. split; [exact E|]. split; [exact HP|]. split; [|exact HS].
  apply Forall_forall. intros c Hc. destruct (HC c Hc) as [i [Ci Hi]].
  rewrite (is_cycle_hd n w i c Ci). destruct Ci as [Li [m [Hm [-> [Em ND]]]]].
  split; [|split].
  - intros K. apply (f_equal (@length nat)) in K. rewrite orb_length in K. cbn in K. lia.
  - now apply (orb_traverses w n).
  - apply Forall_forall. exact Hi.
Qed.
Lemma Permutation_list_sum l l' : Permutation l l' -> list_sum l = list_sum l'.
Proof. induction 1; unfold list_sum in *; cbn in *; lia. Qed.
Lemma list_sum_lengths {A} (cs : list (list A)) : list_sum (map (@length A) cs) = length (concat cs).
Proof. induction cs as [|c cs IH]; [reflexivity|]. cbn. rewrite app_length. fold (list_sum (map (@length A) cs)). lia. Qed.
Theorem C06_cycle_type n w : is_perm_word n w ->
  exists cycles l, disjoint_cycles w = Ok cycles /\ cycle_type w = Ok l /\
    Permutation l (map (@length nat) cycles) /\ StronglySorted ge l /\ list_sum l = n.
Proof.
  intros Hw. destruct (disjoint_cycles_ok n w Hw) as [cs [E [HP _]]].
  exists cs, (sorted geb (map (@length nat) cs)). split; [exact E|]. split; [now apply (cycle_type_cycles w)|].
  assert (PP : Permutation (sorted geb (map (@length nat) cs)) (map (@length nat) cs)) by apply sorted_perm.
  split; [exact PP|]. split.
  - apply sorted_sorted; unfold geb; intros x y; [rewrite Nat.leb_le|rewrite Nat.leb_gt|]; try lia.
  - rewrite (Permutation_list_sum _ _ PP), list_sum_lengths, (Permutation_length HP). apply seq_length.
Qed.
Example C06_case : disjoint_cycles [2; 1; 4; 0; 3; 5] = Ok [[0; 2; 4; 3]; [1]; [5]] /\ cycle_type [2; 1; 4; 0; 3; 5] = Ok [4; 1; 1].
Proof. split; reflexivity. Qed.

(** ** C05 *)
Definition par (k : nat) : bool := Nat.odd k.
Lemma par_even a b : Nat.Even (a + b) -> Nat.odd a = Nat.odd b.
Proof.
  intros H. apply Nat.even_spec in H. rewrite Nat.even_add in H. rewrite <- !Nat.negb_even.
  destruct (Nat.even a), (Nat.even b); try reflexivity; discriminate.
Qed.
Lemma odd_plength_comp n x y : isperm n x -> isperm n y ->
  Nat.odd (plength (pcomp x y)) = xorb (Nat.odd (plength x)) (Nat.odd (plength y)).
Proof.
  intros Hx Hy. destruct (redw_ex n x Hx) as [u Hu]. destruct (redw_ex n y Hy) as [v Hv].
  pose proof (redw_inr n u x Hu) as Ru. pose proof (redw_inr n v y Hv) as Rv.
  rewrite <- (redw_prodw n u x Hu), <- (redw_prodw n v y Hv), <- prodw_app by assumption.
  rewrite (par_even _ _ (proj2 (plength_prodw n (u ++ v) ltac:(apply Forall_app; auto)))).
  rewrite (par_even _ _ (proj2 (plength_prodw n u Ru))), (par_even _ _ (proj2 (plength_prodw n v Rv))).
  now rewrite app_length, Nat.odd_add.
Qed.
Lemma odd_sg n i : i + 1 < n -> Nat.odd (plength (sg n i)) = true.
Proof.
  intros Hi. assert (H : inr n [i]) by (constructor; [exact Hi|constructor]).
  rewrite <- (prodw_sg n i Hi), (par_even _ _ (proj2 (plength_prodw n [i] H))). reflexivity.
Qed.
Lemma ptrans_sym n a b : a < n -> b < n -> ptrans n a b = ptrans n b a.
Proof.
  intros Ha Hb. apply (nth_ext_len _ _ n 0); try (apply isperm_length, isperm_ptrans; assumption).
  intros k Hk. change (ap (ptrans n a b) k = ap (ptrans n b a) k). rewrite !app_ptrans by assumption.
  destruct (Nat.eqb_spec k a), (Nat.eqb_spec k b); lia.
Qed.
Lemma ptrans_conj n a b : a < b -> b + 1 < n ->
  ptrans n a (b + 1) = pcomp (sg n b) (pcomp (ptrans n a b) (sg n b)).
Proof.
  intros Hab Hb. assert (S : isperm n (sg n b)) by now apply isperm_sg.
  assert (T : isperm n (ptrans n a b)) by (apply isperm_ptrans; lia).
  apply (nth_ext_len _ _ n 0); [apply isperm_length, isperm_ptrans; lia|apply isperm_length; auto using isperm_pcomp|].
  intros k Hk. change (ap (ptrans n a (b + 1)) k = ap (pcomp (sg n b) (pcomp (ptrans n a b) (sg n b))) k).
  rewrite !(app_pcomp n) by auto using isperm_pcomp. rewrite (app_ptrans n a (b + 1)) by lia.
  rewrite (app_sg n b k) by lia.
  destruct (Nat.eqb_spec k b) as [->|N1]; [|destruct (Nat.eqb_spec k (b + 1)) as [->|N2]].
  - rewrite (app_ptrans n a b) by lia. destruct (Nat.eqb_spec b a); [lia|]. destruct (Nat.eqb_spec b (b + 1)); [lia|].
    destruct (Nat.eqb_spec (b + 1) a); [lia|]. destruct (Nat.eqb_spec (b + 1) b); [lia|].
    now rewrite app_sg_i1.
  - rewrite (app_ptrans n a b) by lia. rewrite Nat.eqb_refl. destruct (Nat.eqb_spec b a); [lia|].
    destruct (Nat.eqb_spec (b + 1) a); [lia|]. rewrite app_sg_o; lia.
  - rewrite (app_ptrans n a b) by lia. destruct (Nat.eqb_spec k b); [lia|]. destruct (Nat.eqb_spec k a) as [->|N3].
    + now rewrite app_sg_i.
    + rewrite app_sg_o; lia.
Qed.
Lemma odd_ptrans n a b : a < n -> b < n -> a <> b -> Nat.odd (plength (ptrans n a b)) = true.
Proof.
  assert (K : forall d a, a + 1 + d < n -> Nat.odd (plength (ptrans n a (a + 1 + d))) = true).
  { clear a b. induction d as [|d IH]; intros a H.
    - rewrite Nat.add_0_r in *. now apply odd_sg.
    - replace (a + 1 + S d) with (a + 1 + d + 1) by lia. rewrite ptrans_conj by lia.
      assert (S : isperm n (sg n (a + 1 + d))) by (apply isperm_sg; lia).
      assert (T : isperm n (ptrans n a (a + 1 + d))) by (apply isperm_ptrans; lia).
      rewrite !(odd_plength_comp n), odd_sg, IH by (auto using isperm_pcomp; lia). reflexivity. }
  intros Ha Hb N. destruct (lt_eq_lt_dec a b) as [[L|L]|L]; [|lia|].
  - replace b with (a + 1 + (b - a - 1)) by lia. apply K. lia.
  - rewrite ptrans_sym by lia. replace a with (b + 1 + (a - b - 1)) by lia. apply K. lia.
Qed.

(** tr w l z: w maps along l and from the last entry to z *)
Fixpoint tr (w l : list nat) (z : nat) : Prop :=
  match l with [] => True | x :: l' => ap w x = hd z l' /\ tr w l' z end.
Lemma tr_swap w l z a b : a < length w -> b < length w -> ~ In a l -> ~ In b l -> tr w l z -> tr (swap w a b) l z.
Proof.
  intros La Lb. induction l as [|x l IH]; intros Na Nb H; [exact I|]. cbn in *. destruct H as [H1 H2].
  split; [|apply IH; tauto]. rewrite app_swap by assumption.
  destruct (Nat.eqb_spec x a) as [->|]; [tauto|]. destruct (Nat.eqb_spec x b) as [->|]; tauto.
Qed.
Lemma traverses_tr w c : traverses w c -> tr w c (hd 0 c).
Proof.
  intros H. assert (K : forall l p, c = p ++ l -> tr w l (hd 0 c)).
  { induction l as [|x l IH]; intros p E; [exact I|]. cbn. split.
    - specialize (H (length p)). rewrite E in H. rewrite app_length in H. cbn [length] in H.
      specialize (H ltac:(lia)). rewrite nth_middle in H. rewrite H. destruct l as [|y l].
      + replace (length p + 1) with (length p + 1) by lia. rewrite Nat.mod_same by lia. rewrite E. destruct p; reflexivity.
      + rewrite Nat.mod_small by (cbn [length]; lia). rewrite app_nth2 by lia.
        replace (length p + 1 - length p) with 1 by lia. reflexivity.
    - apply (IH (p ++ [x])). rewrite <- app_assoc. exact E. }
  now apply (K c []).
Qed.

Lemma parity_cycles n : forall k w cs, isperm n w -> list_sum (map (fun c => length c - 1) cs) = k ->
  Permutation (concat cs) (seq 0 n) -> Forall (fun c => c <> [] /\ tr w c (hd 0 c)) cs ->
  Nat.odd (plength w) = Nat.odd (length cs + n).
Proof.
  induction k as [|k IH]; intros w cs Hw Hk HP HC.
  - assert (S1 : Forall (fun c => length c = 1) cs).
    { clear HP. induction HC as [|c cs [H1 H2] HC IHc]; [constructor|]. cbn in Hk.
      fold (list_sum (map (fun c => length c - 1) cs)) in Hk. destruct c; [contradiction|]. cbn in *.
      constructor; [cbn; lia|]. apply IHc. lia. }
    assert (L : length cs = n).
    { rewrite <- (seq_length n 0), <- (Permutation_length HP). clear - S1.
      induction S1 as [|c cs H _ IH]; [reflexivity|]. cbn. rewrite app_length, H. cbn. now rewrite IH. }
    assert (w = identity n) as ->.
    { apply (isperm_ext n); auto using isperm_id. intros i Hi. rewrite app_id by exact Hi.
      assert (In i (concat cs)) as K by (apply (Permutation_in _ (Permutation_sym HP)); apply in_seq; lia).
      apply in_concat in K. destruct K as [c [Hc Hic]]. rewrite Forall_forall in HC, S1.
      destruct (HC c Hc) as [_ T]. specialize (S1 c Hc). destruct c as [|y [|? ?]]; try discriminate.
      destruct Hic as [<-|[]]. cbn in T. tauto. }
    rewrite plength_id, L. rewrite Nat.odd_add. now destruct (Nat.odd n).
  - assert (E : exists l1 c l2, cs = l1 ++ c :: l2 /\ 2 <= length c).
    { clear - Hk. assert (Hm : 0 < list_sum (map (fun c : list nat => length c - 1) cs)) by lia. clear Hk.
      induction cs as [|c cs IH]; cbn in Hm; [lia|].
      destruct (le_lt_dec 2 (length c)) as [L|L]; [exists [], c, cs; auto|].
      destruct IH as [l1 [c' [l2 [-> K]]]].
      - fold (list_sum (map (fun c : list nat => length c - 1) cs)) in Hm. lia.
      - exists (c :: l1), c', l2. auto. }
    destruct E as [l1 [c [l2 [-> Lc]]]]. destruct c as [|a [|b r]]; cbn in Lc; try lia. clear Lc.
    apply Forall_app in HC. destruct HC as [C1 C2]. inversion C2 as [|? ? [_ TT] C3]; subst. cbn in TT. destruct TT as [Ta [Tb Tr]].
    set (w' := swap w a b).
    assert (ND : NoDup (concat (l1 ++ (a :: b :: r) :: l2))).
    { apply (Permutation_NoDup (Permutation_sym HP)), seq_NoDup. }
    assert (PB : forall x, In x (concat (l1 ++ (a :: b :: r) :: l2)) -> x < n).
    { intros x Hx. apply (Permutation_in _ HP), in_seq in Hx. lia. }
    rewrite concat_app in ND, PB, HP. cbn [concat] in ND, PB, HP. cbn [app] in ND, PB, HP.
    assert (Ha : a < n) by (apply PB, in_app_iff; right; now left).
    assert (Hb : b < n) by (apply PB, in_app_iff; right; right; now left).
    pose proof (isperm_length n w Hw) as L.
    pose proof (NoDup_remove _ _ _ ND) as [ND1 Na].
    assert (ND2 : NoDup (concat l1 ++ b :: r ++ concat l2)) by exact ND1.
    pose proof (NoDup_remove _ _ _ ND2) as [_ Nb]. rewrite !in_app_iff in Na, Nb. cbn [In] in Na. rewrite in_app_iff in Na. rewrite in_app_iff in Nb.
    assert (Nab : a <> b) by (intros ->; apply Na; right; now left).
    assert (IH' : Nat.odd (plength w') = Nat.odd (length (l1 ++ [b] :: (a :: r) :: l2) + n)).
    { apply IH.
      - now apply isperm_swap.
      - rewrite !map_app, !list_sum_app in *. cbn in *. lia.
      - rewrite concat_app. cbn [concat app]. etransitivity; [|exact HP]. apply Permutation_app_head. apply perm_swap.
      - assert (OT : forall l, (forall x, In x (concat l) -> x <> a /\ x <> b) ->
            Forall (fun c => c <> [] /\ tr w c (hd 0 c)) l -> Forall (fun c => c <> [] /\ tr w' c (hd 0 c)) l).
        { intros l Hl. rewrite !Forall_forall. intros F c Hc. destruct (F c Hc) as [F1 F2]. split; [exact F1|].
          apply tr_swap; [lia|lia| | |exact F2]; intros K; destruct (Hl _ ltac:(apply in_concat; eauto)); congruence. }
        apply Forall_app. split; [|constructor; [|constructor]].
        + apply OT; [|exact C1]. intros x Hx. split; intros ->; tauto.
        + split; [discriminate|]. cbn. split; [|exact I]. unfold w'. rewrite app_swap by lia.
          rewrite Nat.eqb_refl. destruct (Nat.eqb_spec b a); [congruence|]. exact Ta.
        + split; [discriminate|]. cbn. split.
          * unfold w'. rewrite app_swap by lia. rewrite Nat.eqb_refl. exact Tb.
          * apply tr_swap; [lia|lia| | |exact Tr]; tauto.
        + apply OT; [|exact C3]. intros x Hx. split; intros ->; tauto. }
    assert (E2 : Nat.odd (plength w') = negb (Nat.odd (plength w))).
    { unfold w'. rewrite <- (pcomp_ptrans n) by assumption. rewrite (odd_plength_comp n), odd_ptrans by auto using isperm_ptrans.
      apply xorb_true_r. }
    rewrite E2 in IH'. rewrite !app_length in *. cbn [length] in *.
    replace (length l1 + S (S (length l2)) + n) with (S (length l1 + S (length l2) + n)) in IH' by lia.
    rewrite Nat.odd_succ, <- Nat.negb_odd in IH'. apply (f_equal negb) in IH'. now rewrite !negb_involutive in IH'.
Qed.
Lemma odd_mod2 k : k mod 2 = if Nat.odd k then 1 else 0.
Proof.
  rewrite (Nat.div_mod k 2) at 2 by lia. rewrite Nat.odd_add, Nat.odd_mul. cbn [Nat.odd Nat.even negb andb xorb].
  pose proof (Nat.mod_upper_bound k 2 ltac:(lia)). destruct (k mod 2) as [|[|]]; [reflexivity|reflexivity|lia].
Qed.
Theorem C05_parity_length n w : is_perm_word n w -> parity w = Ok (plength w mod 2).
Proof.
  intros Hw. destruct (C06_disjoint_cycles n w Hw) as [cs [E [HP [HC _]]]].
  unfold parity. rewrite (cycle_type_cycles w cs E). cbn [bind]. f_equal.
  rewrite (Permutation_length (sorted_perm geb (map (@length nat) cs))), map_length, (isperm_length n w Hw).
  rewrite !odd_mod2. rewrite (parity_cycles n _ w cs Hw eq_refl HP); [reflexivity|].
  apply Forall_impl with (2 := HC). intros c [H1 [H2 _]]. split; [exact H1|]. now apply traverses_tr.
Qed.
Theorem C05_parity_hom n x y : is_perm_word n x -> is_perm_word n y ->
  exists z p q r, compose x y = Ok z /\ parity x = Ok p /\ parity y = Ok q /\ parity z = Ok r /\ r = (p + q) mod 2.
Proof.
  intros Hx Hy. exists (pcomp x y), (plength x mod 2), (plength y mod 2), (plength (pcomp x y) mod 2).
  rewrite (compose_ok n) by assumption. rewrite !(C05_parity_length n) by (auto using isperm_pcomp; now apply isperm_pcomp).
  repeat split. rewrite <- Nat.add_mod by lia. rewrite !odd_mod2, (odd_plength_comp n), Nat.odd_add by assumption. reflexivity.
Qed.
Example C05_case : parity [2; 1; 4; 0; 3; 5] = Ok 1 /\ plength [2; 1; 4; 0; 3; 5] = 5. Proof. split; reflexivity. Qed.

(** ** C07 *)
Lemma lexle_lex_lt u v : length u = length v -> lexle u v -> u = v \/ lex_lt u v.
Proof.
  revert v. induction u as [|x u IH]; intros [|y v] L H; try discriminate; [now left|]. cbn in H. injection L as L.
  destruct H as [H|[<- H]].
  - right. exists [], x, y, u, v. auto.
  - destruct (IH v L H) as [<-|[p [a [b [u' [v' [-> [-> K]]]]]]]]; [now left|]. right. exists (x :: p), a, b, u', v'. auto.
Qed.
Theorem C07_shortlex n x : is_perm_word n x ->
  exists u, shortlex x = Ok u /\ from_cox n u = Ok x /\ length u = plength x /\
    (forall v, from_cox n v = Ok x -> plength x <= length v /\ (length v = plength x -> u = v \/ lex_lt u v)).
Proof.
  intros Hx. destruct (shortlex_sl n x Hx) as [u [E S]]. pose proof (sl_redw n u x S) as R.
  exists u. split; [exact E|].
  split; [rewrite from_cox_ok by (eapply redw_inr; exact R); f_equal; now apply redw_prodw|].
  assert (Lu : length u = plength x) by (rewrite (redw_len n u x R); now apply (llen_plength n)).
  split; [exact Lu|]. intros v Ev.
  assert (Rv : inr n v).
  { assert (D : {inr n v} + {~ inr n v}) by (apply Forall_dec; intros; apply lt_dec).
    destruct D as [D|D]; [exact D|]. rewrite (from_cox_err n v D) in Ev. discriminate. }
  rewrite from_cox_ok in Ev by exact Rv. injection Ev as Ev. split.
  - rewrite <- Ev. now apply (plength_prodw n).
  - intros Lv. apply lexle_lex_lt; [congruence|]. apply (sl_least n u x S). rewrite <- Ev.
    apply minimal_redw; [exact Rv|]. rewrite Ev. lia.
Qed.
Theorem C07_from_cox n u w : from_cox n u = Ok w <-> expresses n u w.
Proof.
  split.
  - intros Ev. assert (Rv : inr n u).
    { assert (D : {inr n u} + {~ inr n u}) by (apply Forall_dec; intros; apply lt_dec).
      destruct D as [D|D]; [exact D|]. rewrite (from_cox_err n u D) in Ev. discriminate. }
    rewrite from_cox_ok in Ev by exact Rv. injection Ev as Ev. now apply expresses_iff.
  - intros E. apply expresses_iff in E. destruct E as [R <-]. now apply from_cox_ok.
Qed.
Example C07_case : shortlex [3; 1; 0; 2] = Ok [0; 2; 1; 0] /\ from_cox 4 [0; 2; 1; 0] = Ok [3; 1; 0; 2]. Proof. split; reflexivity. Qed.

(** ** C08 *)
Lemma app_inj_1 {A} (l1 l2 l3 l4 : list A) : length l1 = length l3 -> l1 ++ l2 = l3 ++ l4 -> l1 = l3 /\ l2 = l4.
Proof.
  revert l3. induction l1 as [|x l1 IH]; intros [|y l3] L E; try discriminate; [auto|]. injection L as L. injection E as -> E.
  destruct (IH l3 L E) as [-> ->]. auto.
Qed.
Section C08.
Variable n : nat.
Variable w : list nat.
Hypothesis Hw : isperm n w.
Variable cs : list (list nat).
Hypothesis HP : Permutation (concat cs) (seq 0 n).
Hypothesis HC : forall c, In c cs -> exists i, is_cycle n w i c /\ forall x, In x c -> i <= x.
Hypothesis HS : StronglySorted (fun c c' => hd 0 c < hd 0 c') cs.

Lemma so_it x y : same_orbit w x y <-> exists k, it w k x = y. Proof. reflexivity. Qed.
Lemma c_lt c x : In c cs -> In x c -> x < n.
Proof.
  intros Hc Hx. assert (K : In x (concat cs)) by (apply in_concat; eauto).
  apply (Permutation_in _ HP), in_seq in K. lia.
Qed.
Lemma c_ex x : x < n -> exists c, In c cs /\ In x c.
Proof.
  intros Hx. assert (K : In x (concat cs)) by (apply (Permutation_in _ (Permutation_sym HP)), in_seq; lia).
  apply in_concat in K. destruct K as [c [Hc Hxc]]. eauto.
Qed.
Lemma so_in c x y : In c cs -> In x c -> same_orbit w x y -> In y c.
Proof. intros Hc Hx [k <-]. destruct (HC c Hc) as [i [Ci _]]. exact (cycle_it n w i c k x Ci Hx). Qed.
Lemma so_of c x y : In c cs -> In x c -> In y c -> same_orbit w x y.
Proof.
  intros Hc Hx Hy. destruct (HC c Hc) as [i [[Hi [m [Hm [-> [E _]]]]] _]].
  apply in_orb in Hx, Hy. destruct Hx as [a [Ha ->]], Hy as [b [Hb ->]].
  exists (m - a + b). change (it w (m - a + b) (it w a i) = it w b i).
  rewrite <- (it_add w). replace (m - a + b + a) with (b + m) by lia. now rewrite (it_add w), E.
Qed.
Lemma c_nodup : NoDup (concat cs).
Proof. exact (Permutation_NoDup (Permutation_sym HP) (seq_NoDup n 0)). Qed.

(** descending *)
Definition desc_c (c : list nat) : Prop := forall k, k + 2 < length c -> nth (k + 2) c 0 < nth (k + 1) c 0.
Lemma desc_b c : NoDup c ->
  (forallb (fun '(a, b) => b <=? a) (combine (skipn 1 c) (skipn 2 c)) = true <-> desc_c c).
Proof.
  destruct c as [|x c]; [intros _; split; [intros _ k Hk; cbn in Hk; lia|reflexivity]|].
  cbn [skipn]. intros ND. inversion ND as [|? ? _ ND' EE]; subst. clear ND.
  assert (K : forallb (fun '(a, b) => b <=? a) (combine c (tl c)) = true <-> forall k, k + 1 < length c -> nth (k + 1) c 0 < nth k c 0).
  { clear - ND'. induction c as [|a [|b c] IH].
    - split; [intros _ k Hk; cbn in Hk; lia|reflexivity].
    - split; [intros _ k Hk; cbn in Hk; lia|reflexivity].
    - change (combine (a :: b :: c) (tl (a :: b :: c))) with ((a, b) :: combine (b :: c) (tl (b :: c))).
      cbn [forallb]. rewrite andb_true_iff, Nat.leb_le. inversion ND' as [|? ? N1 N2]; subst. rewrite (IH N2). split.
      + intros [H1 H2] k Hk. destruct k as [|k]; [cbn; assert (a <> b) by (intros ->; apply N1; now left); lia|].
        apply (H2 k). cbn [length] in *. lia.
      + intros H. split; [specialize (H 0); cbn in H; lia|]. intros k Hk. apply (H (S k)). cbn [length] in *. lia. }
  replace (match c with [] => [] | _ :: l => l end) with (tl c) by reflexivity. rewrite K. split.
  - intros H k Hk. replace (k + 2) with (S (k + 1)) by lia. replace (k + 1) with (S k) at 2 by lia. cbn [nth]. apply H. cbn [length] in Hk. lia.
  - intros H k Hk. specialize (H k). cbn [length] in H. specialize (H ltac:(lia)).
    replace (k + 2) with (S (k + 1)) in H by lia. replace (k + 1) with (S k) in H at 2 by lia. exact H.
Qed.
Lemma desc_lt c : desc_c c -> forall j k, 1 <= j -> j < k -> k < length c -> nth k c 0 < nth j c 0.
Proof.
  intros H j k Hj Hjk. induction Hjk as [|k Hjk IH]; intros Hk.
  - specialize (H (j - 1)). replace (j - 1 + 2) with (S j) in H by lia. replace (j - 1 + 1) with j in H by lia. auto.
  - specialize (H (k - 1)). replace (k - 1 + 2) with (S k) in H by lia. replace (k - 1 + 1) with k in H by lia.
    specialize (H ltac:(lia)). specialize (IH ltac:(lia)). lia.
Qed.
Lemma descends_iff : descends w <-> forall c, In c cs -> desc_c c.
Proof.
  pose proof (isperm_length n w Hw) as L. split.
  - intros H c Hc k Hk. destruct (HC c Hc) as [i [[Hi [m [Hm [Ec [E ND]]]]] Hmin]].
    assert (Lc : length c = m) by (rewrite Ec; apply orb_length).
    assert (Hx : In (nth (k + 1) c 0) c) by (apply nth_In; lia).
    pose proof (c_lt c _ Hc Hx) as Lx.
    assert (Ew : ap w (nth (k + 1) c 0) = nth (k + 2) c 0).
    { rewrite Ec. unfold orb. rewrite !(nth_map_seq (fun k => it w k i)) by lia. rewrite <- it_S. f_equal. lia. }
    destruct (H _ ltac:(rewrite L; exact Lx)) as [[K _]|K]; rewrite Ew in K; [exact K|exfalso].
    assert (Hii : In i c) by (rewrite Ec; apply in_orb; exists 0; split; [lia|reflexivity]).
    destruct (K i (so_of c _ _ Hc Hx Hii)) as [K1 _]. specialize (Hmin _ Hx).
    assert (K2 : nth (k + 1) c 0 = nth 0 c 0).
    { transitivity i; [lia|]. rewrite Ec. unfold orb. rewrite (nth_map_seq (fun k => it w k i)) by lia. reflexivity. }
    apply (proj1 (NoDup_nth c 0) ND) in K2; lia.
  - intros H x Hx. rewrite L in Hx. destruct (c_ex x Hx) as [c [Hc Hxc]]. specialize (H c Hc).
    destruct (HC c Hc) as [i [[Hi [m [Hm [Ec [E ND]]]]] Hmin]].
    assert (Lc : length c = m) by (rewrite Ec; apply orb_length).
    assert (Ic : forall k, k < m -> nth k c 0 = it w k i).
    { intros k Hk. rewrite Ec. unfold orb. now rewrite (nth_map_seq (fun k => it w k i)) by lia. }
    assert (Hxi := Hxc). rewrite Ec in Hxi. apply in_orb in Hxi. destruct Hxi as [k [Hk Ek]].
    assert (Yc : forall y, same_orbit w x y -> exists j, j < m /\ y = nth j c 0 /\ In y c).
    { intros y Hy. pose proof (so_in c x y Hc Hxc Hy) as Hyc. assert (Hyo := Hyc). rewrite Ec in Hyo. apply in_orb in Hyo.
      destruct Hyo as [j [Hj ->]]. exists j. rewrite Ic by exact Hj. auto. }
    assert (I0 : nth 0 c 0 = i) by (rewrite Ic by lia; reflexivity).
    destruct k as [|k].
    + right. cbn in Ek. subst x. intros y Hy. destruct (Yc y Hy) as [j [Hj [Ej Hyc]]]. split; [now apply Hmin|].
      destruct (Nat.eq_dec m 1) as [->|M1].
      * change (it w 1 i = i) in E. change (nth i w 0) with (it w 1 i). rewrite E. assert (j = 0) as -> by lia. lia.
      * change (nth i w 0) with (it w 1 i). rewrite <- Ic by lia. destruct j as [|[|j]]; [|lia|].
        -- rewrite Ej, I0. apply Hmin. apply nth_In. lia.
        -- rewrite Ej. pose proof (desc_lt c H 1 (S (S j)) ltac:(lia) ltac:(lia) ltac:(lia)). lia.
    + left. rewrite Ek. change (nth (it w (S k) i) w 0) with (it w (S (S k)) i).
      destruct (Nat.eq_dec (S (S k)) m) as [E'|M1].
      * rewrite E', E. assert (Nx : x <> i).
        { intros ->. assert (K : nth (S k) c 0 = nth 0 c 0) by (rewrite I0, Ic by lia; auto).
          apply (proj1 (NoDup_nth c 0) ND) in K; lia. }
        specialize (Hmin x Hxc). split; [lia|]. intros y Hy Ly. destruct (Yc y) as [j [Hj [Ej Hyc]]].
        { rewrite Ek. exact Hy. }
        destruct j as [|j]; [lia|]. rewrite <- Ic in Ly by lia.
        destruct (Nat.eq_dec j k) as [->|N]; [lia|].
        pose proof (desc_lt c H (S j) (S k) ltac:(lia) ltac:(lia) ltac:(lia)). lia.
      * rewrite <- !Ic by lia. pose proof (desc_lt c H (S k) (S (S k)) ltac:(lia) ltac:(lia) ltac:(lia)) as D.
        split; [exact D|]. intros y Hy Ly. destruct (Yc y) as [j [Hj [Ej Hyc]]].
        { rewrite Ek, <- Ic by lia. exact Hy. }
        destruct j as [|j]; [rewrite Ej, I0; apply Hmin, nth_In; lia|].
        destruct (lt_eq_lt_dec j k) as [[N|N]|N]; [|subst; lia|].
        -- pose proof (desc_lt c H (S j) (S k) ltac:(lia) ltac:(lia) ltac:(lia)). lia.
        -- destruct (Nat.eq_dec j (S k)) as [->|N']; [lia|].
           pose proof (desc_lt c H (S (S k)) (S j) ltac:(lia) ltac:(lia) ltac:(lia)). lia.
Qed.

(** marking *)
Lemma mark_cycle_spec s : forall m, Forall (fun x => x < length m) s -> StronglySorted lt s ->
  match mark_cycle m s with
  | None => exists j a b, nth j m false = true /\ ~ In j s /\ In a s /\ In b s /\ a < j < b
  | Some m' => length m' = length m /\
      (forall j a b, nth j m false = true -> ~ In j s -> In a s -> In b s -> a < j < b -> False) /\
      forall x, nth x m' false = nth x m false || ((2 <=? length s) && existsb (Nat.eqb x) s)
  end.
Proof.
  induction s as [|a s IH]; intros m HF HSo.
  { cbn. split; [reflexivity|]. split; [intros j a b _ _ []|]. intros x. now rewrite orb_false_r. }
  destruct s as [|b s].
  { cbn. split; [reflexivity|]. split; [|intros x; now rewrite orb_false_r].
    intros j x y _ _ [<-|[]] [<-|[]]. lia. }
  inversion HF as [|? ? La HF']; subst. inversion HF' as [|? ? Lb _]; subst.
  inversion HSo as [|? ? HS' Fa]; subst. inversion Fa as [|? ? Lab Fa']; subst.
  change (mark_cycle m (a :: b :: s)) with
    (if existsb (fun j => nth j m false) (seq (a + 1) (b - (a + 1))) then None else mark_cycle (upd (upd m a true) b true) (b :: s)).
  destruct (existsb (fun j => nth j m false) (seq (a + 1) (b - (a + 1)))) eqn:EX.
  - apply existsb_exists in EX. destruct EX as [j [Hj Mj]]. apply in_seq in Hj.
    exists j, a, b. split; [exact Mj|]. split; [|split; [now left|split; [now right; left|lia]]].
    intros [<-|[<-|K]]; try lia. inversion HS' as [|? ? _ Fb]; subst. rewrite Forall_forall in Fb. apply Fb in K. lia.
  - set (m1 := upd (upd m a true) b true).
    assert (L1 : length m1 = length m) by (unfold m1; now rewrite !upd_length).
    assert (M1 : forall x, nth x m1 false = nth x m false || (Nat.eqb x a || Nat.eqb x b)).
    { intros x. unfold m1. rewrite !nth_upd, upd_length. rewrite (Nat.eqb_sym x a), (Nat.eqb_sym x b).
      destruct (Nat.eqb_spec b x) as [->|]; [destruct (Nat.ltb_spec x (length m)); [|lia]; now rewrite !orb_true_r|]. cbn [andb].
      destruct (Nat.eqb_spec a x) as [->|]; [destruct (Nat.ltb_spec x (length m)); [|lia]; now rewrite !orb_true_r|].
      now rewrite !orb_false_r. }
    assert (NB : forall x, In x (b :: s) -> b <= x).
    { intros x [<-|K]; [lia|]. inversion HS' as [|? ? _ Fb]; subst. rewrite Forall_forall in Fb. apply Fb in K. lia. }
    specialize (IH m1 ltac:(rewrite L1; exact HF') HS').
    revert IH.
    destruct (mark_cycle m1 (b :: s)) as [m'|]; intros IH.
    + destruct IH as [I1 [I2 I3]]. split; [lia|]. split.
      * intros j x y Mj Nj Hx Hy Hxy.
        destruct (le_lt_dec b j) as [Lj|Lj].
        -- apply (I2 j b y); [rewrite M1, Mj; reflexivity|intros K; apply Nj; now right|now left| |].
           ++ destruct Hy as [<-|Hy]; [lia|exact Hy].
           ++ assert (j <> b) by (intros ->; apply Nj; now right; left). lia.
        -- assert (j <= a \/ a < j) as [K|K] by lia.
           ++ destruct Hx as [<-|Hx]; [lia|]. apply NB in Hx. lia.
           ++ assert (T : existsb (fun j => nth j m false) (seq (a + 1) (b - (a + 1))) = true); [|congruence].
              apply existsb_exists. exists j. split; [apply in_seq; lia|exact Mj].
      * intros x. rewrite I3, M1. cbn [length Nat.leb andb existsb].
        destruct (Nat.eqb x a), (Nat.eqb x b); cbn [orb]; rewrite ?orb_true_r, ?orb_false_r; try reflexivity.
        destruct s as [|y s]; cbn [length Nat.leb andb existsb]; reflexivity.
    + destruct IH as [j [x [y [Mj [Nj [Hx [Hy Hxy]]]]]]]. pose proof (NB x Hx) as Bx.
      exists j, x, y. rewrite M1 in Mj. destruct (Nat.eqb_spec j a); [lia|]. destruct (Nat.eqb_spec j b); [lia|].
      rewrite !orb_false_r in Mj. split; [exact Mj|]. split; [intros [<-|K]; [lia|now apply Nj]|].
      split; [now right|]. split; [now right|exact Hxy].
Qed.

Definition hits (p c : list nat) : Prop := exists j a b, In j p /\ 2 <= length p /\ In a c /\ In b c /\ a < j < b.
Lemma mark_cycles_spec : forall rest done m, cs = done ++ rest -> length m = n ->
  (forall x, nth x m false = true <-> exists p, In p done /\ 2 <= length p /\ In x p) ->
  (mark_cycles m rest = true <-> forall p c q1 q2 q3, cs = q1 ++ p :: q2 ++ c :: q3 -> length done <= length (q1 ++ p :: q2) -> ~ hits p c).
Proof.
  pose proof c_nodup as ND.
  induction rest as [|c rest IH]; intros done m Ecs Lm Hm; cbn [mark_cycles].
  - split; [|reflexivity]. intros _ p c q1 q2 q3 E Ld. exfalso. rewrite app_nil_r in Ecs.
    apply (f_equal (@length (list nat))) in E. rewrite Ecs in E. rewrite !app_length in *. cbn [length] in *.
    rewrite app_length in *. cbn [length] in *. lia.
  - assert (Hc : In c cs) by (rewrite Ecs; apply in_app_iff; right; now left).
    assert (NDc : NoDup c) by (destruct (HC c Hc) as [i [[_ [m0 [_ [_ [_ K]]]]] _]]; exact K).
    assert (Pc : Permutation (sorted Nat.leb c) c) by apply sorted_perm.
    assert (Ic : forall x, In x (sorted Nat.leb c) <-> In x c) by (intros x; split; apply Permutation_in; [exact Pc|now symmetry]).
    assert (So : StronglySorted lt (sorted Nat.leb c)).
    { assert (S1 : StronglySorted le (sorted Nat.leb c)) by (apply sorted_sorted; intros x y; [rewrite Nat.leb_le|rewrite Nat.leb_gt|]; lia).
      assert (N1 : NoDup (sorted Nat.leb c)) by exact (Permutation_NoDup (Permutation_sym Pc) NDc).
      clear - S1 N1. induction S1 as [|x l S IH F]; [constructor|]. inversion N1; subst. constructor; [now apply IH|].
      rewrite Forall_forall in *. intros y Hy. specialize (F y Hy). assert (x <> y) by congruence. lia. }
    pose proof (mark_cycle_spec (sorted Nat.leb c) m) as MS.
    assert (FB : Forall (fun x => x < length m) (sorted Nat.leb c)).
    { apply Forall_forall. intros x Hx. apply Ic in Hx. rewrite Lm. now apply (c_lt c). }
    specialize (MS FB So).
    assert (Dj : forall p x, In p done -> In x p -> ~ In x c).
    { intros p x Hp Hx Hxc. rewrite Ecs, concat_app in ND. cbn [concat] in ND.
      apply in_split in Hxc. destruct Hxc as [l1 [l2 Exc]]. rewrite Exc in ND. rewrite <- app_assoc in ND. cbn [app] in ND.
      rewrite app_assoc in ND. apply NoDup_remove_2 in ND. apply ND. rewrite !in_app_iff. left. left. apply in_concat. eauto. }
    destruct (mark_cycle m (sorted Nat.leb c)) as [m'|].
    + destruct MS as [Lm' [M1 M2]].
      assert (Hm' : forall x, nth x m' false = true <-> exists p, In p (done ++ [c]) /\ 2 <= length p /\ In x p).
      { intros x. rewrite M2, orb_true_iff, andb_true_iff, Nat.leb_le, (Permutation_length Pc), inb, Ic, Hm. split.
        - intros [[p [H1 H2]]|[H1 H2]].
          + exists p. rewrite in_app_iff. auto.
          + exists c. rewrite in_app_iff. cbn. auto.
        - intros [p [H1 H2]]. apply in_app_iff in H1. destruct H1 as [H1|[<-|[]]]; [left; eauto|right; exact H2]. }
      rewrite (IH (done ++ [c]) m'); [|rewrite <- app_assoc; exact Ecs|lia|exact Hm'].
      split.
      * intros H p c' q1 q2 q3 E Ld. rewrite app_length in *. cbn [length] in *.
        destruct (Nat.eq_dec (length done) (length q1 + S (length q2))) as [EL|NL].
        -- intros [j [a [b [Hj [H2 [Ha [Hb Hab]]]]]]].
           assert (EE : done = q1 ++ p :: q2 /\ c :: rest = c' :: q3).
           { apply app_inj_1; [rewrite app_length; cbn [length]; exact EL|]. rewrite <- Ecs, E, <- app_assoc. reflexivity. }
           destruct EE as [Ed Ec]. injection Ec as <- <-.
           apply (M1 j a b); rewrite ?Ic; auto.
           ++ apply Hm. exists p. split; [rewrite Ed; apply in_app_iff; right; now left|]. auto.
           ++ apply (Dj p); [rewrite Ed; apply in_app_iff; right; now left|exact Hj].
        -- apply (H p c' q1 q2 q3 E). rewrite !app_length. cbn [length]. lia.
      * intros H p c' q1 q2 q3 E Ld. apply (H p c' q1 q2 q3 E). rewrite !app_length in *. cbn [length] in *. lia.
    + split; [discriminate|]. intros H. exfalso. destruct MS as [j [a [b [Mj [Nj [Ha [Hb Hab]]]]]]].
      apply Hm in Mj. destruct Mj as [p [Hp [H2 Hj]]]. apply in_split in Hp. destruct Hp as [q1 [q2 Ed]].
      apply (H p c q1 q2 rest).
      * rewrite Ecs, Ed, <- app_assoc. reflexivity.
      * rewrite Ed. lia.
      * exists j, a, b. rewrite !Ic in *. auto.
Qed.
Lemma crossing_iff : crossing w <-> exists p c q1 q2 q3, cs = q1 ++ p :: q2 ++ c :: q3 /\ hits p c.
Proof.
  pose proof (isperm_length n w Hw) as L. pose proof c_nodup as ND. split.
  - intros [a [b [c [d [Hab [Hbc [Hcd [Hd [Oac [Obd Nab]]]]]]]]]]. rewrite L in Hd.
    destruct (c_ex a ltac:(lia)) as [A [HA Ha]]. destruct (c_ex b ltac:(lia)) as [B [HB Hb]].
    assert (Hc : In c A) by now apply (so_in A a). assert (Hdb : In d B) by now apply (so_in B b).
    assert (NAB : A <> B) by (intros <-; apply Nab; now apply (so_of A)).
    assert (L2 : forall (l : list nat) x y, In x l -> In y l -> x <> y -> 2 <= length l).
    { intros l x y Hx Hy N. destruct l as [|u [|v l]]; cbn in *; try lia. }
    apply in_split in HA. destruct HA as [l1 [l2 E]]. rewrite E in HB. apply in_app_iff in HB. destruct HB as [HB|[HB|HB]]; [|congruence|].
    + apply in_split in HB. destruct HB as [k1 [k2 ->]]. exists B, A, k1, k2, l2.
      split; [rewrite E, <- app_assoc; reflexivity|]. exists b, a, c. split; [exact Hb|]. split; [apply (L2 B b d); auto; lia|]. auto.
    + apply in_split in HB. destruct HB as [k1 [k2 ->]]. exists A, B, l1, k1, k2.
      split; [exact E|]. exists c, b, d. split; [exact Hc|]. split; [apply (L2 A a c); auto; lia|]. auto.
  - intros [p [c [q1 [q2 [q3 [E [j [a [b [Hj [H2 [Ha [Hb Hab]]]]]]]]]]]]].
    assert (Hp : In p cs) by (rewrite E; apply in_app_iff; right; now left).
    assert (Hc : In c cs) by (rewrite E; apply in_app_iff; right; right; apply in_app_iff; right; now left).
    destruct (HC p Hp) as [i [Ci Hi]]. destruct (HC c Hc) as [k [Ck Hk]].
    assert (Hik : i < k).
    { rewrite <- (is_cycle_hd n w i p Ci), <- (is_cycle_hd n w k c Ck). clear - HS E. rewrite E in HS.
      assert (S2 : StronglySorted (fun c c' => hd 0 c < hd 0 c') (p :: q2 ++ c :: q3)).
      { clear E. induction q1 as [|x q1 IH]; [exact HS|]. inversion HS; subst. auto. }
      inversion S2 as [|? ? _ F]; subst. rewrite Forall_forall in F. apply F. apply in_app_iff. right. now left. }
    specialize (Hk a Ha) as Ka.
    assert (Hip : In i p) by (destruct Ci as [_ [m [Hm [-> _]]]]; apply in_orb; exists 0; split; [lia|reflexivity]).
    exists i, a, j, b. split; [lia|]. split; [lia|]. split; [lia|]. split; [rewrite L; now apply (c_lt c)|].
    split; [now apply (so_of p)|]. split; [now apply (so_of c)|].
    intros K. apply (so_in p) in K; auto.
    rewrite E, concat_app in ND. cbn [concat] in ND. rewrite concat_app in ND. cbn [concat] in ND.
    apply in_split in K. destruct K as [x1 [x2 ->]]. rewrite <- app_assoc in ND. cbn [app] in ND. rewrite app_assoc in ND.
    apply NoDup_remove_2 in ND. apply ND. rewrite !in_app_iff. right. right. right. now left.
Qed.
End C08.

Theorem C08_parallel_descending n w : is_perm_word n w ->
  exists b, is_parallel_descending_cycles w = Ok b /\ (b = true <-> descends w /\ ~ crossing w).
Proof.
  intros Hw. destruct (disjoint_cycles_ok n w Hw) as [cs [E [HP [HC HS]]]].
  unfold is_parallel_descending_cycles, is_descending_cycles. rewrite E. cbn [bind].
  assert (D : forallb (fun c => forallb (fun '(a, b) => b <=? a) (combine (skipn 1 c) (skipn 2 c))) cs = true <-> descends w).
  { rewrite (descends_iff n w Hw cs HP HC), forallb_forall. split; intros H c Hc.
    - apply desc_b; [|now apply H]. destruct (HC c Hc) as [i [[_ [m [_ [_ [_ K]]]]] _]]; exact K.
    - apply desc_b; [|now apply H]. destruct (HC c Hc) as [i [[_ [m [_ [_ [_ K]]]]] _]]; exact K. }
  destruct (forallb (fun c => forallb (fun '(a, b) => b <=? a) (combine (skipn 1 c) (skipn 2 c))) cs); cbn [negb].
  - eexists. split; [reflexivity|].
    rewrite (mark_cycles_spec n w cs HP HC cs [] (repeat false (length w))); [|reflexivity| |].
    + rewrite (crossing_iff n w Hw cs HP HC HS). split.
      * intros H. split; [now apply D|]. intros [p [c [q1 [q2 [q3 [E1 K]]]]]]. apply (H p c q1 q2 q3 E1); [cbn; lia|exact K].
      * intros [_ H] p c q1 q2 q3 E1 _ K. apply H. exists p, c, q1, q2, q3. auto.
    + rewrite repeat_length. now apply isperm_length.
    + intros x. split; [|intros [p [[] _]]]. intros K. exfalso. destruct (lt_dec x (length w)) as [Lx|Lx].
      * rewrite nth_repeat in K. discriminate.
      * rewrite nth_overflow in K by (rewrite repeat_length; lia). discriminate.
  - exists false. split; [reflexivity|]. split; [discriminate|]. intros [H _]. apply D in H. discriminate.
Qed.
Example C08_case : is_parallel_descending_cycles [4; 1; 3; 2; 0] = Ok true /\ is_parallel_descending_cycles [2; 3; 0; 1] = Ok false
  /\ is_parallel_descending_cycles [1; 2; 0] = Ok false /\ is_parallel_descending_cycles [2; 0; 1] = Ok true.
Proof. repeat split; reflexivity. Qed.

(** ** C09 *)
Definition sends_along (n : nat) (c w : list nat) : Prop :=
  length w = n /\
  (forall i, i < length c -> nth (nth i c 0) w 0 = nth ((i + 1) mod length c) c 0) /\
  (forall x, x < n -> ~ In x c -> nth x w 0 = x).
Lemma from_cycle_guards n c : c <> [] -> NoDup c -> Forall (fun x => x < n) c ->
  from_cycle n c = foldM (fun word i => k <- get c i ;; v <- get c ((i + 1) mod n) ;; set_ word k v) (seq 0 (length c)) (seq 0 n).
Proof.
  intros Hc ND HF. unfold from_cycle.
  assert (A1 : forallb (fun x => x <? n) c = true).
  { apply forallb_forall. intros x Hx. rewrite Forall_forall in HF. now apply Nat.ltb_lt, HF. }
  assert (A2 : forallb (fun x => count c x <=? 1) c = true).
  { apply forallb_forall. intros x Hx. apply Nat.leb_le. unfold count. now apply NoDup_count_occ. }
  rewrite A1. cbn [assert_ bind]. destruct c as [|x r]; [contradiction|]. rewrite A2. reflexivity.
Qed.
(** the exact domain: full cycles are built correctly, every shorter one raises *)
Theorem C09_full_cycle n c : 0 < n -> NoDup c -> Forall (fun x => x < n) c -> length c = n ->
  exists w, from_cycle n c = Ok w /\ sends_along n c w.
Proof.
  intros Hn ND HF L. assert (Hc : c <> []) by (intros ->; cbn in L; lia).
  rewrite (from_cycle_guards n c Hc ND HF).
  assert (HFi : forall i, i < n -> nth i c 0 < n) by (intros i Hi; rewrite Forall_forall in HF; apply HF, nth_In; lia).
  assert (K : forall k, k <= n -> exists w, foldM (fun word i => k <- get c i ;; v <- get c ((i + 1) mod n) ;; set_ word k v) (seq 0 k) (seq 0 n) = Ok w /\
     length w = n /\ forall i, i < k -> nth (nth i c 0) w 0 = nth ((i + 1) mod n) c 0).
  { induction k as [|k IH]; intros Hk.
    - exists (seq 0 n). split; [reflexivity|]. split; [apply seq_length|]. intros i Hi. lia.
    - destruct (IH ltac:(lia)) as [w [E [Lw Hw]]]. rewrite seq_S, foldM_app, E. cbn [bind foldM Nat.add].
      pose proof (Nat.mod_upper_bound (k + 1) n ltac:(lia)).
      rewrite !(get_ok c _ 0) by lia. cbn [bind]. rewrite set_ok by (rewrite Lw; apply HFi; lia). cbn [bind].
      eexists. split; [reflexivity|]. split; [now rewrite upd_length|].
      intros i Hi. destruct (Nat.eq_dec i k) as [->|N].
      + apply nth_upd_eq. rewrite Lw. apply HFi. lia.
      + rewrite nth_upd_neq; [apply Hw; lia|]. intros E'. apply (proj1 (NoDup_nth c 0) ND) in E'; lia. }
  destruct (K n (le_n n)) as [w [E [Lw Hw]]]. rewrite L. exists w. split; [exact E|]. split; [exact Lw|]. split.
  - rewrite L. exact Hw.
  - intros x Hx Nx. exfalso. apply Nx.
    assert (I : incl (seq 0 n) c).
    { apply NoDup_length_incl; [exact ND|rewrite seq_length; lia|]. intros y Hy. apply in_seq. rewrite Forall_forall in HF. apply HF in Hy. lia. }
    apply I, in_seq. lia.
Qed.
Theorem C09_short_cycle_refuted n c : NoDup c -> Forall (fun x => x < n) c -> c <> [] -> length c < n ->
  from_cycle n c = Err IndexError.
Proof.
  intros ND HF Hc L. rewrite (from_cycle_guards n c Hc ND HF).
  assert (HFi : forall i, i < length c -> nth i c 0 < n) by (intros i Hi; rewrite Forall_forall in HF; apply HF, nth_In; lia).
  assert (L0 : 0 < length c) by (destruct c; [contradiction|cbn; lia]).
  assert (K : forall k, k < length c -> exists w, foldM (fun word i => k <- get c i ;; v <- get c ((i + 1) mod n) ;; set_ word k v) (seq 0 k) (seq 0 n) = Ok w /\
     length w = n).
  { induction k as [|k IH]; intros Hk.
    - exists (seq 0 n). split; [reflexivity|apply seq_length].
    - destruct (IH ltac:(lia)) as [w [E Lw]]. rewrite seq_S, foldM_app, E. cbn [bind foldM Nat.add].
      rewrite Nat.mod_small by lia.
      rewrite !(get_ok c _ 0) by lia. cbn [bind]. rewrite set_ok by (rewrite Lw; apply HFi; lia). cbn [bind].
      eexists. split; [reflexivity|]. now rewrite upd_length. }
  destruct (K (length c - 1) ltac:(lia)) as [w [E Lw]]. replace (length c) with (S (length c - 1)) at 1 by lia.
  rewrite seq_S, foldM_app, E. cbn [bind foldM Nat.add]. rewrite (get_ok c _ 0) by lia. cbn [bind].
  replace (length c - 1 + 1) with (length c) by lia. rewrite Nat.mod_small by lia. rewrite get_err by lia. reflexivity.
Qed.
Theorem C09_empty_cycle_refuted n : from_cycle n [] = Err ValueError. Proof. reflexivity. Qed.
Theorem C09_bad_cycle n c : c <> [] -> ~ (NoDup c /\ Forall (fun x => x < n) c) -> from_cycle n c = Err AssertionError.
Proof.
  intros Hc H. unfold from_cycle. destruct (forallb (fun x => x <? n) c) eqn:A1; [|reflexivity]. cbn [assert_ bind].
  destruct c as [|x r]; [contradiction|]. set (c := x :: r) in *.
  destruct (forallb (fun x => count c x <=? 1) c) eqn:A2; [|reflexivity]. exfalso. apply H. split.
  - apply (NoDup_count_occ Nat.eq_dec). intros y. destruct (in_dec Nat.eq_dec y c) as [K|K].
    + rewrite forallb_forall in A2. apply A2, Nat.leb_le in K. exact K.
    + apply (count_occ_not_In Nat.eq_dec) in K. rewrite K. lia.
  - apply Forall_forall. intros y Hy. rewrite forallb_forall in A1. now apply A1, Nat.ltb_lt in Hy.
Qed.
(** from_cycles never produces a permutation *)
Theorem C09_from_cycles_refuted n cycles w : from_cycles n cycles <> Ok (RPerm w).
Proof. destruct cycles as [|c cs]; cbn; [discriminate|]. destruct (from_cycle n c); discriminate. Qed.
Example C09_case : from_cycle 4 [0; 2; 1; 3] = Ok [2; 3; 1; 0] /\ from_cycle 4 [0; 2] = Err IndexError. Proof. split; reflexivity. Qed.

(** ** C10: the constructor validates nothing *)
Theorem C10_constructor_refuted : exists word, is_permutation word = false /\ mk_permutation word = Ok word.
Proof. exists [0; 0]%Z. split; reflexivity. Qed.
(** what does hold: every operation that returns a Permutation returns a permutation when given permutations *)
Theorem C10_ops_closed n x y i j : is_perm_word n x -> is_perm_word n y -> i < n -> j < n ->
  is_perm_word n (identity n) /\ is_perm_word n (longest_element n) /\
  (exists t, transposition n i j = Ok t /\ is_perm_word n t) /\
  (exists z, compose x y = Ok z /\ is_perm_word n z) /\
  (exists z, inverse x = Ok z /\ is_perm_word n z) /\
  (forall u z, from_cox n u = Ok z -> is_perm_word n z) /\
  (forall z, In z (elements n) -> is_perm_word n z).
Proof.
  intros Hx Hy Hi Hj. split; [apply isperm_id|]. split; [apply isperm_longest|].
  split; [exists (ptrans n i j); split; [now apply transposition_ok|now apply isperm_ptrans]|].
  split; [exists (pcomp x y); split; [now apply (compose_ok n)|now apply isperm_pcomp]|].
  split; [exists (pinv x); split; [now apply (inverse_ok n)|now apply isperm_pinv]|].
  split.
  - intros u z E. apply C07_from_cox, expresses_iff in E. destruct E as [R <-]. now apply prodw_perm.
  - intros z. apply elements_in.
Qed.

(** ** C11 *)
Lemma SS_app {A} (R : A -> A -> Prop) l l' : StronglySorted R l -> StronglySorted R l' ->
  (forall x y, In x l -> In y l' -> R x y) -> StronglySorted R (l ++ l').
Proof.
  intros H H' K. induction H as [|x l S IH F]; [exact H'|]. cbn. constructor.
  - apply IH. intros a b Ha Hb. apply K; [now right|exact Hb].
  - apply Forall_app. split; [exact F|]. apply Forall_forall. intros y Hy. apply K; [now left|exact Hy].
Qed.
Lemma lex_cons x u v : lex_lt u v -> lex_lt (x :: u) (x :: v).
Proof. intros [p [a [b [u' [v' [-> [-> H]]]]]]]. exists (x :: p), a, b, u', v'. auto. Qed.
Lemma perms_sorted k : forall l, StronglySorted lt l -> length l = k -> StronglySorted lex_lt (perms_of k l).
Proof.
  induction k as [|k IH]; intros l HSo L; [repeat constructor|]. cbn [perms_of].
  assert (K : forall ps : list (nat * list nat), StronglySorted lt (map fst ps) ->
     Forall (fun xr => StronglySorted lt (snd xr) /\ length (snd xr) = k) ps ->
     StronglySorted lex_lt (flat_map (fun '(x, r) => map (cons x) (perms_of k r)) ps)).
  { induction ps as [|[x r] ps IHp]; intros S1 F; [constructor|]. cbn [flat_map map fst] in *.
    inversion S1 as [|? ? S2 Fx]; subst. pose proof (Forall_inv F) as [F1 F2]. pose proof (Forall_inv_tail F) as F3. cbn [snd] in *. apply SS_app.
    - specialize (IH r F1 F2). clear - IH. induction IH as [|u us S IHs Fu]; [constructor|]. cbn. constructor; [exact IHs|].
      rewrite Forall_forall in *. intros y Hy. apply in_map_iff in Hy. destruct Hy as [v [<- Hv]]. now apply lex_cons, Fu.
    - now apply IHp.
    - intros u v Hu Hv. apply in_map_iff in Hu. destruct Hu as [u' [<- _]]. apply in_flat_map in Hv.
      destruct Hv as [[y s] [Hys Hv]]. apply in_map_iff in Hv. destruct Hv as [v' [<- _]].
      exists [], x, y, u', v'. split; [reflexivity|]. split; [reflexivity|]. rewrite Forall_forall in Fx. apply Fx.
      apply in_map_iff. exists (y, s). auto. }
  apply K; [now rewrite picks_fst|]. apply Forall_forall. intros [x r] H. apply picks_spec in H.
  destruct H as [l1 [l2 [-> ->]]]. cbn [snd]. split.
  - clear - HSo. induction l1 as [|y l1 IH]; cbn in *; inversion HSo; subst; [assumption|]. constructor; [now apply IH|].
    rewrite Forall_app in *. destruct H2 as [A B]. inversion B; subst. auto.
  - rewrite app_length in *. cbn [length] in L. lia.
Qed.
Lemma seq_SS a n : StronglySorted lt (seq a n).
Proof.
  revert a. induction n as [|n IH]; intros a; cbn; constructor; [apply IH|]. apply Forall_forall. intros x Hx. apply in_seq in Hx. lia.
Qed.
Theorem C11_elements n :
  (forall w, In w (elements n) <-> is_perm_word n w) /\
  NoDup (elements n) /\ length (elements n) = fact n /\ StronglySorted lex_lt (elements n).
Proof.
  split; [apply elements_in|]. split; [apply elements_NoDup|]. split; [apply elements_length|].
  apply perms_sorted; [apply seq_SS|apply seq_length].
Qed.
Example C11_case : elements 3 = [[0;1;2];[0;2;1];[1;0;2];[1;2;0];[2;0;1];[2;1;0]]. Proof. reflexivity. Qed.
