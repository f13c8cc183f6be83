(** NParBlocks.v – components, edges and words of a noncrossing partition. *)
From Verif Require Import Base SpecTL ModelTL ModelPerm PermTheory NCTheory CycleTheory SpecBraid BraidTheory SpecPerm PropsPerm2
  ModelBraid TableTheory BKL NCLift ModelNPar NParMatch NParOrbit.
From Coq Require Import Permutation Sorted.

Lemma NoDup_concat_in {A} (cs : list (list A)) c d x : NoDup (concat cs) -> In c cs -> In d cs -> In x c -> In x d -> c = d.
Proof.
  induction cs as [|e cs IH]; [intros _ []|]. cbn [concat]. intros N.
  assert (Nx : forall c, In c cs -> In x e -> In x c -> False).
  { intros c' Hc He Hx. apply in_split in He. destruct He as [l1 [l2 ->]]. rewrite <- app_assoc in N. apply NoDup_remove_2 in N.
    apply N. rewrite in_app_iff. right. rewrite in_app_iff. right. apply in_concat. eauto. }
  assert (N2 : NoDup (concat cs)).
  { clear - N. induction e as [|y e IHe]; [exact N|]. cbn in N. inversion N. auto. }
  intros [->|Hc] [->|Hd] Hxc Hxd; auto; exfalso; eauto.
Qed.

Section Blocks.
Variable n : nat.
Notation P := (isperm n).
Notation Q := (NCTheory.Q n).
Notation ed := (NCTheory.ed n).
Notation sm := (NCTheory.sm n).
Notation tr a b := (ptrans n a b).
Notation "u ** v" := (pcomp u v) (at level 40, left associativity).

(** [cs] lists the blocks of w (singletons may be missing), each ascending *)
Definition blocks (w : list nat) (cs : list (list nat)) : Prop :=
  Forall (StronglySorted lt) cs /\ NoDup (concat cs) /\ (forall x, In x (concat cs) -> x < n) /\
  forall p q, p < q -> (ed w p q <-> exists c, In c cs /\ In p c /\ In q c).

(** consecutive pairs of a descending list *)
Fixpoint dedges (d : list nat) : list (nat * nat) :=
  match d with
  | b :: ((a :: _) as t) => (a, b) :: dedges t
  | _ => []
  end.
Definition cedges (c : list nat) : list (nat * nat) := dedges (rev c).

(** the same with descending lists *)
Definition dblocks (w : list nat) (ds : list (list nat)) : Prop :=
  Forall (StronglySorted gt) ds /\ NoDup (concat ds) /\
  forall p q, p < q -> (ed w p q <-> exists c, In c ds /\ In p c /\ In q c).

Lemma dblocks_fac : forall ds w, Q w -> dblocks w ds -> fac n w (flat_map dedges ds).
Proof.
  induction ds as [|d ds IHds]; intros w Hw [F [ND H]].
  - cbn. rewrite (no_edge_id n w Hw); [constructor|]. intros a b K. pose proof K as [L _]. apply (H a b L) in K. destruct K as [c [[] _]].
  - revert w Hw F ND H. induction d as [|b d IHd]; intros w Hw F ND H.
    + cbn [flat_map dedges List.app]. apply IHds; [exact Hw|]. inversion F; subst. split; [assumption|]. split; [exact ND|].
      intros p q L. rewrite (H p q L). split; intros [c [Hc [Hp Hq]]]; [|exists c; split; [now right|auto]].
      destruct Hc as [<-|Hc]; [destruct Hp|eauto].
    + destruct d as [|a d].
      * cbn [flat_map dedges List.app]. apply IHds; [exact Hw|]. inversion F; subst. split; [assumption|]. cbn in ND. inversion ND; subst.
        split; [assumption|]. intros p q L. rewrite (H p q L). split; intros [c [Hc [Hp Hq]]]; [|exists c; split; [now right|auto]].
        destruct Hc as [<-|Hc]; [|eauto]. destruct Hp as [<-|[]], Hq as [<-|[]]. lia.
      * change (flat_map dedges ((b :: a :: d) :: ds)) with ((a, b) :: flat_map dedges ((a :: d) :: ds)).
        inversion F as [|? ? Fd Fds]; subst. inversion Fd as [|? ? Fd' Fb]; subst. rewrite Forall_forall in Fb.
        assert (Lab : a < b) by (apply Fb; now left).
        assert (Kab : ed w a b).
        { apply (H a b Lab). exists (b :: a :: d). split; [now left|]. split; [right; now left|now left]. }
        constructor; [exact Hw|exact Kab|]. apply IHd.
        -- now apply NC_split.
        -- constructor; assumption.
        -- cbn in ND. inversion ND; subst. assumption.
        -- intros p q L. rewrite (split_ed n w a b p q (proj1 Hw) Kab), (H p q L).
           assert (In_ab : forall c, In c ((b :: a :: d) :: ds) -> forall x, In x c -> In x (b :: a :: d) -> c = b :: a :: d).
           { intros c Hc x Hx1 Hx2. apply (NoDup_concat_in ((b :: a :: d) :: ds) c (b :: a :: d) x); auto. now left. }
           inversion Fd' as [|? ? Fd'' Fa]; subst. rewrite Forall_forall in Fa. split.
           ++ intros [[c [Hc [Hp Hq]]] S]. destruct Hc as [<-|Hc].
              ** exists (a :: d). split; [now left|]. unfold side in S.
                 assert (Z : forall x, In x (a :: d) -> x <= a) by (intros x [<-|Hx]; [lia|apply Fa in Hx; lia]).
                 destruct Hp as [<-|Hp], Hq as [<-|Hq]; try lia.
                 --- apply Z in Hp. lia.
                 --- auto.
              ** exists c. split; [now right|auto].
           ++ intros [c [Hc [Hp Hq]]].
              assert (Z : exists c', In c' ((b :: a :: d) :: ds) /\ In p c' /\ In q c').
              { destruct Hc as [<-|Hc]; [exists (b :: a :: d)|exists c]; (split; [|split]); try (now right); auto; now left. }
              split; [exact Z|]. destruct Hc as [<-|Hc].
              ** assert (Y : forall x, In x (a :: d) -> x <= a) by (intros x [<-|Hx]; [lia|apply Fa in Hx; lia]).
                 apply Y in Hp. apply Y in Hq. unfold side. lia.
              ** destruct (side_dec a b p q) as [S|S]; [exact S|exfalso].
                 assert (Kpq : ed w p q) by (apply (H p q L); exact Z).
                 destruct (straddle n w a b p q Kab Kpq S) as [Sp _].
                 assert (Ip : In p (b :: a :: d)).
                 { destruct Sp as [->|Sp]; [right; now left|].
                   assert (Y : exists c', In c' ((b :: a :: d) :: ds) /\ In p c' /\ In a c').
                   { destruct Sp as [Sp|Sp]; pose proof Sp as [Ls _]; apply (H _ _ Ls) in Sp; destruct Sp as [c' [A [B C]]]; eauto. }
                   destruct Y as [c' [A [B C]]]. rewrite <- (In_ab c' A a C); [exact B|right; now left]. }
                 assert (Ec : c = b :: a :: d) by (apply (In_ab c ltac:(now right) p); [exact Hp| exact Ip]). subst c.
                 apply (NoDup_remove_2 [] (concat ((a :: d) :: ds)) b); [exact ND|]. cbn [List.app]. change (In b (concat ((a :: d) :: ds))).
                 apply in_concat. exists (b :: a :: d). split; [now right|now left].
Qed.

Lemma SS_rev (l : list nat) : StronglySorted lt l -> StronglySorted gt (rev l).
Proof.
  induction 1 as [|x l S IH F]; [constructor|]. cbn [rev]. apply SS_snoc; [exact IH|].
  apply Forall_forall. intros y Hy. apply in_rev in Hy. rewrite Forall_forall in F. now apply F.
Qed.
Lemma concat_rev_perm (cs : list (list nat)) : Permutation (concat (map (@rev nat) cs)) (concat cs).
Proof.
  induction cs as [|c cs IH]; [reflexivity|]. cbn. apply Permutation_app; [symmetry; apply Permutation_rev|exact IH].
Qed.
Theorem blocks_fac w cs : Q w -> blocks w cs -> fac n w (flat_map cedges cs).
Proof.
  intros Hw [F [ND [_ H]]].
  assert (K : dblocks w (map (@rev nat) cs)).
  { split; [|split].
    - rewrite Forall_map. eapply Forall_impl; [|exact F]. intros c. apply SS_rev.
    - eapply Permutation_NoDup; [symmetry; apply concat_rev_perm|exact ND].
    - intros p q L. rewrite (H p q L). split.
      + intros [c [A [B C]]]. exists (rev c). rewrite <- !in_rev. split; [apply in_map; exact A|auto].
      + intros [c [A [B C]]]. apply in_map_iff in A. destruct A as [c' [<- A]]. rewrite <- in_rev in B, C. eauto. }
  pose proof (dblocks_fac _ w Hw K) as Hf.
  replace (flat_map cedges cs) with (flat_map dedges (map (@rev nat) cs)); [exact Hf|].
  unfold cedges. clear. induction cs as [|c cs IH]; [reflexivity|]. cbn. now rewrite IH.
Qed.

(** ** components *)
Lemma group_loop_cycle w i : P w -> forall fuel j g s, j < n ->
  group_loop (inv_of n w) i fuel j g s = cycle_loop (pinv w) i fuel j g s.
Proof.
  intros Hw. pose proof (isperm_pinv n w Hw) as Hi. induction fuel as [|fuel IH]; intros j g s Hj; [reflexivity|].
  cbn [group_loop cycle_loop]. destruct (set_ s j true) as [s'|]; [|reflexivity]. cbn [bind].
  rewrite (get_ok _ _ 0) by (rewrite inv_of_length; lia). rewrite inv_odd by exact Hj.
  rewrite (get_ok (pinv w) j 0) by (rewrite (isperm_length n _ Hi); exact Hj). cbn [bind]. rewrite div_2.
  rewrite Nat.eqb_sym. destruct (ap (pinv w) j =? i); [reflexivity|]. apply IH. now apply isperm_app_lt.
Qed.
Lemma components_cycles w : P w -> components (NPar n (inv_of n w)) = disjoint_cycles (pinv w).
Proof.
  intros Hw. unfold components, disjoint_cycles. cbn [np_n np_inv]. rewrite (isperm_length n _ (isperm_pinv n w Hw)).
  match goal with |- bind ?a _ = bind ?b _ => assert (E : a = b) end; [|rewrite E; reflexivity].
  assert (K : forall l st, (forall i, In i l -> i < n) ->
    foldM (fun '(cs, seen) i => v <- get seen i ;; if (v : bool) then Ok (cs, seen) else
      '(group, seen') <- group_loop (inv_of n w) i n i [] seen ;; Ok (cs ++ [group], seen')) l st =
    foldM (fun '(cycles, visited) i => v <- get visited i ;; if (v : bool) then Ok (cycles, visited) else
      '(cycle, visited') <- cycle_loop (pinv w) i n i [] visited ;; Ok (cycles ++ [cycle], visited')) l st).
  { induction l as [|i l IH]; intros [cs v] Hl; [reflexivity|]. cbn [foldM].
    rewrite group_loop_cycle by (auto; apply Hl; now left).
    destruct (get v i) as [[|]|e]; cbn [bind]; [apply IH; intros; apply Hl; now right| |reflexivity].
    destruct (cycle_loop (pinv w) i n i [] v) as [[c v']|e]; cbn [bind]; [|reflexivity]. apply IH. intros; apply Hl; now right. }
  apply K. intros i Hi. apply in_seq in Hi. lia.
Qed.

Lemma it_pinv_so w x y : P w -> x < n -> same_orbit (pinv w) x y -> same_orbit w x y.
Proof.
  intros Hw Hx [k <-]. pose proof (isperm_pinv n w Hw) as Hi. apply so_sym with (n := n); [exact Hw|exact (it_lt n (pinv w) Hi k x Hx)|].
  exists k. change (it w k (it (pinv w) k x) = x). induction k as [|k IH]; [reflexivity|].
  change (it w (S k) (ap (pinv w) (it (pinv w) k x)) = x).
  assert (R : forall y, it w (S k) y = it w k (ap w y)) by (intros y; replace (S k) with (k + 1) by lia; now rewrite it_add).
  rewrite R.
  rewrite (app_pinv n) by (auto; now apply (it_lt n (pinv w) ltac:(assumption))). exact IH.
Qed.

(** a cycle of a noncrossing permutation, listed backwards from its least point, ascends *)
Lemma orb_sorted w : Q w -> forall m i, i < n -> (forall x, In x (orb (pinv w) m i) -> i <= x) -> NoDup (orb (pinv w) m i) ->
  StronglySorted lt (orb (pinv w) m i).
Proof.
  intros Hw. pose proof (isperm_pinv n w (proj1 Hw)) as Hpi. intros m i Hi. induction m as [|m IH]; intros Hmin ND; [constructor|].
  rewrite orb_S in *. assert (ND' : NoDup (orb (pinv w) m i)) by (apply NoDup_remove_1 in ND; now rewrite app_nil_r in ND).
  assert (S : StronglySorted lt (orb (pinv w) m i)) by (apply IH; [intros x Hx; apply Hmin, in_app_iff; now left|exact ND']).
  apply SS_snoc; [exact S|].
  destruct m as [|m]; [constructor|]. set (p := it (pinv w) m i). set (q := it (pinv w) (Datatypes.S m) i).
  assert (Bp : p < n) by now apply (it_lt n (pinv w) ltac:(assumption)). assert (Bq : q < n) by now apply (it_lt n (pinv w) ltac:(assumption)).
  assert (Wq : ap w q = p) by (unfold q; rewrite it_S; apply (app_pinv n); [apply Hw|exact Bp]).
  assert (Iq : i <> q).
  { intros K. apply NoDup_remove_2 in ND. rewrite app_nil_r in ND. apply ND. apply in_orb. exists 0. split; [lia|]. exact (eq_sym K). }
  assert (Liq : i <= q) by (apply Hmin, in_app_iff; right; now left).
  assert (Kiq : ed w i q).
  { apply sm_ed; [lia|]. apply so_sm; [exact Hw|exact Hi|]. apply it_pinv_so; [apply Hw|exact Hi|]. now exists (Datatypes.S m). }
  assert (Lpq : p < q).
  { destruct Kiq as [_ [_ E]]. specialize (E q Bq). rewrite Wq in E. lia. }
  rewrite orb_S in *. fold p in S |- *. apply Forall_app. split; [|repeat constructor; exact Lpq].
  clear - S Lpq. apply Forall_forall. intros x Hx. induction (orb (pinv w) m i) as [|y l IHl]; [destruct Hx|].
  cbn in S. inversion S as [|? ? S' F]; subst. destruct Hx as [<-|Hx]; [|now apply IHl].
  rewrite Forall_forall in F. specialize (F p ltac:(apply in_app_iff; right; now left)). lia.
Qed.

Theorem components_ok w : Q w -> exists cs, components (NPar n (inv_of n w)) = Ok cs /\ blocks w cs /\
  Permutation (concat cs) (seq 0 n) /\ (forall c, In c cs -> c <> []) /\
  StronglySorted (fun c c' => hd 0 c < hd 0 c') cs.
Proof.
  intros Hw. pose proof (isperm_pinv n w (proj1 Hw)) as Hpi. destruct (disjoint_cycles_ok n (pinv w) Hpi) as [cs [E [HP [HC HS]]]].
  exists cs. split; [now rewrite components_cycles by apply Hw|]. split; [|split; [exact HP|split; [|exact HS]]].
  - split; [|split; [|split]].
    + apply Forall_forall. intros c Hc. destruct (HC c Hc) as [i [[Hi [m [Hm [-> [_ ND]]]]] Hmin]]. now apply orb_sorted.
    + eapply Permutation_NoDup; [symmetry; exact HP|apply seq_NoDup].
    + intros x Hx. apply (Permutation_in _ HP), in_seq in Hx. lia.
    + intros p q L. split.
      * intros K. pose proof K as [_ [B _]]. destruct (c_ex n cs HP p ltac:(lia)) as [c [Hc Hp]]. exists c. split; [exact Hc|]. split; [exact Hp|].
        apply (so_in n (pinv w) cs HC c p q); auto. apply ed_sm in K. apply (sm_so n w) in K; [|exact Hw|lia].
        pose proof (it_pinv_so (pinv w) p q Hpi ltac:(lia)) as Z. rewrite (pinv_pinv n) in Z by apply Hw. now apply Z.
      * intros [c [Hc [Hp Hq]]]. pose proof (c_lt n cs HP c p Hc Hp) as Bp. apply sm_ed; [exact L|]. apply so_sm; [exact Hw|exact Bp|].
        apply it_pinv_so; [apply Hw|exact Bp|]. now apply (so_of n (pinv w) cs HC c).
  - intros c Hc. destruct (HC c Hc) as [i [[Hi [m [Hm [-> _]]]] _]]. destruct m; [lia|]. discriminate.
Qed.

(** ** edges *)
Lemma combinations2_in c p q : StronglySorted lt c -> (In (p, q) (combinations2 c) <-> p < q /\ In p c /\ In q c).
Proof.
  induction 1 as [|x c S IH F]; [cbn; tauto|]. cbn [combinations2]. rewrite in_app_iff, IH, in_map_iff. rewrite Forall_forall in F. cbn [In]. split.
  - intros [[y [[= -> ->] Hy]]|[L [Hp Hq]]]; [|auto]. split; [now apply F|auto].
  - intros [L [[<-|Hp] [<-|Hq]]]; [lia|left; eauto| |auto]. apply F in Hp. lia.
Qed.
Theorem edges_ok w : Q w -> exists l, edges (NPar n (inv_of n w)) = Ok l /\ forall p q, In (p, q) l <-> ed w p q.
Proof.
  intros Hw. destruct (components_ok w Hw) as [cs [E [[F [ND [_ H]]] _]]]. exists (flat_map combinations2 cs).
  unfold edges. rewrite E. split; [reflexivity|]. intros p q. rewrite in_flat_map. rewrite Forall_forall in F. split.
  - intros [c [Hc Hpq]]. apply combinations2_in in Hpq; [|now apply F]. destruct Hpq as [L [Hp Hq]]. apply (H p q L). eauto.
  - intros K. pose proof K as [L _]. apply (H p q L) in K. destruct K as [c [Hc [Hp Hq]]]. exists c. split; [exact Hc|].
    apply combinations2_in; [now apply F|auto].
Qed.

(** ** words *)
Lemma bkl_gen_aw s t : s < t -> expand (bkl_gen_to_artin_word s t) = aw s t.
Proof.
  intros L. unfold bkl_gen_to_artin_word. destruct (Nat.eqb_spec s t); [lia|]. destruct (Nat.ltb_spec t s); [lia|].
  unfold aw. replace (t - 1 - s) with (t - s - 1) by lia. replace (t - (s + 1)) with (t - s - 1) by lia. generalize (t - s - 1). clear. intros m.
  induction m as [|d IH]; [cbn; now rewrite Nat2Z.id|].
  rewrite !expand_app in *. rewrite seq_S, rev_app_distr, !map_app, !expand_app.
  change (bk s (S d)) with ([(s + S d, true)] ++ bk s d ++ [(s + S d, false)]). rewrite <- IH, <- !app_assoc.
  replace (s + S d) with (s + 1 + d) by lia.
  replace (expand (map (fun i => (Z.of_nat i, 1%Z)) (rev [s + 1 + d]))) with [(s + 1 + d, true)] by (cbn; now rewrite Nat2Z.id).
  replace (expand (map (fun i => (Z.of_nat i, (-1)%Z)) [s + 1 + d])) with [(s + 1 + d, false)] by (cbn; now rewrite Nat2Z.id).
  reflexivity.
Qed.
Lemma bkl_gen_ok s t : s < t -> t < n -> word_ok n (bkl_gen_to_artin_word s t) /\ Forall (fun l => Z.abs (snd l) = 1%Z) (bkl_gen_to_artin_word s t).
Proof.
  intros L B. unfold bkl_gen_to_artin_word. destruct (Nat.eqb_spec s t); [lia|]. destruct (Nat.ltb_spec t s); [lia|]. unfold word_ok. split.
  - rewrite !Forall_app, !Forall_map. split; [|split].
    + apply Forall_forall. intros x Hx. apply in_rev, in_seq in Hx. cbn. lia.
    + repeat constructor; cbn; lia.
    + apply Forall_forall. intros x Hx. apply in_seq in Hx. cbn. lia.
  - rewrite !Forall_app, !Forall_map. split; [|split]; try (apply Forall_forall; reflexivity). repeat constructor.
Qed.

Lemma sorted_id c : StronglySorted lt c -> sorted Nat.leb c = c.
Proof.
  induction 1 as [|x c S IH F]; [reflexivity|]. cbn. fold (sorted Nat.leb c). rewrite IH. destruct c as [|y c]; [reflexivity|].
  cbn. rewrite Forall_forall in F. specialize (F y ltac:(now left)). destruct (Nat.leb_spec x y); [reflexivity|lia].
Qed.
Lemma no_repeat_ok c : no_repeat c = true <-> NoDup c.
Proof.
  induction c as [|x c IH]; cbn [no_repeat]; [split; [constructor|reflexivity]|].
  rewrite andb_true_iff, negb_true_iff, IH. split.
  - intros [A B]. constructor; [|exact B]. intros K. apply inb in K. congruence.
  - intros K. inversion K; subst. split; [|assumption]. destruct (existsb (Nat.eqb x) c) eqn:E0; [|reflexivity]. apply inb in E0. contradiction.
Qed.
Lemma SS_NoDup c : StronglySorted lt c -> NoDup c.
Proof.
  induction 1 as [|x c S IH F]; constructor; [|exact IH]. intros K. rewrite Forall_forall in F. specialize (F x K). lia.
Qed.
Lemma SS_nth c i j : StronglySorted lt c -> i < j -> j < length c -> nth i c 0 < nth j c 0.
Proof.
  intros S. revert i j. induction S as [|x c S IH F]; intros i j L B; [cbn in B; lia|]. destruct j as [|j]; [lia|].
  cbn in B. destruct i as [|i]; cbn [nth]; [|apply IH; lia]. rewrite Forall_forall in F. apply F. apply nth_In. lia.
Qed.
Lemma cedges_seq c : cedges c = map (fun i => (nth i c 0, nth (i + 1) c 0)) (rev (seq 0 (length c - 1))).
Proof.
  unfold cedges. induction c as [|x c IH] using rev_ind; [reflexivity|]. rewrite rev_app_distr. cbn [rev List.app].
  destruct c as [|y c _] using rev_ind; [reflexivity|]. rewrite rev_app_distr in *. cbn [rev List.app] in *.
  change (dedges (x :: y :: rev c)) with ((y, x) :: dedges (y :: rev c)). rewrite IH.
  rewrite !app_length. cbn [length]. replace (length c + 1 + 1 - 1) with (S (length c)) by lia. rewrite seq_S, rev_app_distr. cbn [rev List.app map Nat.add].
  f_equal.
  - rewrite <- !app_assoc. cbn [List.app]. rewrite !app_nth2 by lia. rewrite Nat.sub_diag. replace (length c + 1 - length c) with 1 by lia. reflexivity.
  - replace (length c + 1 - 1) with (length c) by lia. apply map_ext_in. intros i Hi. apply in_rev, in_seq in Hi.
    rewrite !(app_nth1 (c ++ [y]) [x]) by (rewrite app_length; cbn; lia). reflexivity.
Qed.
Lemma component_word c : StronglySorted lt c -> (forall x, In x c -> x < n) -> exists ws, npar_component_to_artin_word c = Ok ws /\
  expand ws = lw (cedges c) /\ word_ok n ws /\ Forall (fun l => Z.abs (snd l) = 1%Z) ws.
Proof.
  intros S B. unfold npar_component_to_artin_word. rewrite sorted_id by exact S.
  replace (no_repeat c) with true by (symmetry; apply no_repeat_ok, SS_NoDup, S). cbn [assert_ bind].
  rewrite (mapM_ok _ (fun i => bkl_gen_to_artin_word (nth i c 0) (nth (i + 1) c 0))).
  2:{ intros i Hi. apply in_rev, in_seq in Hi. rewrite !(get_ok c _ 0) by lia. reflexivity. }
  cbn [bind]. eexists. split; [reflexivity|]. rewrite cedges_seq.
  assert (K : forall i, In i (rev (seq 0 (length c - 1))) -> nth i c 0 < nth (i + 1) c 0 /\ nth (i + 1) c 0 < n).
  { intros i Hi. apply in_rev, in_seq in Hi. split; [apply SS_nth; auto; lia|]. apply B, nth_In. lia. }
  induction (rev (seq 0 (length c - 1))) as [|i l IH]; [repeat split; constructor|].
  destruct IH as [I1 [I2 I3]]; [intros j Hj; apply K; now right|]. destruct (K i ltac:(now left)) as [K1 K2].
  destruct (bkl_gen_ok _ _ K1 K2) as [W1 W2]. unfold word_ok in *.
  cbn [map concat]. rewrite expand_app, I1, bkl_gen_aw by exact K1. split; [reflexivity|]. split; apply Forall_app; auto.
Qed.
Theorem npar_artin_word_ok w : Q w -> exists ws l, npar_artin_word (NPar n (inv_of n w)) = Ok ws /\
  fac n w l /\ expand ws = lw l /\ word_ok n ws /\ Forall (fun l => Z.abs (snd l) = 1%Z) ws.
Proof.
  intros Hw. destruct (components_ok w Hw) as [cs [E [Hb _]]]. pose proof (blocks_fac w cs Hw Hb) as Hf.
  destruct Hb as [F [_ [B _]]]. unfold npar_artin_word. rewrite E. cbn [bind].
  assert (K : exists wss, mapM npar_component_to_artin_word cs = Ok wss /\ expand (concat wss) = lw (flat_map cedges cs) /\
    word_ok n (concat wss) /\ Forall (fun l => Z.abs (snd l) = 1%Z) (concat wss)).
  { clear E Hf Hw. induction cs as [|c cs IH]; [exists []; repeat split; constructor|]. inversion F; subst.
    destruct IH as [wss [I1 [I2 [I3 I4]]]]; [assumption|intros x Hx; apply B; cbn; apply in_app_iff; now right|].
    destruct (component_word c) as [ws [J1 [J2 [J3 J4]]]]; [assumption|intros x Hx; apply B; cbn; apply in_app_iff; now left|].
    exists (ws :: wss). cbn [mapM]. rewrite J1, I1. cbn [bind concat flat_map]. rewrite expand_app, J2, I2, lw_app. unfold word_ok in *.
    split; [reflexivity|]. split; [reflexivity|]. split; apply Forall_app; auto. }
  destruct K as [wss [K1 [K2 [K3 K4]]]]. rewrite K1. cbn [bind]. eauto 10.
Qed.
End Blocks.
