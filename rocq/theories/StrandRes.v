(** StrandRes.v – restricting the cell modules to fewer strands: adding a strand on the
    right of a diagram, or bending its last bottom point up, turns the diagrams of a
    cell module on n strands into diagrams of one on n + 1 strands, and commutes with
    the action of the words in the first n - 1 generators. *)
From Verif Require Import Base ModelPoly SpecPoly PolyTheory PolyDiv EvalTheory PropsPoly ModelTL SpecTL TLTheory TLAlg TLAlg2 TLBasis TLCells TLRel PropsTL ModelMatrix SpecMatrix MatrixTheory PropsMatrix ModelTLMor TLMorTheory TLGens TLFlip PropsTLMor PropsTLMor2 JonesTheory TLTrace PropsTLMor3 MarkovTheory TLCup.
From Verif Require Import ModelPerm PermTheory WeakOrder SpecPerm ModelBraid SpecBraid BraidTheory FullTwistBraid FullTwist ModelRep SpecRep NumTheory RepTheory RepCanon PropsRep FullTwistRep.
From Coq Require Import Ring Setoid Morphisms Relations.
Local Open Scope nat_scope.
Local Arguments Nat.ltb : simpl never.
Local Arguments Nat.sub : simpl never.
#[local] Existing Instance neqp_equiv.

(** a strand added on the right of the upper diagram and joined to the next point of the
    lower diagram changes nothing *)
Section Bend.
Variables (u l : list nat) (mid : nat).
Hypothesis (Cu : crossingless u) (Cl : crossingless l) (Hu : mid <= length u) (Hl : mid < length l).
Let v := ins u (id_seq 1) mid.
Let L := length l.
Let bot := L - mid.
Definition fwd (p : point) : point := match p with Lo i => Lo i | Up j => Up (eo mid 2 j) end.
Definition bck (p : point) : point := match p with Lo i => Lo i | Up j => if j <? mid then Up j else if j <? mid + 2 then Lo (L - 1 - mid) else Up (j - 2) end.
Lemma bck_fwd p : bck (fwd p) = p.
Proof using All. destruct p as [i|j]; [reflexivity|]. cbn [fwd bck]. unfold eo. destruct (Nat.ltb_spec j mid); destruct (Nat.ltb_spec j mid); try lia; [reflexivity|]. destruct (Nat.ltb_spec (j + 2) mid); [lia|]. destruct (Nat.ltb_spec (j + 2) (mid + 2)); [lia|]. f_equal. lia. Qed.
Lemma v_len : length v = length u + 2. Proof using All. unfold v. rewrite ins_length by exact Hu. now rewrite id_seq_length. Qed.
Lemma v_eo j : j < length u -> nth (eo mid 2 j) v 0 = eo mid 2 (nth j u 0). Proof using All. intros H. exact (ins_eo u (id_seq 1) mid Hu j H). Qed.
Lemma v_0 : nth mid v 0 = mid + 1. Proof using All. pose proof (ins_ei u (id_seq 1) mid Hu 0 ltac:(rewrite id_seq_length; lia)) as K. rewrite nth_id in K by lia. fold v in K. change (0 + mid) with mid in K. rewrite K. lia. Qed.
Lemma v_1 : nth (mid + 1) v 0 = mid. Proof using All. pose proof (ins_ei u (id_seq 1) mid Hu 1 ltac:(rewrite id_seq_length; lia)) as K. rewrite nth_id in K by lia. fold v in K. rewrite Nat.add_comm, K. lia. Qed.
Lemma joined_fwd p q : joined u l mid p q -> joined v l (mid + 1) (fwd p) (fwd q).
Proof using All.
  intros H. induction H as [p q H| | |]; [|apply rst_refl|now apply rst_sym|eapply rst_trans; eassumption]. apply rst_step. destruct H as [i Hi|i Hi|k Hk]; cbn [fwd].
  - now apply arc_lower.
  - rewrite <- v_eo by exact Hi. apply arc_upper. rewrite v_len. unfold eo. destruct (Nat.ltb_spec i mid); lia.
  - unfold eo. destruct (Nat.ltb_spec k mid); [|lia]. apply same_dot. lia.
Qed.
Lemma joined_bck p q : joined v l (mid + 1) p q -> joined u l mid (bck p) (bck q).
Proof using All.
  intros H. induction H as [p q H| | |]; [|apply rst_refl|now apply rst_sym|eapply rst_trans; eassumption]. destruct H as [i Hi|i Hi|k Hk].
  - apply rst_step. now apply arc_lower.
  - rewrite v_len in Hi. destruct (Nat.eq_dec i mid) as [->|N1]; [|destruct (Nat.eq_dec i (mid + 1)) as [->|N2]].
    + rewrite v_0. cbn [bck]. destruct (Nat.ltb_spec mid mid), (Nat.ltb_spec mid (mid + 2)), (Nat.ltb_spec (mid + 1) mid), (Nat.ltb_spec (mid + 1) (mid + 2)); try lia. apply rst_refl.
    + rewrite v_1. cbn [bck]. destruct (Nat.ltb_spec mid mid), (Nat.ltb_spec mid (mid + 2)), (Nat.ltb_spec (mid + 1) mid), (Nat.ltb_spec (mid + 1) (mid + 2)); try lia. apply rst_refl.
    + assert (Q : exists j, j < length u /\ i = eo mid 2 j). { unfold eo. destruct (Nat.lt_ge_cases i mid); [exists i|exists (i - 2)]; destruct (Nat.ltb_spec i mid), (Nat.ltb_spec (i - 2) mid); lia. }
      destruct Q as (j & Hj & ->). rewrite v_eo by exact Hj. change (Up (eo mid 2 j)) with (fwd (Up j)). change (Up (eo mid 2 (nth j u 0))) with (fwd (Up (nth j u 0))). rewrite !bck_fwd. apply rst_step. now apply arc_upper.
  - cbn [bck]. destruct (Nat.ltb_spec k mid) as [Q|Q]; [apply rst_step; now apply same_dot|]. destruct (Nat.ltb_spec k (mid + 2)); [|lia]. assert (k = mid) by lia. subst k. unfold L. apply rst_refl.
Qed.
Lemma outer_bck i : bck (outer (L - (mid + 1)) (mid + 1) i) = outer bot mid i.
Proof using All.
  unfold outer, bot, L in *. destruct (Nat.ltb_spec i (length l - (mid + 1))) as [A|A]; [destruct (Nat.ltb_spec i (length l - mid)); [reflexivity|lia]|].
  cbn [bck]. destruct (Nat.ltb_spec (i - (length l - (mid + 1)) + (mid + 1)) mid); [lia|]. unfold L. destruct (Nat.ltb_spec (i - (length l - (mid + 1)) + (mid + 1)) (mid + 2)), (Nat.ltb_spec i (length l - mid)); try lia; f_equal; lia.
Qed.
Lemma outer_fwd i : i < bot + (length u - mid) -> joined v l (mid + 1) (outer (L - (mid + 1)) (mid + 1) i) (fwd (outer bot mid i)).
Proof using All.
  intros Hi. unfold outer, bot, L in *. destruct (Nat.ltb_spec i (length l - (mid + 1))) as [A|A]; [destruct (Nat.ltb_spec i (length l - mid)); [apply rst_refl|lia]|].
  destruct (Nat.ltb_spec i (length l - mid)) as [B|B]; cbn [fwd].
  - assert (i = length l - 1 - mid) by lia. subst i. replace (length l - 1 - mid - (length l - (mid + 1)) + (mid + 1)) with (mid + 1) by lia.
    apply rst_trans with (Up mid).
    + pose proof (arc_upper v l (mid + 1) (mid + 1) ltac:(rewrite v_len; lia)) as K. rewrite v_1 in K. now apply rst_step.
    + apply rst_sym, rst_step. apply (same_dot v l (mid + 1) mid). lia.
  - unfold eo. destruct (Nat.ltb_spec (i - (length l - mid) + mid) mid); [lia|]. replace (i - (length l - (mid + 1)) + (mid + 1)) with (i - (length l - mid) + mid + 2) by lia. apply rst_refl.
Qed.
Lemma compose_bend : ModelTL.compose v l (mid + 1) = ModelTL.compose u l mid.
Proof using All.
  assert (Cv : crossingless v) by (apply crossingless_ins; auto using crossingless_id).
  destruct (C29_compose u l mid Cu Cl ltac:(lia) Hu) as (r & k & E & Cr & Lr & J & (ls & Hls) & K). destruct (C29_compose v l (mid + 1) Cv Cl ltac:(lia) ltac:(rewrite v_len; lia)) as (r' & k' & E' & Cr' & Lr' & J' & _ & K').
  cbv zeta in *. rewrite v_len in *. fold L in Lr, J, Lr', J'. fold bot in Lr, J. assert (Sz : L - (mid + 1) + (length u + 2 - (mid + 1)) = bot + (length u - mid)) by (unfold bot, L in *; lia). rewrite Sz in *.
  rewrite E, E'. assert (Er : r' = r).
  { apply (nth_ext_len _ _ (bot + (length u - mid)) 0); [exact Lr'|exact Lr|]. intros i Hi. destruct (proj1 Cr i ltac:(lia)) as (A1 & A2 & A3). rewrite Lr in A1. apply J'; auto.
    eapply rst_trans; [now apply outer_fwd|]. eapply rst_trans; [|apply rst_sym; now apply outer_fwd]. apply joined_fwd. now apply (J i (nth i r 0) Hi A1 (not_eq_sym A2)). }
  subst r'. f_equal. f_equal. rewrite <- (K ls Hls). symmetry. apply K'. destruct Hls as (H1 & H2 & H3). fold L bot in H1, H3. unfold loops. rewrite v_len. fold L. rewrite Sz.
  assert (UpU : forall x, x < mid -> fwd (Up x) = Up x) by (intros x Hx; cbn [fwd]; unfold eo; destruct (Nat.ltb_spec x mid); [reflexivity|lia]).
  assert (BkU : forall x, x < mid -> bck (Up x) = Up x) by (intros x Hx; cbn [bck]; destruct (Nat.ltb_spec x mid); [reflexivity|lia]).
  split; [|split].
  - intros x Hx. destruct (H1 x Hx) as [Q1 Q2]. split; [lia|]. intros i Hi Z. apply (Q2 i Hi). apply joined_bck in Z. now rewrite outer_bck, BkU in Z.
  - clear - H1 H2 Hu Hl Cu Cl BkU. induction H2 as [|x ls F H2 IH]; constructor.
    + rewrite Forall_forall in *. intros y Hy Z. apply (F y Hy). apply joined_bck in Z. rewrite !BkU in Z; [exact Z| |]; apply H1; cbn; auto.
    + apply IH. intros y Hy. apply H1. now right.
  - intros x [Q1 Q2]. assert (Hx : x < mid).
    { destruct (Nat.eq_dec x mid) as [->|N]; [|lia]. exfalso. apply (Q2 (bot - 1)); [unfold bot, L in *; lia|].
      unfold outer. destruct (Nat.ltb_spec (bot - 1) (L - (mid + 1))); [unfold bot, L in *; lia|]. replace (bot - 1 - (L - (mid + 1)) + (mid + 1)) with (mid + 1) by (unfold bot, L in *; lia).
      rewrite <- v_0. apply rst_step. apply arc_upper. rewrite v_len. lia. }
    destruct (H3 x) as (y & Hy & Z).
    + split; [exact Hx|]. intros i Hi Z. apply (Q2 i Hi). apply joined_fwd in Z. rewrite UpU in Z by exact Hx. eapply rst_trans; [exact Z|]. apply rst_sym. now apply outer_fwd.
    + exists y. split; [exact Hy|]. apply joined_fwd in Z. rewrite !UpU in Z; auto. now apply H1.
Qed.
End Bend.

(** ** maps between diagrams that respect the action of e_0, ..., e_(n-2) *)
Record embeds (n m n' m' : nat) (phi : diag -> diag) : Prop := {
  em_typed : forall x, typed n m x -> typed n' m' (phi x);
  em_act : forall i x, i + 1 < n -> typed n m x -> dprod (de i n') (phi x) = (phi (fst (dprod (de i n) x)), snd (dprod (de i n) x));
  em_inj : forall x y, typed n m x -> typed n m y -> phi x = phi y -> x = y;
  em_through : forall x, typed n m x -> through_all m (dseq x) -> through_all m' (dseq (phi x)) }.
Lemma embeds_id n m : embeds n m n m (fun x => x).
Proof. split; auto. intros i x _ _. now destruct (dprod (de i n) x). Qed.
Lemma embeds_comp n m n' m' n'' m'' f g : n <= n' -> embeds n m n' m' f -> embeds n' m' n'' m'' g -> embeds n m n'' m'' (fun x => g (f x)).
Proof.
  intros L A B. split.
  - intros x T. now apply B, A.
  - intros i x Hi T. rewrite (em_act _ _ _ _ _ B) by (try lia; now apply A). now rewrite (em_act _ _ _ _ _ A i x Hi T).
  - intros x y Tx Ty E. apply (em_inj _ _ _ _ _ A); auto. apply (em_inj _ _ _ _ _ B); auto; now apply A.
  - intros x T H. apply (em_through _ _ _ _ _ B); [now apply A|]. now apply (em_through _ _ _ _ _ A).
Qed.
Lemma e_right n i : i + 1 < n -> e_seq i (n + 1) = ins (e_seq i n) (id_seq 1) n.
Proof. intros H. pose proof (pad_e 0 n 1 i ltac:(lia)) as P. replace (0 + i) with i in P by lia. replace (0 + n + 1) with (n + 1) in P by lia. rewrite <- P. unfold pad. replace (0 + n) with n by lia. change (id_seq 0) with (@nil nat). now rewrite ins_nil_l. Qed.

(** one more strand on the right *)
Definition addS (x : diag) : diag := mkD (dtop x + 1) (dbot x + 1) (ins (dseq x) (id_seq 1) (dbot x)).
Lemma embeds_add n m : embeds n m (n + 1) (m + 1) addS.
Proof.
  assert (I1 : forall x, diagram x -> tld_tensor x (did 1) = Ok (addS x) /\ diagram (addS x)). { intros x Dx. pose proof (tld_tensor_ok x (did 1) Dx) as K. cbn [did dtop dbot dseq] in K. apply K. split; [apply crossingless_id|reflexivity]. }
  split.
  - intros x (D & T1 & T2). split; [now apply I1|]. cbn [addS dtop dbot]. split; congruence.
  - intros i x Hi T. pose proof T as (D & T1 & T2). pose proof (diagram_e i n Hi) as De. assert (D1 : diagram (did 1)) by (split; [apply crossingless_id|reflexivity]).
    destruct (C33_interchange (de i n) (did 1) x (did 1) De D1 D D1 ltac:(cbn; congruence) eq_refl) as (xy & zw & xz & k & yw & k' & z & E1 & E2 & E3 & E4 & E5 & E6).
    rewrite (proj1 (I1 x D)) in E2. injection E2 as <-. rewrite (proj1 (I1 _ De)) in E1. injection E1 as <-.
    assert (Ee : addS (de i n) = de i (n + 1)) by (unfold addS, de; cbn [dtop dbot dseq]; now rewrite e_right). rewrite Ee in E5.
    pose proof (dprod_id_l (did 1) D1) as P. unfold dprod in P. change (did (dtop (did 1))) with (did 1) in P. rewrite E4 in P. injection P as -> ->.
    destruct (dprod_ok (de i n) x De D ltac:(cbn; congruence)) as [P (Dz & _)]. unfold dprod in P, Dz |- *. rewrite E3 in *. cbn [fst snd] in *. rewrite (proj1 (I1 xz Dz)) in E6. injection E6 as <-. rewrite E5. f_equal. lia.
  - intros x y (Dx & X1 & X2) (Dy & Y1 & Y2) E. assert (Es : dseq (addS x) = dseq (addS y)) by now rewrite E. cbn [addS dseq] in Es. destruct x as [a b s], y as [a' b' t]. cbn [dtop dbot dseq] in *. subst a b a' b'. f_equal.
    destruct Dx as [_ Lx], Dy as [_ Ly]. cbn [dtop dbot dseq] in *. apply (nth_ext_len _ _ (n + m) 0); [lia|lia|]. intros i Hi.
    pose proof (ins_eo s (id_seq 1) m ltac:(lia) i ltac:(lia)) as A. pose proof (ins_eo t (id_seq 1) m ltac:(lia) i ltac:(lia)) as B. rewrite Es in A. rewrite A in B. now apply eo_inj in B.
  - intros x (D & T1 & T2) H i Hi. cbn [addS dseq]. destruct D as [C Lx]. rewrite T2. destruct (Nat.eq_dec i m) as [->|N].
    + pose proof (ins_ei (dseq x) (id_seq 1) m ltac:(lia) 0 ltac:(rewrite id_seq_length; lia)) as A. rewrite nth_id in A by lia. change (0 + m) with m in A. rewrite A. lia.
    + pose proof (ins_eo (dseq x) (id_seq 1) m ltac:(lia) i ltac:(lia)) as A. specialize (H i ltac:(lia)). unfold eo in A at 1. destruct (Nat.ltb_spec i m); [|lia]. rewrite A. unfold eo. destruct (Nat.ltb_spec (nth i (dseq x) 0) m); [lia|]. rewrite id_seq_length. lia.
Qed.

(** the last point at the bottom bent up *)
Definition bendS (x : diag) : diag := mkD (dtop x + 1) (dbot x - 1) (dseq x).
Lemma embeds_bend n m : 0 < m -> embeds n m (n + 1) (m - 1) bendS.
Proof.
  intros Hm. assert (TB : forall x, typed n m x -> typed (n + 1) (m - 1) (bendS x)). { intros x ((C & Lx) & T1 & T2). split; [split; [exact C|cbn [bendS dseq dtop dbot]; lia]|]. cbn [bendS dtop dbot]. split; congruence. }
  split.
  - exact TB.
  - intros i x Hi T. pose proof T as ((C & Lx) & T1 & T2). pose proof (diagram_e i n Hi) as De. assert (De' : diagram (de i (n + 1))) by (apply diagram_e; lia). pose proof (TB x T) as (Db & B1 & B2).
    destruct (dprod_ok (de i n) x De (proj1 T) ltac:(cbn; congruence)) as [P (Dz & _)]. destruct (dprod_ok (de i (n + 1)) (bendS x) De' Db ltac:(cbn [de dbot]; congruence)) as [P' _].
    destruct (C29_compose (e_seq i n) (dseq x) n (proj1 De) C ltac:(lia) ltac:(rewrite e_seq_length; lia)) as (r & k & Ec & _).
    pose proof (tld_mul_ok (de i n) x r k De (proj1 T) ltac:(cbn; congruence) Ec) as E1. rewrite P in E1. injection E1 as E1. rewrite E1. cbn [fst snd].
    assert (Ec' : ModelTL.compose (e_seq i (n + 1)) (dseq (bendS x)) (n + 1) = Ok (r, k)). { rewrite e_right by exact Hi. cbn [bendS dseq]. rewrite compose_bend; auto; [apply De|rewrite e_seq_length; lia|lia]. }
    pose proof (tld_mul_ok (de i (n + 1)) (bendS x) r k De' Db ltac:(cbn [de dbot]; congruence) Ec') as E2. rewrite P' in E2. injection E2 as E2. rewrite E2. cbn [bendS de dtop dbot dseq]. reflexivity.
  - intros x y (_ & X1 & X2) (_ & Y1 & Y2) E. destruct x as [a b s], y as [a' b' t]. unfold bendS in E. cbn [dtop dbot dseq] in *. injection E as _ _ ->. congruence.
  - intros x T H i Hi. cbn [bendS dseq]. specialize (H i ltac:(lia)). lia.
Qed.
(** the branching rule: the cell module (n, r) contains (m, s) for r - (n - m) <= s <= r *)
Lemma branching m n r s : m <= n -> 2 * r <= n -> 2 * s <= m -> s <= r -> r <= s + (n - m) -> exists phi, embeds m (m - 2 * s) n (n - 2 * r) phi.
Proof.
  intros L. remember (n - m) as k eqn:Ek. revert n r L Ek. induction k as [|k IH]; intros n r L Ek Hr Hs H1 H2.
  - assert (n = m) by lia. assert (r = s) by lia. subst. eexists. apply embeds_id.
  - destruct (Nat.eq_dec r (s + S k)) as [Q|Q]; [|destruct (Nat.le_gt_cases (2 * r) (n - 1)) as [Q'|Q']].
    + destruct (IH (n - 1) (r - 1) ltac:(lia) ltac:(lia) ltac:(lia) Hs ltac:(lia) ltac:(lia)) as [phi A]. pose proof (embeds_bend (n - 1) (n - 1 - 2 * (r - 1)) ltac:(lia)) as B.
      replace (n - 1 + 1) with n in B by lia. replace (n - 1 - 2 * (r - 1) - 1) with (n - 2 * r) in B by lia. eexists. eapply embeds_comp; [|exact A|exact B]. lia.
    + destruct (IH (n - 1) r ltac:(lia) ltac:(lia) Q' Hs H1 ltac:(lia)) as [phi A]. pose proof (embeds_add (n - 1) (n - 1 - 2 * r)) as B.
      replace (n - 1 + 1) with n in B by lia. replace (n - 1 - 2 * r + 1) with (n - 2 * r) in B by lia. eexists. eapply embeds_comp; [|exact A|exact B]. lia.
    + destruct (IH (n - 1) (r - 1) ltac:(lia) ltac:(lia) ltac:(lia) Hs ltac:(lia) ltac:(lia)) as [phi A]. pose proof (embeds_bend (n - 1) (n - 1 - 2 * (r - 1)) ltac:(lia)) as B.
      replace (n - 1 + 1) with n in B by lia. replace (n - 1 - 2 * (r - 1) - 1) with (n - 2 * r) in B by lia. eexists. eapply embeds_comp; [|exact A|exact B]. lia.
Qed.

(** ** the action of words *)
Lemma ev_embeds n m n' m' phi : n <= n' -> embeds n m n' m' phi -> forall w, in_range n w -> forall F x, typed n m x -> leq (ev n' w F (phi x)) (ev n w (fun y => F (phi y)) x).
Proof.
  intros L A. assert (AL : forall l F, fst l + 1 < n -> eqf n m (fun y => sgm n' F l (phi y)) (sgm n (fun y => F (phi y)) l)).
  { intros l F Hl x T. unfold sgm, EE, DE. rewrite (em_act _ _ _ _ _ A _ x Hl T). cbn [fst snd]. reflexivity. }
  induction 1 as [|l w Hl Hw IH]; intros F x T; [reflexivity|]. cbn [ev fold_left]. etransitivity; [apply (IH (sgm n' F l) x T)|]. apply (ev_ext n m w Hw); [|exact T]. now apply AL.
Qed.
Lemma ddelta_embeds n m n' m' phi y : embeds n m n' m' phi -> typed n m y -> eqf n m (fun x => ddelta (phi y) (phi x)) (ddelta y).
Proof.
  intros A Ty x Tx. unfold ddelta. destruct (diag_eqb_spec (phi y) (phi x)) as [Q|Q], (diag_eqb_spec y x) as [Q'|Q']; try reflexivity; [exfalso; apply Q'; now apply (em_inj _ _ _ _ _ A)|subst; congruence].
Qed.
