(** ComposeTheory.v – the path-following loops of [compose] compute the gluing. *)
From Verif Require Import Base ModelTL SpecTL GlueTheory GlueWalk.
From Coq Require Import Relations Permutation.

Definition point_dec (x y : point) : {x = y} + {x <> y}.
Proof. decide equality; apply Nat.eq_dec. Defined.

(** [gluing upper lower mid] in the vocabulary of GlueTheory *)
Definition pD (upper lower : list nat) (p : point) : Prop := match p with Lo i => i < length lower | Up i => i < length upper end.
Definition pf (upper lower : list nat) (p : point) : point := match p with Lo i => Lo (nth i lower 0) | Up i => Up (nth i upper 0) end.
Definition pg (L : nat) (p : point) : point := match p with Lo i => Up (L - 1 - i) | Up i => Lo (L - 1 - i) end.
Definition pgs (L mid : nat) : list (point * point) := map (fun k => (Lo (L - 1 - k), Up k)) (seq 0 mid).
Definition code (bot mid : nat) (p : point) : nat := match p with Lo v => v | Up v => v - mid + bot end.
Definition matched (s : list nat) : Prop := forall i, i < length s -> nth i s 0 < length s /\ nth i s 0 <> i /\ nth (nth i s 0) s 0 = i.

Section Compose.
Context (upper lower : list nat) (mid : nat) (MU : matched upper) (ML : matched lower).
Context (HmL : mid <= length lower) (HmU : mid <= length upper).
Local Notation U := (length upper).
Local Notation L := (length lower).
Local Notation bot := (length lower - mid).
Local Notation D := (pD upper lower).
Local Notation f := (pf upper lower).
Local Notation g := (pg (length lower)).
Local Notation gs := (pgs (length lower) mid).
Local Notation cn := (conn D f gs).

Lemma pD_matching : matching D f.
Proof. intros [i|i] H; cbn in *; [destruct (ML i H) as [A [B C]]|destruct (MU i H) as [A [B C]]]; repeat split; congruence. Qed.
Lemma in_pgs x y : In (x, y) gs <-> exists k, k < mid /\ x = Lo (L - 1 - k) /\ y = Up k.
Proof.
  unfold pgs. rewrite in_map_iff. split.
  - intros [k [E H]]. apply in_seq in H. injection E as <- <-. exists k. repeat split. lia.
  - intros [k [H [-> ->]]]. exists k. split; [reflexivity|apply in_seq; lia].
Qed.
Lemma in_pends x : In x (ends gs) <-> match x with Lo i => bot <= i < L | Up i => i < mid end.
Proof.
  rewrite in_ends. split.
  - intros [y [H|H]]; apply in_pgs in H; destruct H as [k [H [-> E]]]; subst; lia.
  - destruct x as [i|i]; intros H.
    + exists (Up (L - 1 - i)). left. apply in_pgs. exists (L - 1 - i). repeat split; try lia. f_equal. lia.
    + exists (Lo (L - 1 - i)). right. apply in_pgs. exists i. repeat split; lia.
Qed.
Lemma pgood : good D gs.
Proof.
  split.
  - unfold ends, pgs. rewrite !map_map. cbn [fst snd]. apply NoDup_app_intro.
    + assert (K : forall n s, s + n <= mid -> NoDup (map (fun x => Lo (L - 1 - x)) (seq s n))).
      { induction n as [|n IH]; intros s H; cbn [seq map]; [constructor|]. constructor; [|apply IH; lia].
        intros I. apply in_map_iff in I. destruct I as [j [E I]]. apply in_seq in I. injection E as E. lia. }
      apply K. lia.
    + apply FinFun.Injective_map_NoDup; [|apply seq_NoDup]. intros a b E. congruence.
    + intros x H K. apply in_map_iff in H, K. destruct H as [a [<- _]], K as [b [K _]]. discriminate.
  - intros x H. apply in_pends in H. destruct x; cbn; lia.
Qed.
Lemma pends_length : length (ends gs) = 2 * mid.
Proof. unfold ends, pgs. rewrite app_length, !map_length, seq_length. lia. Qed.
Lemma pbd x : bd D gs x <-> match x with Lo i => i < bot | Up i => mid <= i < U end.
Proof. unfold bd. rewrite in_pends. destruct x; cbn; lia. Qed.
Lemma Hpg x : In x (ends gs) -> (In (x, g x) gs \/ In (g x, x) gs) /\ g (g x) = x /\ g x <> x.
Proof.
  intros H. apply in_pends in H. destruct x as [i|i]; cbn.
  - split; [left; apply in_pgs; exists (L - 1 - i); repeat split; try lia; f_equal; lia|]. split; [f_equal; lia|discriminate].
  - split; [right; apply in_pgs; exists i; repeat split; lia|]. split; [f_equal; lia|discriminate].
Qed.
(** paths of the specification are paths of the gluing *)
Lemma joined_conn x y : joined upper lower mid x y <-> cn x y.
Proof.
  split; intros C; (induction C as [x y H| | |]; [|apply rst_refl|now apply rst_sym|eapply rst_trans; eassumption]).
  - destruct H as [i H|i H|k H]; [now apply (conn_f D f gs (Lo i))|now apply (conn_f D f gs (Up i))|]. apply conn_g, in_pgs. eauto.
  - destruct H as [[H ->]|H].
    + destruct x; apply rst_step; now constructor.
    + apply in_pgs in H. destruct H as [k [H [-> ->]]]. apply rst_step. now constructor.
Qed.

(** ** Boundary points and their numbers *)
Lemma outer_bd i : i < bot + (U - mid) -> bd D gs (outer bot mid i).
Proof. intros H. apply pbd. unfold outer. destruct (Nat.ltb_spec i bot); lia. Qed.
Lemma code_outer i : i < bot + (U - mid) -> code bot mid (outer bot mid i) = i.
Proof. intros H. unfold outer. destruct (Nat.ltb_spec i bot); cbn; lia. Qed.
Lemma outer_code y : bd D gs y -> outer bot mid (code bot mid y) = y.
Proof.
  intros H. apply pbd in H. unfold outer. destruct y as [i|i]; cbn [code].
  - destruct (Nat.ltb_spec i bot); [reflexivity|lia].
  - destruct (Nat.ltb_spec (i - mid + bot) bot); [lia|]. f_equal. lia.
Qed.
Lemma code_lt y : bd D gs y -> code bot mid y < bot + (U - mid).
Proof. intros H. apply pbd in H. destruct y; cbn; lia. Qed.

(** ** The walk from a boundary point *)
Definition idx (p : point) : nat := match p with Lo i => L - 1 - i | Up i => i end.
Definition num (p : point) : nat := match p with Lo i => i | Up i => i end.
Definition is_up (p : point) : bool := match p with Lo _ => false | Up _ => true end.
Definition V (vis : list bool) (j : nat) : Prop := nth j vis false = true.
Lemma idx_lt q : In q (ends gs) -> idx q < mid.
Proof. rewrite in_pends. destruct q; cbn; lia. Qed.
Lemma idx_eq q q' : In q (ends gs) -> In q' (ends gs) -> idx q = idx q' -> q' = q \/ q' = g q.
Proof.
  rewrite !in_pends. destruct q as [i|i], q' as [j|j]; cbn; intros H K E.
  - left. f_equal. lia.
  - right. f_equal. lia.
  - right. f_equal. lia.
  - left. f_equal. lia.
Qed.
Lemma V_upd vis j k : j < length vis -> (V (upd vis j true) k <-> k = j \/ V vis k).
Proof.
  intros H. unfold V. destruct (Nat.eq_dec j k) as [->|N]; [rewrite nth_upd_eq by exact H; tauto|]. rewrite nth_upd_neq by exact N.
  split; [auto|]. intros [->|K]; [contradiction|exact K].
Qed.
(** the marked set is closed under following arcs, except from [E] *)
Definition Cl (vis : list bool) (E : point -> Prop) : Prop :=
  forall q, In q (ends gs) -> V vis (idx q) -> E q \/ bd D gs (f q) \/ V vis (idx (f q)).
Lemma up_conn q : In q (ends gs) -> cn q (Up (idx q)).
Proof.
  intros H. destruct q as [i|i]; cbn; [|apply conn_refl]. apply conn_g, in_pgs. apply in_pends in H.
  exists (L - 1 - i). repeat split; try lia. f_equal. lia.
Qed.
Lemma walk_step fuel p vis : D p ->
  walk (S fuel) upper lower mid bot (num p) (is_up p) vis =
  if in_dec point_dec (f p) (ends gs) then visited <- set_ vis (idx (f p)) true ;; walk fuel upper lower mid bot (num (g (f p))) (is_up (g (f p))) visited
  else Ok (code bot mid (f p), vis).
Proof.
  intros Dp. destruct p as [i|i]; cbn [walk num is_up negb]; cbn in Dp; rewrite (get_ok _ _ 0) by exact Dp; cbn [bind].
  - destruct (ML i Dp) as [A _]. destruct (in_dec point_dec (f (Lo i)) (ends gs)) as [H|H]; rewrite in_pends in H; cbn in H.
    + destruct (Nat.ltb_spec (nth i lower 0) bot); [lia|]. cbn [pf pg idx num is_up].
      replace (L - nth i lower 0 - 1) with (L - 1 - nth i lower 0) by lia. reflexivity.
    + destruct (Nat.ltb_spec (nth i lower 0) bot); [reflexivity|lia].
  - destruct (MU i Dp) as [A _]. destruct (in_dec point_dec (f (Up i)) (ends gs)) as [H|H]; rewrite in_pends in H; cbn in H.
    + destruct (Nat.leb_spec mid (nth i upper 0)); [lia|]. cbn [pf pg idx num is_up].
      replace (L - nth i upper 0 - 1) with (L - 1 - nth i upper 0) by lia. reflexivity.
    + destruct (Nat.leb_spec mid (nth i upper 0)); [reflexivity|lia].
Qed.
Local Notation it := (it f g).
Local Notation valid := (valid f g gs).
Lemma walk_ok fuel : forall x k vis, bd D gs x -> valid x k -> 2 * mid < fuel + k -> length vis = mid ->
  Cl vis (eq (it x k)) -> (0 < k -> V vis (idx (it x k))) ->
  exists m vis', valid x m /\ bd D gs (f (it x m)) /\
    walk fuel upper lower mid bot (num (it x k)) (is_up (it x k)) vis = Ok (code bot mid (f (it x m)), vis') /\
    length vis' = mid /\ (forall j, V vis j -> V vis' j) /\ (forall j, V vis' j -> V vis j \/ cn x (Up j)) /\
    Cl vis' (fun _ => False) /\ (bd D gs (f (it x k)) \/ V vis' (idx (f (it x k)))).
Proof.
  induction fuel as [|fuel IH]; intros x k vis Bx Vx Hf Lv C Hk.
  - exfalso. pose proof (it_bound D f g gs pD_matching pgood Hpg x k Bx Vx) as B. rewrite pends_length in B. lia.
  - pose proof (it_D D f g gs pgood Hpg x k (proj1 Bx) Vx) as Dk. pose proof (it_conn D f g gs pgood Hpg x k (proj1 Bx) Vx) as [Ck Cfk].
    destruct (pD_matching _ Dk) as [Df [Nf Ff]].
    rewrite walk_step by exact Dk. destruct (in_dec point_dec (f (it x k)) (ends gs)) as [H|H].
    + rewrite set_ok by (rewrite Lv; now apply idx_lt). cbn [bind].
      set (vis1 := upd vis (idx (f (it x k))) true).
      assert (Hi : idx (f (it x k)) < length vis) by (rewrite Lv; now apply idx_lt).
      assert (V1 : forall j, V vis1 j <-> j = idx (f (it x k)) \/ V vis j) by (intros j; now apply V_upd).
      assert (Vx1 : valid x (S k)).
      { intros j Hj. destruct (Nat.eq_dec j k) as [->|]; [exact H|]. apply Vx. lia. }
      destruct (Hpg _ H) as [_ [Gg _]].
      assert (E1 : idx (g (f (it x k))) = idx (f (it x k))).
      { apply in_pends in H. destruct (f (it x k)); cbn; lia. }
      destruct (IH x (S k) vis1 Bx Vx1) as [m [vis' [A1 [A2 [A3 [A4 [A5 [A6 [A7 A8]]]]]]]]].
      * lia.
      * unfold vis1. now rewrite upd_length.
      * intros q Hq Vq. apply V1 in Vq. destruct Vq as [Eq|Vq].
        -- destruct (idx_eq _ _ H Hq (eq_sym Eq)) as [->| ->]; [|left; reflexivity]. right. rewrite Ff.
           destruct k as [|k]; [left; exact Bx|]. right. apply V1. right. apply Hk. lia.
        -- right. destruct (C q Hq Vq) as [<-|[K|K]]; [right; apply V1; now left|now left|right; apply V1; now right].
      * intros _. apply V1. left. exact E1.
      * exists m, vis'. split; [exact A1|]. split; [exact A2|]. split; [exact A3|]. split; [exact A4|]. split; [intros j Hj; apply A5, V1; now right|].
        split; [|split; [exact A7|]].
        -- intros j Hj. destruct (A6 j Hj) as [K|K]; [|now right]. apply V1 in K. destruct K as [->|K]; [|now left]. right.
           eapply conn_trans; [exact Cfk|]. now apply up_conn.
        -- right. apply A5, V1. now left.
    + exists k, vis. assert (B : bd D gs (f (it x k))) by (split; assumption). repeat split; auto; try apply B.
      intros q Hq Vq. destruct (C q Hq Vq) as [<-|K]; [right; left; exact B|auto].
Qed.

(** ** The first loop *)
Definition step1 : list nat * list bool -> nat -> res (list nat * list bool) := fun '(result, visited) i =>
  let '(v, side) := if i <? bot then (i, false) else (i - bot + mid, true) in
  '(r, visited) <- walk (S (2 * mid)) upper lower mid bot v side visited ;;
  Ok (result ++ [r], visited).
Definition inv1 (k : nat) (st : list nat * list bool) : Prop :=
  let '(r, vis) := st in length r = k /\ length vis = mid /\
  (forall i, i < k -> exists y, bd D gs y /\ nth i r 0 = code bot mid y /\ cn (outer bot mid i) y /\ y <> outer bot mid i) /\
  Cl vis (fun _ => False) /\ (forall j, V vis j -> exists i, i < bot + (U - mid) /\ cn (outer bot mid i) (Up j)) /\
  (forall i, i < k -> bd D gs (f (outer bot mid i)) \/ V vis (idx (f (outer bot mid i)))).
Lemma step1_ok k st : k < bot + (U - mid) -> inv1 k st -> exists st', step1 st k = Ok st' /\ inv1 (S k) st'.
Proof.
  destruct st as [r vis]. intros Hk [L1 [L2 [P1 [P2 [P3 P4]]]]]. cbn [step1].
  set (x := outer bot mid k). assert (Bx : bd D gs x) by now apply outer_bd.
  destruct (walk_ok (S (2 * mid)) x 0 vis Bx) as [m [vis' [A1 [A2 [A3 [A4 [A5 [A6 [A7 A8]]]]]]]]].
  - intros j Hj. lia.
  - lia.
  - exact L2.
  - intros q Hq Vq. destruct (P2 q Hq Vq) as [[]|K]; auto.
  - lia.
  - assert (E : (if k <? bot then (k, false) else (k - bot + mid, true)) = (num x, is_up x)).
    { unfold x, outer. now destruct (Nat.ltb_spec k bot). }
    rewrite E. change x with (it x 0) at 1 2. rewrite A3. cbn [bind]. eexists. split; [reflexivity|].
    pose proof (it_conn D f g gs pgood Hpg x m (proj1 Bx) A1) as [_ Cx].
    cbn [inv1]. split; [rewrite app_length; cbn; lia|]. split; [exact A4|]. split; [|split; [exact A7|split]].
    + intros i Hi. destruct (Nat.eq_dec i k) as [->|N].
      * exists (f (it x m)). split; [exact A2|]. split; [rewrite app_nth2 by lia; now rewrite L1, Nat.sub_diag|]. split; [exact Cx|].
        intros E2. apply (it_no_return D f g gs pD_matching pgood Hpg x m (proj1 Bx) A1 m 0 ltac:(lia)). change (it x 0) with x. cbn [Nat.add].
        pose proof (it_D D f g gs pgood Hpg x m (proj1 Bx) A1) as Dm. fold x in E2. transitivity (f (f (it x m))); [now rewrite E2|]. now apply pD_matching.
      * rewrite app_nth1 by lia. apply P1. lia.
    + intros j Hj. destruct (A6 j Hj) as [K|K]; [auto|]. exists k. auto.
    + intros i Hi. destruct (Nat.eq_dec i k) as [->|N].
      * exact A8.
      * destruct (P4 i ltac:(lia)) as [K|K]; auto.
Qed.
Lemma loop1_ok k : forall s st, s + k <= bot + (U - mid) -> inv1 s st -> exists st', foldM step1 (seq s k) st = Ok st' /\ inv1 (s + k) st'.
Proof.
  induction k as [|k IH]; intros s st H I; cbn [seq foldM].
  - exists st. now rewrite Nat.add_0_r.
  - destruct (step1_ok s st ltac:(lia) I) as [st1 [E1 I1]]. rewrite E1. cbn [bind]. destruct (IH (S s) st1 ltac:(lia) I1) as [st' [E' I']].
    exists st'. split; [exact E'|]. now replace (s + S k) with (S s + k) by lia.
Qed.
Lemma inv1_start : inv1 0 ([], repeat false mid).
Proof.
  cbn. rewrite repeat_length. repeat split; try (intros; lia).
  - intros q _ K. unfold V in K. rewrite nth_repeat in K. discriminate.
  - intros j K. unfold V in K. rewrite nth_repeat in K. discriminate.
Qed.

(** ** The second loop *)
(** marked points are closed under arcs and contain every open path *)
Definition sat (vis : list bool) : Prop := Cl vis (fun _ => False) /\
  forall x, bd D gs x -> bd D gs (f x) \/ V vis (idx (f x)).
Lemma sat_conn vis x y : sat vis -> cn x y -> (bd D gs x \/ (In x (ends gs) /\ V vis (idx x))) <-> (bd D gs y \/ (In y (ends gs) /\ V vis (idx y))).
Proof.
  intros [S1 S2]. set (K := fun z => bd D gs z \/ (In z (ends gs) /\ V vis (idx z))). change (cn x y -> (K x <-> K y)).
  assert (Kf : forall z, K z -> K (f z)).
  { intros z Hz. assert (Dz : D z) by (destruct Hz as [Hz|[Hz _]]; [apply Hz|now apply pgood]).
    assert (Q : bd D gs (f z) \/ V vis (idx (f z))) by (destruct Hz as [Hz|[I Hz]]; [auto|destruct (S1 z I Hz) as [[]|Q]; exact Q]).
    destruct (in_dec point_dec (f z) (ends gs)) as [I|I]; [|left; split; [now apply pD_matching|exact I]].
    destruct Q as [Q|Q]; [left; exact Q|right; auto]. }
  intros C. induction C as [a b [[H ->]|H]| | |]; try tauto.
  - split; [apply Kf|]. intros Q. apply Kf in Q. now rewrite (proj2 (proj2 (pD_matching a H))) in Q.
  - assert (Ia : In a (ends gs)) by (apply in_ends; eauto). assert (Ib : In b (ends gs)) by (apply in_ends; eauto).
    assert (E : idx a = idx b) by (apply in_pgs in H; destruct H as [k [H [-> ->]]]; cbn; lia).
    split; intros [Q|[_ Q]]; try (exfalso; now apply Q); right; (split; [assumption|congruence]).
Qed.
Definition unmarked (vis : list bool) : nat := length (filter negb vis).
Lemma unmarked_upd vis j : j < length vis -> ~ V vis j -> S (unmarked (upd vis j true)) = unmarked vis.
Proof.
  revert j. induction vis as [|b vis IH]; intros j H N; [cbn in H; lia|]. destruct j as [|j].
  - unfold V in N. cbn in N. destruct b; [congruence|]. reflexivity.
  - unfold unmarked in *. cbn [upd filter]. assert (K : S (length (filter negb (upd vis j true))) = length (filter negb vis)) by (apply IH; [cbn in H; lia|exact N]).
    destruct (negb b); cbn [length]; lia.
Qed.
Lemma unmarked_upd_le vis j : unmarked (upd vis j true) <= unmarked vis.
Proof.
  revert j. induction vis as [|b vis IH]; intros j; [destruct j; cbn; lia|]. destruct j as [|j]; unfold unmarked in *; cbn [upd filter negb length].
  - destruct b; cbn; lia.
  - specialize (IH j). destruct (negb b); cbn [length]; lia.
Qed.
Lemma unmarked_le vis : unmarked vis <= length vis.
Proof. unfold unmarked. induction vis as [|[] vis IH]; cbn in *; lia. Qed.

Definition up (m : nat) : nat := nth m upper 0.
Definition lo (m : nat) : nat := L - 1 - nth (L - 1 - m) lower 0.
(** [vis0] is the marking before the loop through [i] is followed *)
Definition inv2 (vis0 vis : list bool) (i v : nat) : Prop :=
  length vis = mid /\ v < mid /\ ~ V vis v /\ closed D f gs (Up v) /\ cn (Up i) (Up v) /\
  (forall m, V vis0 m -> V vis m) /\
  (forall m, V vis m -> V vis0 m \/ (closed D f gs (Up m) /\ m < mid /\ cn (Up i) (Up m) /\ V vis (up m) /\ (m = i \/ lo m = v \/ V vis (lo m)))) /\
  ((v = i /\ (forall m, V vis m -> V vis0 m)) \/ V vis i /\ V vis (lo v)).
Lemma closed_up m : closed D f gs (Up m) -> m < mid -> up m < mid /\ up m <> m /\ up (up m) = m /\ closed D f gs (Up (up m)) /\ cn (Up m) (Up (up m)).
Proof.
  intros C H. unfold up. assert (HU : m < U) by lia. destruct (MU m HU) as [A [B E]].
  assert (Cn : cn (Up m) (Up (nth m upper 0))) by (apply (conn_f D f gs (Up m)); exact HU).
  assert (Cc : closed D f gs (Up (nth m upper 0))) by (apply (closed_conn D f gs (Up m)); auto using pD_matching, pgood).
  repeat split; auto; try apply Cc. destruct (Nat.lt_ge_cases (nth m upper 0) mid) as [K|K]; [exact K|]. exfalso.
  apply (proj2 Cc (Up (nth m upper 0))); [apply pbd; lia|apply conn_refl].
Qed.
Lemma closed_lo m : closed D f gs (Up m) -> m < mid -> lo m < mid /\ lo m <> m /\ lo (lo m) = m /\ closed D f gs (Up (lo m)) /\ cn (Up m) (Up (lo m))
  /\ nth (L - 1 - m) lower 0 < L.
Proof.
  intros C H. assert (HL : L - 1 - m < L) by lia. destruct (ML _ HL) as [A [B E]]. unfold lo.
  set (w := nth (L - 1 - m) lower 0) in *.
  assert (C1 : cn (Up m) (Lo (L - 1 - m))) by (apply conn_sym, conn_g, in_pgs; exists m; auto).
  assert (C2 : cn (Up m) (Lo w)) by (eapply conn_trans; [exact C1|]; apply (conn_f D f gs (Lo (L - 1 - m))); exact HL).
  assert (Cw : closed D f gs (Lo w)) by (apply (closed_conn D f gs (Up m)); auto using pD_matching, pgood).
  assert (Hw : bot <= w).
  { destruct (Nat.lt_ge_cases w bot) as [K|K]; [|exact K]. exfalso. apply (proj2 Cw (Lo w)); [apply pbd; exact K|apply conn_refl]. }
  assert (C3 : cn (Up m) (Up (L - 1 - w))) by (eapply conn_trans; [exact C2|]; apply conn_g, in_pgs; exists (L - 1 - w); repeat split; [lia|f_equal; lia]).
  repeat split; auto; try lia.
  - replace (L - 1 - (L - 1 - w)) with w by lia. rewrite E. lia.
  - now apply (closed_conn D f gs (Up m) (Up (L - 1 - w)) pD_matching pgood C3).
  - apply (proj2 (closed_conn D f gs (Up m) (Up (L - 1 - w)) pD_matching pgood C3 C)).
Qed.
Lemma loop_walk_ok fuel : forall vis0 vis i v, sat vis0 -> ~ V vis0 i -> closed D f gs (Up i) -> i < mid -> length vis0 = mid ->
  (forall m, V vis0 m -> ~ cn (Up i) (Up m)) -> inv2 vis0 vis i v -> unmarked vis < fuel ->
  exists vis', loop_walk fuel upper lower v vis = Ok vis' /\ length vis' = mid /\ sat vis' /\ V vis' i /\
    (forall m, V vis0 m -> V vis' m) /\ (forall m, V vis' m -> V vis0 m \/ cn (Up i) (Up m)).
Proof.
  induction fuel as [|fuel IH]; intros vis0 vis i v S0 N0 Ci Hi L0 Dis [Lv [Hv [Nv [Cv [Cnv [Mono [Inv Cur]]]]]]] HF; [lia|].
  cbn [loop_walk]. destruct (closed_up v Cv Hv) as [U1 [U2 [U3 [U4 U5]]]].
  assert (Cnu : cn (Up i) (Up (up v))) by (eapply conn_trans; [exact Cnv|exact U5]).
  destruct (closed_lo (up v) U4 U1) as [W1 [W2 [W3 [W4 [W5 W6]]]]].
  rewrite set_ok by lia. cbn [bind]. rewrite (get_ok _ _ 0) by lia. cbn [bind]. fold (up v).
  rewrite set_ok by (rewrite upd_length; lia). cbn [bind].
  replace (L - up v - 1) with (L - 1 - up v) by lia. rewrite (get_ok _ _ 0) by lia. cbn [bind].
  replace (L - nth (L - 1 - up v) lower 0 - 1) with (lo (up v)) by (unfold lo; lia).
  set (vis1 := upd (upd vis v true) (up v) true). assert (L1 : length vis1 = mid) by (unfold vis1; now rewrite !upd_length).
  assert (V1 : forall m, V vis1 m <-> m = up v \/ m = v \/ V vis m).
  { intros m. unfold vis1. rewrite V_upd by (rewrite upd_length; lia). rewrite V_upd by lia. tauto. }
  rewrite (get_ok _ _ false) by lia. cbn [bind].
  set (v' := lo (up v)) in *.
  assert (Cnv' : cn (Up i) (Up v')) by (eapply conn_trans; [exact Cnu|exact W5]).
  (* up v was not marked before this round *)
  assert (Nu : ~ V vis (up v)).
  { intros K. destruct (Inv _ K) as [K0|[K1 [K2 [K3 [K4 _]]]]].
    - apply (Dis _ K0). exact Cnu.
    - rewrite U3 in K4. contradiction. }
  assert (Vi1 : V vis1 i) by (apply V1; destruct Cur as [[-> _]|[K _]]; auto).
  assert (Inv1 : forall m, V vis1 m -> V vis0 m \/ (closed D f gs (Up m) /\ m < mid /\ cn (Up i) (Up m) /\ V vis1 (up m) /\ (m = i \/ lo m = v' \/ V vis1 (lo m)))).
  { intros m Hm. apply V1 in Hm. destruct Hm as [->|[->|Hm]].
    - right. repeat split; auto; try apply U4. apply V1. rewrite U3. auto.
    - right. repeat split; auto; try apply Cv. apply V1; auto. destruct Cur as [[-> _]|[_ K]]; [auto|]. right. right. apply V1. auto.
    - destruct (Inv m Hm) as [K|[K1 [K2 [K3 [K4 K5]]]]]; [auto|]. right. repeat split; auto; try apply K1; [apply V1; auto|].
      destruct K5 as [K5|[K5|K5]]; [auto| |]; right; right; apply V1; auto. }
  assert (Mono1 : forall m, V vis0 m -> V vis1 m) by (intros m Hm; apply V1; auto).
  destruct (nth v' vis1 false) eqn:Ev.
  - (* the loop closes, and at i *)
    assert (Vv' : V vis1 v') by exact Ev. assert (Ei : v' = i).
    { apply V1 in Vv'. destruct Vv' as [E|[E|K]].
      - exfalso. apply W2. exact E.
      - rewrite E. destruct Cur as [[K _]|[_ K]]; [exact K|]. exfalso. apply Nu. rewrite <- E in K. now rewrite W3 in K.
      - destruct (Inv _ K) as [K0|[K1 [K2 [K3 [K4 K5]]]]]; [exfalso; apply (Dis _ K0); exact Cnv'|].
        rewrite W3 in K5. destruct K5 as [K5|[K5|K5]]; [exact K5| |]; exfalso; auto. }
    exists vis1. split; [reflexivity|]. split; [exact L1|]. split; [|split; [exact Vi1|split; [exact Mono1|]]].
    + split.
      * intros q Hq Vq. right. destruct (Inv1 _ Vq) as [K0|[K1 [K2 [K3 [K4 K5]]]]].
        -- destruct (proj1 S0 q Hq K0) as [[]|[K|K]]; [now left|right; now apply Mono1].
        -- right. apply in_pends in Hq. destruct q as [a|a]; cbn [idx pf] in *; [|exact K4].
           assert (Ea : L - 1 - nth a lower 0 = lo (L - 1 - a)) by (unfold lo; do 2 f_equal; lia). rewrite Ea.
           destruct K5 as [K5|[K5|K5]]; [|now rewrite K5|exact K5]. rewrite K5, <- Ei, W3. apply V1. now left.
      * intros x Bx. destruct (proj2 S0 x Bx) as [K|K]; auto.
    + intros m Hm. destruct (Inv1 _ Hm) as [K|[_ [_ [K _]]]]; auto.
  - assert (Nv' : ~ V vis1 v') by (unfold V; congruence).
    apply (IH vis0 vis1 i v'); auto.
    + split; [exact L1|]. split; [exact W1|]. split; [exact Nv'|]. split; [exact W4|]. split; [exact Cnv'|]. split; [exact Mono1|]. split; [exact Inv1|].
      right. split; [exact Vi1|]. rewrite W3. apply V1. now left.
    + pose proof (unmarked_upd vis v ltac:(lia) Nv). pose proof (unmarked_upd_le (upd vis v true) (up v)). unfold vis1. lia.
Qed.

(** the loop over the middle row *)
Definition step2 : list bool * nat -> nat -> res (list bool * nat) := fun '(visited, bubbles) i =>
  b <- get visited i ;;
  if (b : bool) then Ok (visited, bubbles)
  else visited <- loop_walk (S (2 * mid)) upper lower i visited ;; Ok (visited, S bubbles).
Definition inv3 (k : nat) (st : list bool * nat) : Prop :=
  let '(vis, n) := st in length vis = mid /\ sat vis /\ (forall j, j < k -> V vis j) /\
  exists l, length l = n /\ (forall m, In m l -> m < mid /\ V vis m /\ closed D f gs (Up m)) /\
    ForallOrdPairs (fun a b => ~ cn (Up a) (Up b)) l /\
    (forall m, V vis m -> m < mid -> closed D f gs (Up m) -> exists a, In a l /\ cn (Up m) (Up a)).
Lemma unmarked_closed vis i : sat vis -> i < mid -> ~ V vis i -> closed D f gs (Up i).
Proof.
  intros S Hi N. split; [cbn; lia|]. intros y By C.
  assert (K : bd D gs (Up i) \/ (In (Up i) (ends gs) /\ V vis (idx (Up i)))) by (apply (sat_conn vis (Up i) y S C); now left).
  destruct K as [K|[_ K]]; [apply pbd in K; lia|contradiction].
Qed.
Lemma unmarked_conn vis i m : sat vis -> i < mid -> m < mid -> ~ V vis i -> V vis m -> ~ cn (Up i) (Up m).
Proof.
  intros S Hi Hm N Vm C. apply N.
  assert (K : bd D gs (Up i) \/ (In (Up i) (ends gs) /\ V vis (idx (Up i)))).
  { apply (sat_conn vis (Up i) (Up m) S C). right. split; [apply in_pends; exact Hm|exact Vm]. }
  destruct K as [K|[_ K]]; [apply pbd in K; lia|exact K].
Qed.
Lemma step2_ok k st : k < mid -> inv3 k st -> exists st', step2 st k = Ok st' /\ inv3 (S k) st'.
Proof.
  destruct st as [vis n]. intros Hk [Lv [S [Vk [l [Ll [A [B C]]]]]]]. cbn [step2]. rewrite (get_ok _ _ false) by lia. cbn [bind].
  destruct (nth k vis false) eqn:E.
  - exists (vis, n). split; [reflexivity|]. split; [exact Lv|]. split; [exact S|]. split; [|exists l; auto].
    intros j Hj. destruct (Nat.eq_dec j k) as [->|]; [exact E|apply Vk; lia].
  - assert (N : ~ V vis k) by (unfold V; congruence). pose proof (unmarked_closed vis k S Hk N) as Ck.
    assert (VL : forall m, V vis m -> m < mid).
    { intros m Hm. destruct (Nat.lt_ge_cases m mid) as [K|K]; [exact K|]. unfold V in Hm. rewrite nth_overflow in Hm by lia. discriminate. }
    destruct (loop_walk_ok (Datatypes.S (2 * mid)) vis vis k k S N Ck Hk Lv) as [vis' [E' [L' [S' [Vi' [M' Q']]]]]].
    + intros m Hm. apply (unmarked_conn vis); auto.
    + split; [exact Lv|]. split; [exact Hk|]. split; [exact N|]. split; [exact Ck|]. split; [apply conn_refl|]. repeat split; auto.
    + pose proof (unmarked_le vis). lia.
    + rewrite E'. cbn [bind]. eexists. split; [reflexivity|]. cbn [inv3]. split; [exact L'|]. split; [exact S'|]. split.
      * intros j Hj. destruct (Nat.eq_dec j k) as [->|]; [exact Vi'|]. apply M', Vk. lia.
      * exists (k :: l). split; [cbn; lia|]. split; [|split].
        -- intros m [<-|Hm]; [auto|]. destruct (A m Hm) as [A1 [A2 A3]]. auto.
        -- constructor; [|exact B]. apply Forall_forall. intros m Hm. destruct (A m Hm) as [A1 [A2 A3]]. now apply (unmarked_conn vis).
        -- intros m Hm Hlt Hc. destruct (Q' m Hm) as [K|K].
           ++ destruct (C m K Hlt Hc) as [a [Ha Ca]]. exists a. split; [now right|exact Ca].
           ++ exists k. split; [now left|now apply conn_sym].
Qed.
Lemma loop2_ok k : forall s st, s + k <= mid -> inv3 s st -> exists st', foldM step2 (seq s k) st = Ok st' /\ inv3 (s + k) st'.
Proof.
  induction k as [|k IH]; intros s st H I; cbn [seq foldM].
  - exists st. now rewrite Nat.add_0_r.
  - destruct (step2_ok s st ltac:(lia) I) as [st1 [E1 I1]]. rewrite E1. cbn [bind]. destruct (IH (S s) st1 ltac:(lia) I1) as [st' [E' I']].
    exists st'. split; [exact E'|]. now replace (s + S k) with (S s + k) by lia.
Qed.

(** ** compose *)
(** the matching of the boundary recorded by a list of numbers *)
Definition read (r : list nat) (p : point) : point := outer bot mid (nth (code bot mid p) r 0).
Theorem compose_loops : exists r n, length r = bot + (U - mid) /\ glued D f gs (read r) n /\
  compose upper lower mid = (ok <- is_cm r ;; _ <- assert_ ok ;; Ok (r, n)).
Proof.
  destruct (loop1_ok (bot + (U - mid)) 0 _ ltac:(lia) inv1_start) as [[r vis] [E1 [L1 [L2 [P1 [P2 [P3 P4]]]]]]]. cbn [Nat.add] in *.
  assert (S : sat vis).
  { split; [exact P2|]. intros x Bx. rewrite <- (outer_code x Bx). apply P4. now apply code_lt. }
  assert (I3 : inv3 0 (vis, 0)).
  { split; [exact L2|]. split; [exact S|]. split; [intros; lia|]. exists []. split; [reflexivity|]. split; [intros ? []|]. split; [constructor|].
    intros m Hm Hlt Hc. exfalso. destruct (P3 m Hm) as [i [Hi Ci]]. apply (proj2 Hc (outer bot mid i)); [now apply outer_bd|now apply conn_sym]. }
  destruct (loop2_ok mid 0 _ ltac:(lia) I3) as [[vis' n] [E2 [L' [S' [V' [l [Ll [A [B C]]]]]]]]]. cbn [Nat.add] in *.
  exists r, n. split; [exact L1|]. split.
  - destruct (glued_exists point_dec D f gs pD_matching pgood) as [f0 [n0 G0]].
    assert (R : forall x, bd D gs x -> read r x = f0 x).
    { intros x Bx. unfold read. destruct (P1 (code bot mid x) (code_lt x Bx)) as [y [By [-> [Cy Ny]]]].
      rewrite (outer_code x Bx) in *. rewrite (outer_code y By). destruct (gl_uniq _ _ _ _ _ G0 x y Bx By Cy); congruence. }
    assert (En : n = n0).
    { destruct (gl_reps _ _ _ _ _ G0) as [l0 [<- R0]]. rewrite <- Ll, <- (map_length Up l). apply (reps_length D f gs); [|exact R0].
      split; [|split].
      - intros x Hx. apply in_map_iff in Hx. destruct Hx as [m [<- Hm]]. now apply A.
      - clear - B. induction B as [|m l F B IH]; cbn [map]; constructor; auto. rewrite Forall_forall in *. intros x Hx.
        apply in_map_iff in Hx. destruct Hx as [m' [<- Hm]]. now apply F.
      - intros x Hx. assert (I : In x (ends gs)).
        { destruct (in_dec point_dec x (ends gs)) as [I|I]; [exact I|]. exfalso. apply (proj2 Hx x); [split; [apply Hx|exact I]|apply conn_refl]. }
        pose proof (up_conn x I) as Cx. pose proof (idx_lt x I) as Hlt.
        destruct (C (idx x)) as [a [Ha Ca]]; auto.
        + apply (closed_conn D f gs x); auto using pD_matching, pgood.
        + exists (Up a). split; [now apply in_map|]. eapply conn_trans; eassumption. }
    subst n0. apply (glued_ext D f gs D f gs f0 (read r) n); auto; try tauto. intros x Bx. symmetry. auto.
  - unfold compose. destruct (Nat.leb_spec mid L); [|lia]. destruct (Nat.leb_spec mid U); [|lia]. cbn [andb assert_ bind].
    match goal with |- context [foldM ?F (seq 0 (bot + (U - mid)))] => change F with step1 end.
    rewrite E1. cbn [bind]. destruct (is_cm r) as [ok|e]; cbn [bind]; [|reflexivity]. destruct (assert_ ok); cbn [bind]; [|reflexivity].
    match goal with |- context [foldM ?F (seq 0 mid)] => change F with step2 end.
    rewrite E2. reflexivity.
Qed.
End Compose.
