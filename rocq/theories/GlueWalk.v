(** GlueWalk.v – planarity of gluings, and following a path step by step. *)
From Verif Require Import Base GlueTheory.
From Coq Require Import Relations Permutation.

Section Planar.
Context {X : Type} (eqd : forall x y : X, {x = y} + {x <> y}) (pos : X -> nat).
Definition nocross (D : X -> Prop) (f : X -> X) : Prop :=
  forall x y, D x -> D y -> pos x < pos y < pos (f x) -> pos x < pos (f y) < pos (f x).
Definition pos_inj (D : X -> Prop) : Prop := forall x y, D x -> D y -> pos x = pos y -> x = y.
Lemma nocross_glue1 D f a b : matching D f -> pos_inj D -> nocross D f -> D a -> D b -> pos a < pos b ->
  (forall z, D z -> ~ (pos a < pos z < pos b)) -> nocross (bd D [(a, b)]) (glue1 eqd f a b).
Proof.
  intros M PI NC Da Db Lab Adj x y Hx Hy. rewrite bd_one in Hx, Hy. destruct Hx as [Dx [Xa Xb]], Hy as [Dy [Ya Yb]].
  destruct (M a Da) as [A1 [A2 A3]], (M b Db) as [B1 [B2 B3]], (M x Dx) as [X1 [X2 X3]], (M y Dy) as [Y1 [Y2 Y3]].
  unfold glue1. destruct (eqd (f a) b) as [E|E]; [now apply NC|].
  assert (PN : forall u v, D u -> D v -> u <> v -> pos u <> pos v) by (intros u v Du Dv N H; apply N; now apply PI).
  (* the arc of u separates neither or both of a, b and of v, f v *)
  assert (S1 : forall u v, D u -> D v -> pos u < pos v < pos (f u) -> pos u < pos (f v) < pos (f u)) by exact NC.
  assert (S2 : forall u, D u -> u <> a -> u <> b -> f u <> a -> f u <> b -> (pos u < pos a < pos (f u) <-> pos u < pos b < pos (f u))).
  { intros u Du N1 N2 N3 N4. destruct (M u Du) as [U1 _]. pose proof (PN u a Du Da N1). pose proof (PN u b Du Db N2).
    pose proof (PN (f u) a U1 Da N3). pose proof (PN (f u) b U1 Db N4). pose proof (Adj u Du). pose proof (Adj (f u) U1). lia. }
  assert (S3 : forall u, D u -> u <> a -> u <> b -> f u <> a -> f u <> b -> (pos u < pos (f a) < pos (f u) <-> pos u < pos (f b) < pos (f u))).
  { intros u Du N1 N2 N3 N4. pose proof (S2 u Du N1 N2 N3 N4) as S. split; intros H.
    - apply S1; auto. apply S. rewrite <- A3. now apply S1.
    - apply S1; auto. apply S. rewrite <- B3. now apply S1. }
  destruct (eqd x (f a)) as [->|K1].
  - intros H. assert (N1 : y <> f a) by (intros ->; lia). assert (N2 : y <> f b) by (intros ->; lia).
    destruct (eqd y (f a)); [contradiction|]. destruct (eqd y (f b)); [contradiction|].
    assert (F1 : f y <> a) by congruence. assert (F2 : f y <> b) by congruence.
    assert (F3 : f y <> f a) by congruence. assert (F4 : f y <> f b) by congruence.
    pose proof (S3 y Dy Ya Yb F1 F2) as T1. pose proof (S3 (f y) Y1 F1 F2 ltac:(congruence) ltac:(congruence)) as T2. rewrite Y3 in T2.
    pose proof (PN (f y) (f a) Y1 A1 F3). pose proof (PN (f y) (f b) Y1 B1 F4). lia.
  - destruct (eqd x (f b)) as [->|K2].
    + intros H. assert (N1 : y <> f a) by (intros ->; lia). assert (N2 : y <> f b) by (intros ->; lia).
      destruct (eqd y (f a)); [contradiction|]. destruct (eqd y (f b)); [contradiction|].
      assert (F1 : f y <> a) by congruence. assert (F2 : f y <> b) by congruence.
      assert (F3 : f y <> f a) by congruence. assert (F4 : f y <> f b) by congruence.
      pose proof (S3 y Dy Ya Yb F1 F2) as T1. pose proof (S3 (f y) Y1 F1 F2 ltac:(congruence) ltac:(congruence)) as T2. rewrite Y3 in T2.
      pose proof (PN (f y) (f a) Y1 A1 F3). pose proof (PN (f y) (f b) Y1 B1 F4). lia.
    + intros H. assert (F1 : f x <> a) by congruence. assert (F2 : f x <> b) by congruence.
      pose proof (S3 x Dx Xa Xb F1 F2) as T1.
      destruct (eqd y (f a)) as [->|]; [now apply T1|]. destruct (eqd y (f b)) as [->|]; [now apply T1|]. now apply S1.
Qed.

(** pairs that are neighbours once the earlier pairs are removed *)
Inductive capping : (X -> Prop) -> list (X * X) -> Prop :=
| cap_nil (D : X -> Prop) : capping D []
| cap_cons (D : X -> Prop) a b gs : D a -> D b -> pos a < pos b -> (forall z, D z -> ~ (pos a < pos z < pos b)) ->
    capping (bd D [(a, b)]) gs -> capping D ((a, b) :: gs).
Theorem glued_planar D f gs r n : matching D f -> good D gs -> pos_inj D -> nocross D f -> capping D gs ->
  glued D f gs r n -> nocross (bd D gs) r.
Proof.
  intros M G PI NC C. revert f r n M G PI NC. induction C as [D|D a b gs Da Db Lab Adj C IH]; intros f r n M G PI NC H.
  - destruct (glued_unique _ _ _ _ _ _ _ H (glued_nil D f M)) as [_ E]. intros x y Hx Hy K. rewrite !E in * by assumption.
    apply NC; [apply Hx|apply Hy|exact K].
  - destruct (good_cons _ _ _ _ G) as [_ [_ [N [G1 G2]]]].
    pose proof (glued_one eqd D f a b M Da Db N) as H1.
    destruct (glued_app_inv eqd D f [(a, b)] gs _ _ _ _ M G1 G2 H1 H) as [n2 [_ H2]].
    assert (NC2 : nocross (bd (bd D [(a, b)]) gs) r).
    { apply (IH (glue1 eqd f a b) r n2); auto; [apply (gl_match _ _ _ _ _ H1)| |now apply nocross_glue1].
      intros x y Hx Hy. apply PI; [apply Hx|apply Hy]. }
    intros x y Hx Hy. apply (bd_app D [(a, b)] gs) in Hx, Hy. now apply NC2.
Qed.
End Planar.

Section Walk.
Context {X : Type} (eqd : forall x y : X, {x = y} + {x <> y}).
Context (D : X -> Prop) (f g : X -> X) (gs : list (X * X)).
Context (M : matching D f) (G : good D gs).
Context (Hg : forall x, In x (ends gs) -> (In (x, g x) gs \/ In (g x, x) gs) /\ g (g x) = x /\ g x <> x).
Lemma g_ends x : In x (ends gs) -> In (g x) (ends gs).
Proof. intros H. destruct (Hg x H) as [[K|K] _]; apply in_ends; eauto. Qed.
Definition it (x : X) (k : nat) : X := Nat.iter k (fun z => g (f z)) x.
Definition valid (x : X) (k : nat) : Prop := forall j, j < k -> In (f (it x j)) (ends gs).
Lemma it_ends x k : valid x k -> 0 < k -> In (it x k) (ends gs).
Proof. intros V H. destruct k as [|k]; [lia|]. cbn. apply g_ends, V. lia. Qed.
Lemma it_D x k : D x -> valid x k -> D (it x k).
Proof. intros Dx V. destruct k; [exact Dx|]. apply G, it_ends; [exact V|lia]. Qed.
Lemma it_conn x k : D x -> valid x k -> conn D f gs x (it x k) /\ conn D f gs x (f (it x k)).
Proof.
  intros Dx. induction k as [|k IH]; intros V.
  - split; [apply conn_refl|now apply conn_f].
  - destruct (IH ltac:(intros j Hj; apply V; lia)) as [_ C].
    assert (C' : conn D f gs x (it x (S k))).
    { eapply conn_trans; [exact C|]. assert (K : In (f (it x k)) (ends gs)) by (apply V; lia). destruct (Hg _ K) as [[L|L] _]; [now apply conn_g|now apply conn_sym, conn_g]. }
    split; [exact C'|]. eapply conn_trans; [exact C'|]. apply conn_f. now apply it_D.
Qed.
Lemma it_inj x k : bd D gs x -> valid x k -> forall i j, i < j -> j <= k -> it x i <> it x j.
Proof.
  intros B V i. induction i as [|i IH]; intros j Hij Hj E.
  - apply B. cbn in E. rewrite E. apply it_ends; [intros l Hl; apply V; lia|lia].
  - destruct j as [|j]; [lia|]. apply (IH j); [lia|lia|]. change (g (f (it x i)) = g (f (it x j))) in E.
    assert (Ki : In (f (it x i)) (ends gs)) by (apply V; lia). assert (Kj : In (f (it x j)) (ends gs)) by (apply V; lia).
    assert (E2 : f (it x i) = f (it x j)) by (destruct (Hg _ Ki) as [_ [A _]], (Hg _ Kj) as [_ [C _]]; congruence).
    assert (D1 : D (it x i)) by (apply it_D; [apply B|intros l Hl; apply V; lia]).
    assert (D2 : D (it x j)) by (apply it_D; [apply B|intros l Hl; apply V; lia]).
    destruct (M _ D1) as [_ [_ F1]], (M _ D2) as [_ [_ F2]]. congruence.
Qed.
Lemma it_bound x k : bd D gs x -> valid x k -> k <= length (ends gs).
Proof.
  intros B V. assert (N : NoDup (map (it x) (seq 1 k))).
  { assert (K : forall n s, s + n <= S k -> NoDup (map (it x) (seq s n))).
    { induction n as [|n IH]; intros s H; cbn [seq map]; [constructor|]. constructor; [|apply IH; lia].
      intros I. apply in_map_iff in I. destruct I as [j [E I]]. apply in_seq in I. apply (it_inj x k B V s j); [lia|lia|congruence]. }
    apply K. lia. }
  assert (I : incl (map (it x) (seq 1 k)) (ends gs)).
  { intros y Hy. apply in_map_iff in Hy. destruct Hy as [j [<- Hj]]. apply in_seq in Hj. apply it_ends; [intros l Hl; apply V; lia|lia]. }
  pose proof (NoDup_incl_length N I) as L. now rewrite map_length, seq_length in L.
Qed.
(** a path never runs back over itself *)
Lemma it_no_return x k : D x -> valid x k -> forall d i, i + d <= k -> f (it x i) <> it x (i + d).
Proof.
  intros Dx V. assert (Dj : forall j, j <= k -> D (it x j)) by (intros j Hj; apply it_D; [exact Dx|intros l Hl; apply V; lia]).
  enough (forall m d i, d <= m -> i + d <= k -> f (it x i) <> it x (i + d)) as H by (intros d i; now apply (H d d i)).
  induction m as [|m IH]; intros d i Hd Hk E.
  - replace d with 0 in E by lia. rewrite Nat.add_0_r in E. now apply (M _ (Dj i ltac:(lia))).
  - destruct d as [|d]; [rewrite Nat.add_0_r in E; now apply (M _ (Dj i ltac:(lia)))|].
    assert (Ki : In (f (it x i)) (ends gs)) by (apply V; lia). destruct (Hg _ Ki) as [_ [A1 A2]].
    destruct d as [|d].
    + rewrite Nat.add_1_r in E. cbn in E. apply A2. now symmetry.
    + assert (Kj : In (f (it x (i + S d))) (ends gs)) by (apply V; lia). destruct (Hg _ Kj) as [_ [B1 B2]].
      replace (i + S (S d)) with (S (i + S d)) in E by lia. cbn [it Nat.iter nat_rect] in E. change (f (it x i) = g (f (it x (i + S d)))) in E.
      apply (IH d (S i)); [lia|lia|]. change (it x (S i)) with (g (f (it x i))). rewrite E, B1.
      replace (S i + d) with (i + S d) by lia. now apply M, Dj; lia.
Qed.
End Walk.
