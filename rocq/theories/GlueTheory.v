(** GlueTheory.v – joining the ends of a perfect matching.

    [f] is a perfect matching of the points satisfying [D]; gluing joins the two
    points of each pair of the list [gs].  [glued D f gs f' n] says that [f'] is
    the matching of the remaining points induced by the resulting paths and that
    [n] is the number of closed loops. *)
From Verif Require Import Base.
From Coq Require Import Relations Permutation.

Section Glue.
Context {X : Type} (eqd : forall x y : X, {x = y} + {x <> y}).
Implicit Types (D : X -> Prop) (f : X -> X) (gs : list (X * X)) (x y : X).

Definition matching D f : Prop := forall x, D x -> D (f x) /\ f x <> x /\ f (f x) = x.
Definition ends gs : list X := map fst gs ++ map snd gs.
Definition edge D f gs x y : Prop := (D x /\ y = f x) \/ In (x, y) gs.
Definition conn D f gs : X -> X -> Prop := clos_refl_sym_trans X (edge D f gs).
Definition bd D gs x : Prop := D x /\ ~ In x (ends gs).
Definition good D gs : Prop := NoDup (ends gs) /\ forall x, In x (ends gs) -> D x.
Definition closed D f gs x : Prop := D x /\ forall y, bd D gs y -> ~ conn D f gs x y.
(** one point of each closed component *)
Definition reps D f gs (l : list X) : Prop :=
  (forall x, In x l -> closed D f gs x) /\ ForallOrdPairs (fun x y => ~ conn D f gs x y) l /\
  (forall x, closed D f gs x -> exists y, In y l /\ conn D f gs x y).
Record glued D f gs f' (n : nat) : Prop := {
  gl_match : matching (bd D gs) f';
  gl_conn : forall x, bd D gs x -> conn D f gs x (f' x);
  gl_uniq : forall x y, bd D gs x -> bd D gs y -> conn D f gs x y -> y = x \/ y = f' x;
  gl_dec : forall x, D x -> closed D f gs x \/ exists y, bd D gs y /\ conn D f gs x y;
  gl_reps : exists l, length l = n /\ reps D f gs l }.

Lemma conn_refl D f gs x : conn D f gs x x. Proof. apply rst_refl. Qed.
Lemma conn_sym D f gs x y : conn D f gs x y -> conn D f gs y x. Proof. apply rst_sym. Qed.
Lemma conn_trans D f gs x y z : conn D f gs x y -> conn D f gs y z -> conn D f gs x z. Proof. apply rst_trans. Qed.
Lemma conn_f D f gs x : D x -> conn D f gs x (f x).
Proof. intros H. apply rst_step. left. auto. Qed.
Lemma conn_g D f gs x y : In (x, y) gs -> conn D f gs x y.
Proof. intros H. apply rst_step. now right. Qed.
Hint Resolve conn_refl conn_sym conn_f conn_g : core.

Lemma conn_mono D f gs D' f' gs' : (forall x y, edge D f gs x y -> conn D' f' gs' x y) ->
  forall x y, conn D f gs x y -> conn D' f' gs' x y.
Proof. intros H x y C. induction C; eauto using conn_trans. Qed.

Lemma in_ends gs x : In x (ends gs) <-> exists y, In (x, y) gs \/ In (y, x) gs.
Proof.
  unfold ends. rewrite in_app_iff, !in_map_iff. split.
  - intros [[[a b] [<- H]]|[[a b] [<- H]]]; eauto.
  - intros [y [H|H]]; [left; now exists (x, y)|right; now exists (y, x)].
Qed.
Lemma ends_app gs gs' x : In x (ends (gs ++ gs')) <-> In x (ends gs) \/ In x (ends gs').
Proof. rewrite !in_ends. split; [intros [y H]; rewrite !in_app_iff in H; destruct H as [[H|H]|[H|H]]; eauto|intros [[y [H|H]]|[y [H|H]]]; exists y; rewrite !in_app_iff; auto]. Qed.
Lemma conn_D D f gs : matching D f -> good D gs -> forall x y, conn D f gs x y -> (D x <-> D y).
Proof.
  intros M [_ G] x y C. induction C as [x y [[H ->]|H]| | |]; try tauto.
  - split; intros; [apply M|]; assumption.
  - split; intros _; apply G, in_ends; eauto.
Qed.

(** *** Counting representatives *)
Lemma reps_le {R : X -> X -> Prop} (Rs : forall x y, R x y -> R y x) (Rt : forall x y z, R x y -> R y z -> R x z) l1 :
  forall l2, ForallOrdPairs (fun x y => ~ R x y) l1 -> (forall x, In x l1 -> exists y, In y l2 /\ R x y) -> length l1 <= length l2.
Proof.
  induction l1 as [|x l1 IH]; intros l2 P H; cbn [length]; [lia|].
  inversion P as [|? ? P1 P2]; subst. destruct (H x (or_introl eq_refl)) as [y [Hy Rxy]].
  apply in_split in Hy. destruct Hy as [s1 [s2 ->]].
  assert (length l1 <= length (s1 ++ s2)) as K; [|rewrite app_length in *; cbn [length]; lia].
  apply IH; [exact P2|]. intros z Hz. destruct (H z (or_intror Hz)) as [w [Hw Rzw]]. exists w. split; [|exact Rzw].
  apply in_app_iff in Hw. apply in_app_iff. destruct Hw as [Hw|[<-|Hw]]; auto.
  exfalso. rewrite Forall_forall in P1. apply (P1 z Hz). eauto.
Qed.
Lemma reps_length D f gs l1 l2 : reps D f gs l1 -> reps D f gs l2 -> length l1 = length l2.
Proof.
  intros [A1 [B1 C1]] [A2 [B2 C2]].
  apply Nat.le_antisymm; (eapply (reps_le (R := conn D f gs)); [eauto|apply conn_trans|assumption|]); eauto.
Qed.
Lemma glued_unique D f gs f1 n1 f2 n2 : glued D f gs f1 n1 -> glued D f gs f2 n2 ->
  n1 = n2 /\ forall x, bd D gs x -> f1 x = f2 x.
Proof.
  intros G1 G2. split.
  - destruct (gl_reps _ _ _ _ _ G1) as [l1 [<- R1]], (gl_reps _ _ _ _ _ G2) as [l2 [<- R2]]. eapply reps_length; eassumption.
  - intros x Hx. destruct (gl_match _ _ _ _ _ G1 x Hx) as [B1 [N1 _]].
    destruct (gl_uniq _ _ _ _ _ G2 x (f1 x) Hx B1 (gl_conn _ _ _ _ _ G1 x Hx)) as [E|E]; congruence.
Qed.
Lemma closed_conn D f gs x y : matching D f -> good D gs -> conn D f gs x y -> closed D f gs x -> closed D f gs y.
Proof.
  intros M G C [Dx H]. split; [now apply (conn_D D f gs M G x y C)|]. intros z Bz Cz. apply (H z Bz). eapply conn_trans; eassumption.
Qed.

(** *** No pair, one pair *)
Lemma conn_nil D f x y : matching D f -> conn D f [] x y -> y = x \/ (D x /\ y = f x).
Proof.
  intros M C. induction C as [x y [[H ->]|[]]| |x y _ IH|x y z _ IH1 _ IH2]; auto.
  - destruct IH as [->|[H ->]]; auto. right. destruct (M x H) as [A [B E]]. rewrite E. auto.
  - destruct IH1 as [->|[H ->]], IH2 as [->|[K ->]]; auto. left. now apply M.
Qed.
Lemma bd_nil D x : bd D [] x <-> D x.
Proof. unfold bd. cbn. tauto. Qed.
Lemma glued_nil D f : matching D f -> glued D f [] f 0.
Proof.
  intros M. split.
  - intros x Hx. rewrite bd_nil in Hx. rewrite bd_nil. exact (M x Hx).
  - intros x Hx. apply conn_f. apply Hx.
  - intros x y Hx _ C. apply conn_nil in C; [tauto|exact M].
  - intros x H. right. exists x. rewrite bd_nil. auto.
  - exists []. split; [reflexivity|]. split; [intros ? []|]. split; [constructor|]. intros x [H C]. exfalso. apply (C x); [now apply bd_nil|auto].
Qed.

Definition glue1 f a b x := if eqd (f a) b then f x else if eqd x (f a) then f b else if eqd x (f b) then f a else f x.
Definition loop1 f a b : nat := if eqd (f a) b then 1 else 0.
Definition in4 f a b x : Prop := x = a \/ x = b \/ x = f a \/ x = f b.
Lemma conn_one D f a b x y : matching D f -> D a -> D b -> conn D f [(a, b)] x y -> y = x \/ (D x /\ y = f x) \/ (in4 f a b x /\ in4 f a b y).
Proof.
  intros M Da Db C. destruct (M a Da) as [A1 [A2 A3]], (M b Db) as [B1 [B2 B3]].
  assert (S4 : forall z, in4 f a b z -> in4 f a b (f z)) by (unfold in4; intros z [->|[->|[->| ->]]]; rewrite ?A3, ?B3; auto).
  induction C as [x y [[H ->]|[ [= <- <-] |[]]]| |x y _ IH|x y z _ IH1 _ IH2]; auto.
  - right. right. unfold in4. auto.
  - destruct IH as [->|[[H ->]|H]]; auto.
    + right. left. destruct (M x H) as [? [? E]]. rewrite E. auto.
    + tauto.
  - destruct IH1 as [->|[[H ->]|[H1 H2]]]; [exact IH2| |].
    + destruct IH2 as [->|[[K ->]|[K1 K2]]]; auto.
      * left. now apply M.
      * right. right. split; [|exact K2]. destruct (M x H) as [? [? E]]. rewrite <- E. now apply S4.
    + destruct IH2 as [->|[[K ->]|[K1 K2]]]; auto.
Qed.
Lemma bd_one D a b x : bd D [(a, b)] x <-> D x /\ x <> a /\ x <> b.
Proof using Type. clear eqd. unfold bd. cbn. firstorder congruence. Qed.
Lemma glued_one D f a b : matching D f -> D a -> D b -> a <> b -> glued D f [(a, b)] (glue1 f a b) (loop1 f a b).
Proof.
  intros M Da Db N. destruct (M a Da) as [A1 [A2 A3]], (M b Db) as [B1 [B2 B3]].
  assert (Cab : conn D f [(a, b)] a b) by (apply conn_g; now left).
  assert (Cfa : conn D f [(a, b)] a (f a)) by auto. assert (Cfb : conn D f [(a, b)] b (f b)) by auto.
  unfold glue1, loop1. destruct (eqd (f a) b) as [E|E].
  - assert (fb : f b = a) by congruence. split.
    + intros x Hx. rewrite bd_one in Hx. destruct Hx as [Hx [Na Nb]]. destruct (M x Hx) as [P [Q R]]. rewrite bd_one.
      repeat split; auto; congruence.
    + intros x Hx. apply conn_f, Hx.
    + intros x y Hx Hy C. rewrite bd_one in Hx, Hy. apply conn_one in C; auto. destruct C as [C|[C|[C _]]]; try tauto.
      exfalso. unfold in4 in C. rewrite fb, E in C. intuition congruence.
    + intros x Hx. destruct (eqd x a) as [->|Na]; [|destruct (eqd x b) as [->|Nb]].
      1,2: left; split; [assumption|]; intros y Hy C; rewrite bd_one in Hy; apply conn_one in C; auto; unfold in4 in C; rewrite fb, E in C; intuition congruence.
      right. exists x. rewrite bd_one. auto.
    + exists [a]. split; [reflexivity|]. split; [|split].
      * intros x [<-|[]]. split; [assumption|]. intros y Hy C; rewrite bd_one in Hy; apply conn_one in C; auto; unfold in4 in C; rewrite fb, E in C; intuition congruence.
      * repeat constructor.
      * intros x [Hx C]. exists a. split; [now left|]. destruct (eqd x a) as [->|Na]; [auto|]. destruct (eqd x b) as [->|Nb]; [auto|].
        exfalso. apply (C x); [now apply bd_one|auto].
  - assert (E' : f b <> a) by congruence. assert (E2 : f a <> f b) by congruence.
    split.
    + intros x Hx. rewrite bd_one in Hx. destruct Hx as [Hx [Na Nb]]. destruct (M x Hx) as [P [Q R]]. rewrite bd_one.
      destruct (eqd x (f a)) as [->|K1].
      * destruct (eqd (f b) (f a)); [congruence|]. destruct (eqd (f b) (f b)); [|congruence]. repeat split; auto; congruence.
      * destruct (eqd x (f b)) as [->|K2].
        -- destruct (eqd (f a) (f a)); [|congruence]. repeat split; auto; congruence.
        -- destruct (eqd (f x) (f a)); [congruence|]. destruct (eqd (f x) (f b)); [congruence|]. repeat split; auto; congruence.
    + intros x Hx. rewrite bd_one in Hx. destruct (eqd x (f a)) as [->|K1]; [|destruct (eqd x (f b)) as [->|K2]].
      * eapply conn_trans; [apply conn_sym, Cfa|]. eapply conn_trans; [apply Cab|]. apply Cfb.
      * eapply conn_trans; [apply conn_sym, Cfb|]. eapply conn_trans; [apply conn_sym, Cab|]. apply Cfa.
      * apply conn_f, Hx.
    + intros x y Hx Hy C. rewrite bd_one in Hx, Hy. apply conn_one in C; auto. destruct C as [C|[[C ->]|[C1 C2]]]; auto.
      * right. destruct (M x C) as [P [Q R]]. destruct Hy as [_ [Hy1 Hy2]]. destruct (eqd x (f a)); [congruence|]. destruct (eqd x (f b)); [congruence|]. reflexivity.
      * destruct (eqd x (f a)) as [->|K1]; [|destruct (eqd x (f b)) as [->|K2]]; unfold in4 in *; intuition congruence.
    + intros x Hx. right. destruct (eqd x a) as [->|Na]; [exists (f a); rewrite bd_one; auto|]. destruct (eqd x b) as [->|Nb]; [exists (f b); rewrite bd_one; auto|].
      exists x. rewrite bd_one. auto.
    + exists []. split; [reflexivity|]. split; [intros ? []|]. split; [constructor|]. intros x [Hx C]. exfalso.
      destruct (eqd x a) as [->|Na]; [apply (C (f a)); [apply bd_one|]; auto|]. destruct (eqd x b) as [->|Nb]; [apply (C (f b)); [apply bd_one|]; auto|].
      apply (C x); [apply bd_one|]; auto.
Qed.

(** *** Gluing in two stages *)
Section Stages.
Context D f gs1 f1 n1 gs2 (M : matching D f) (G1 : good D gs1) (H1 : glued D f gs1 f1 n1) (G2 : good (bd D gs1) gs2).
Let M1 : matching (bd D gs1) f1 := gl_match _ _ _ _ _ H1.
Lemma good_app : good D (gs1 ++ gs2).
Proof.
  destruct G1 as [N1 I1], G2 as [N2 I2]. split.
  - apply (Permutation_NoDup (l := ends gs1 ++ ends gs2)).
    + unfold ends. rewrite !map_app, <- !app_assoc. apply Permutation_app_head. rewrite !app_assoc. apply Permutation_app_tail. apply Permutation_app_comm.
    + apply NoDup_app_intro; auto. intros x Hx Hy. now apply (I2 x Hy).
  - intros x Hx. apply ends_app in Hx. destruct Hx as [Hx|Hx]; [auto|]. now apply I2.
Qed.
Lemma bd_app x : bd (bd D gs1) gs2 x <-> bd D (gs1 ++ gs2) x.
Proof. unfold bd. rewrite ends_app. tauto. Qed.
Local Notation c1 := (conn D f gs1).
Local Notation c2 := (conn (bd D gs1) f1 gs2).
Local Notation c12 := (conn D f (gs1 ++ gs2)).
Lemma c1_c12 x y : c1 x y -> c12 x y.
Proof. apply conn_mono. intros a b [[H ->]|H]; [auto|]. apply conn_g, in_app_iff. auto. Qed.
Lemma c2_c12 x y : c2 x y -> c12 x y.
Proof.
  apply conn_mono. intros a b [[H ->]|H]; [apply c1_c12, (gl_conn _ _ _ _ _ H1 a H)|]. apply conn_g, in_app_iff. auto.
Qed.
Lemma c1_c2 x y : bd D gs1 x -> bd D gs1 y -> c1 x y -> c2 x y.
Proof. intros Hx Hy C. destruct (gl_uniq _ _ _ _ _ H1 x y Hx Hy C) as [->| ->]; auto. Qed.
Lemma c12_split x y : c12 x y -> c1 x y \/ exists a b, bd D gs1 a /\ bd D gs1 b /\ c1 x a /\ c2 a b /\ c1 b y.
Proof.
  intros C. induction C as [x y [[H ->]|H]| |x y _ IH|x y z _ IH1 _ IH2].
  - left. auto.
  - apply in_app_iff in H. destruct H as [H|H]; [left; auto|]. right. exists x, y.
    assert (bd D gs1 x /\ bd D gs1 y) as [Bx By] by (split; apply (proj2 G2), in_ends; eauto). repeat split; auto; try apply Bx; try apply By.
  - left. auto.
  - destruct IH as [H|[a [b [A [B [C1 [C2 C3]]]]]]]; [left; auto|]. right. exists b, a. auto 10.
  - destruct IH1 as [K1|[a [b [A [B [C1 [C2 C3]]]]]]].
    + destruct IH2 as [K2|[a [b [A [B [C1 [C2 C3]]]]]]]; [left; eapply conn_trans; eauto|].
      right. exists a, b. repeat split; auto; try apply A; try apply B. eapply conn_trans; eauto.
    + destruct IH2 as [K2|[a' [b' [A' [B' [C1' [C2' C3']]]]]]].
      * right. exists a, b. repeat split; auto; try apply A; try apply B. eapply conn_trans; eauto.
      * right. exists a, b'. repeat split; auto; try apply A; try apply B'. eapply conn_trans; [exact C2|].
        eapply conn_trans; [apply c1_c2; [exact B|exact A'|]|exact C2']. eapply conn_trans; eauto.
Qed.
Lemma c12_c2 x y : bd D gs1 x -> bd D gs1 y -> c12 x y -> c2 x y.
Proof.
  intros Hx Hy C. destruct (c12_split x y C) as [K|[a [b [A [B [C1 [C2 C3]]]]]]]; [now apply c1_c2|].
  eapply conn_trans; [apply c1_c2; [exact Hx|exact A|exact C1]|]. eapply conn_trans; [exact C2|]. now apply c1_c2.
Qed.
Lemma closed1_c12 x y : closed D f gs1 x -> c12 x y -> c1 x y.
Proof.
  intros [Dx K] C. destruct (c12_split x y C) as [H|[a [b [A [B [C1 _]]]]]]; [exact H|]. exfalso. now apply (K a).
Qed.
Theorem glued_app f2 n2 : glued (bd D gs1) f1 gs2 f2 n2 -> glued D f (gs1 ++ gs2) f2 (n1 + n2).
Proof.
  intros H2.
  assert (closed_1 : forall x, closed D f gs1 x -> closed D f (gs1 ++ gs2) x).
  { intros x K. split; [apply K|]. intros y By C. apply (proj2 K y); [apply bd_app in By; apply By|]. now apply closed1_c12. }
  assert (closed_2 : forall x, closed (bd D gs1) f1 gs2 x -> closed D f (gs1 ++ gs2) x).
  { intros x [Bx K]. split; [apply Bx|]. intros y By C. apply bd_app in By. apply (K y By). apply c12_c2; auto. apply By. }
  split.
  - intros x Hx. apply bd_app in Hx. destruct (gl_match _ _ _ _ _ H2 x Hx) as [A B]. split; [now apply bd_app|exact B].
  - intros x Hx. apply bd_app in Hx. apply c2_c12, (gl_conn _ _ _ _ _ H2 x Hx).
  - intros x y Hx Hy C. apply bd_app in Hx, Hy. apply (gl_uniq _ _ _ _ _ H2); auto. apply c12_c2; auto; [apply Hx|apply Hy].
  - intros x Dx. destruct (gl_dec _ _ _ _ _ H1 x Dx) as [K|[y [By C]]]; [left; auto|].
    destruct (gl_dec _ _ _ _ _ H2 y By) as [K|[z [Bz C']]].
    + left. apply (closed_conn _ _ _ y); auto; [apply good_app|]. apply conn_sym, c1_c12, C.
    + right. exists z. split; [now apply bd_app|]. eapply conn_trans; [apply c1_c12, C|apply c2_c12, C'].
  - destruct (gl_reps _ _ _ _ _ H1) as [l1 [L1 [A1 [B1 C1]]]], (gl_reps _ _ _ _ _ H2) as [l2 [L2 [A2 [B2 C2]]]].
    exists (l1 ++ l2). split; [rewrite app_length; congruence|]. split; [|split].
    + intros x Hx. apply in_app_iff in Hx. destruct Hx; auto.
    + assert (A1' : Forall (closed D f gs1) l1) by now apply Forall_forall.
      assert (A2' : Forall (closed (bd D gs1) f1 gs2) l2) by now apply Forall_forall.
      clear - B1 B2 A1' A2' G2 H1. induction B1 as [|x l1 F B1 IH]; cbn [app].
      * induction B2 as [|x l2 F B2 IH]; constructor.
        -- inversion A2'; subst. apply Forall_forall. intros y Hy C. rewrite Forall_forall in F. apply (F y Hy). rewrite Forall_forall in H3.
           apply c12_c2; auto; [apply H2|apply H3, Hy].
        -- apply IH. now inversion A2'.
      * inversion A1' as [|? ? K A1'']; subst. constructor; [|now apply IH]. apply Forall_app. split.
        -- apply Forall_forall. intros y Hy C. rewrite Forall_forall in F. apply (F y Hy). now apply closed1_c12.
        -- apply Forall_forall. intros y Hy C. apply (proj2 K y); [rewrite Forall_forall in A2'; apply A2', Hy|]. now apply closed1_c12.
    + intros x K. destruct (gl_dec _ _ _ _ _ H1 x (proj1 K)) as [K1|[b [Bb C]]].
      * destruct (C1 x K1) as [y [Hy Cy]]. exists y. split; [apply in_app_iff; auto|now apply c1_c12].
      * destruct (gl_dec _ _ _ _ _ H2 b Bb) as [K2|[z [Bz C']]].
        -- destruct (C2 b K2) as [y [Hy Cy]]. exists y. split; [apply in_app_iff; auto|]. eapply conn_trans; [apply c1_c12, C|apply c2_c12, Cy].
        -- exfalso. apply (proj2 K z); [now apply bd_app|]. eapply conn_trans; [apply c1_c12, C|apply c2_c12, C'].
Qed.
End Stages.

Lemma good_cons D a b gs : good D ((a, b) :: gs) -> D a /\ D b /\ a <> b /\ good D [(a, b)] /\ good (bd D [(a, b)]) gs.
Proof using Type.
  clear eqd.
  intros [N I]. assert (P : Permutation (ends ((a, b) :: gs)) (a :: b :: ends gs)).
  { unfold ends. cbn [map fst snd app]. constructor. symmetry. apply Permutation_middle. }
  pose proof (Permutation_NoDup P N) as N'. inversion N' as [|? ? Na N1]; subst. inversion N1 as [|? ? Nb N2]; subst.
  assert (I' : forall x, In x (a :: b :: ends gs) -> D x) by (intros x Hx; apply I, (Permutation_in x (Permutation_sym P)), Hx).
  assert (a <> b) as Nab by (intros ->; apply Na; now left).
  assert (Da : D a) by (apply I'; now left). assert (Db : D b) by (apply I'; right; now left).
  split; [exact Da|]. split; [exact Db|]. split; [exact Nab|]. split.
  - split; [cbn; repeat constructor; cbn; intuition congruence|]. cbn. intros x [<-|[<-|[]]]; auto.
  - split; [exact N2|]. intros x Hx. apply bd_one. split; [apply I'; right; now right|]. split; intros ->; [apply Na; now right|now apply Nb].
Qed.
Theorem glued_exists D f gs : matching D f -> good D gs -> exists f' n, glued D f gs f' n.
Proof.
  revert D f. induction gs as [|[a b] gs IH]; intros D f M G.
  - exists f, 0. now apply glued_nil.
  - destruct (good_cons _ _ _ _ G) as [Da [Db [N [G1 G2]]]].
    pose proof (glued_one D f a b M Da Db N) as H1.
    destruct (IH (bd D [(a, b)]) (glue1 f a b) (gl_match _ _ _ _ _ H1) G2) as [f2 [n2 H2]].
    exists f2, (loop1 f a b + n2). now apply (glued_app D f [(a, b)] _ _ gs M G1 H1 G2).
Qed.
(** stages in the other direction: the whole gluing restricts *)
Theorem glued_app_inv D f gs1 gs2 f1 n1 f12 n12 : matching D f -> good D gs1 -> good (bd D gs1) gs2 -> glued D f gs1 f1 n1 ->
  glued D f (gs1 ++ gs2) f12 n12 -> exists n2, n12 = n1 + n2 /\ glued (bd D gs1) f1 gs2 f12 n2.
Proof.
  intros M G1 G2 H1 H12. destruct (glued_exists (bd D gs1) f1 gs2 (gl_match _ _ _ _ _ H1) G2) as [f2 [n2 H2]].
  pose proof (glued_app D f gs1 f1 n1 gs2 M G1 H1 G2 f2 n2 H2) as H. destruct (glued_unique _ _ _ _ _ _ _ H H12) as [E1 E2].
  exists n2. split; [congruence|]. split; try apply H2.
  - intros x Hx. assert (Bx : bd D (gs1 ++ gs2) x) by now apply (bd_app D gs1 gs2). destruct (gl_match _ _ _ _ _ H2 x Hx) as [A [B C]].
    rewrite <- (E2 x Bx). split; [exact A|]. split; [exact B|]. rewrite <- E2; [exact C|]. now apply (bd_app D gs1 gs2).
  - intros x Hx. rewrite <- E2 by now apply (bd_app D gs1 gs2). now apply H2.
  - intros x y Hx Hy C. rewrite <- E2 by now apply (bd_app D gs1 gs2). now apply (gl_uniq _ _ _ _ _ H2).
Qed.

(** *** Changing the presentation *)
Lemma conn_ext D f gs D' f' gs' : (forall x, D x <-> D' x) -> (forall x, D x -> f x = f' x) ->
  (forall x y, In (x, y) gs -> In (x, y) gs' \/ In (y, x) gs') -> forall x y, conn D f gs x y -> conn D' f' gs' x y.
Proof.
  intros ED Ef Eg. apply conn_mono. intros x y [[H ->]|H].
  - rewrite Ef by exact H. apply conn_f. now apply ED.
  - destruct (Eg x y H); auto.
Qed.
Lemma glued_ext D f gs D' f' gs' r r' n : (forall x, D x <-> D' x) -> (forall x, D x -> f x = f' x) ->
  (forall x y, In (x, y) gs -> In (x, y) gs' \/ In (y, x) gs') -> (forall x y, In (x, y) gs' -> In (x, y) gs \/ In (y, x) gs) ->
  (forall x, bd D gs x -> r x = r' x) ->
  glued D f gs r n -> glued D' f' gs' r' n.
Proof.
  intros ED Ef Eg Eg' Er H.
  assert (Ebd : forall x, bd D gs x <-> bd D' gs' x).
  { intros x. unfold bd. rewrite !in_ends. split; intros [A B]; (split; [now apply ED|]); intros [y K]; apply B; exists y.
    - destruct K as [K|K]; apply Eg' in K; tauto.
    - destruct K as [K|K]; apply Eg in K; tauto. }
  assert (Ec : forall x y, conn D f gs x y <-> conn D' f' gs' x y).
  { intros x y. split; apply conn_ext; auto. intros z; now rewrite ED. intros z Hz. symmetry. apply Ef. now apply ED. }
  assert (Ecl : forall x, closed D f gs x <-> closed D' f' gs' x).
  { intros x. unfold closed. split; intros [A B]; (split; [now apply ED|]); intros y By C; apply (B y); [now apply Ebd|now apply Ec|now apply Ebd|now apply Ec]. }
  destruct H as [P1 P2 P3 P4 P5]. split.
  - intros x Hx. apply Ebd in Hx. destruct (P1 x Hx) as [A [B C]]. rewrite <- Er by exact Hx. rewrite <- Ebd. rewrite <- Er by exact A. auto.
  - intros x Hx. apply Ebd in Hx. rewrite <- Er by exact Hx. apply Ec. auto.
  - intros x y Hx Hy C. apply Ebd in Hx, Hy. apply Ec in C. rewrite <- Er by exact Hx. auto.
  - intros x Hx. apply ED in Hx. destruct (P4 x Hx) as [K|[y [A B]]]; [left; now apply Ecl|right]. exists y. split; [now apply Ebd|now apply Ec].
  - destruct P5 as [l [L [A [B C]]]]. exists l. split; [exact L|]. split; [|split].
    + intros x Hx. apply Ecl. auto.
    + clear - B Ec. induction B as [|x l F B IH]; constructor; auto. rewrite Forall_forall in *. intros y Hy K. apply (F y Hy). now apply Ec.
    + intros x Hx. apply Ecl in Hx. destruct (C x Hx) as [y [Hy K]]. exists y. split; [exact Hy|now apply Ec].
Qed.

(** *** Disjoint unions *)
Section Union.
Context D1 D2 f gs1 gs2 r n1 n2 (dis : forall x, D1 x -> D2 x -> False) (M1 : matching D1 f) (M2 : matching D2 f)
  (G1 : good D1 gs1) (G2 : good D2 gs2) (H1 : glued D1 f gs1 r n1) (H2 : glued D2 f gs2 r n2).
Let D x := D1 x \/ D2 x.
Lemma conn_union x y : conn D f (gs1 ++ gs2) x y -> x = y \/ (D1 x /\ D1 y /\ conn D1 f gs1 x y) \/ (D2 x /\ D2 y /\ conn D2 f gs2 x y).
Proof.
  intros C. induction C as [x y [[[H|H] ->]|H]|x|x y C IH|x y z _ IH1 _ IH2].
  - right. left. split; [exact H|]. split; [now apply M1|auto].
  - right. right. split; [exact H|]. split; [now apply M2|auto].
  - apply in_app_iff in H. right. destruct H as [H|H]; [left|right]; (split; [|split; [|auto]]); (apply G1 || apply G2); apply in_ends; eauto.
  - auto.
  - destruct IH as [->|[[A [B K]]|[A [B K]]]]; auto 6.
  - destruct IH1 as [->|[[A [B K]]|[A [B K]]]]; [exact IH2| |].
    + destruct IH2 as [<-|[[A' [B' K']]|[A' [B' K']]]]; [auto 6| |exfalso; now apply (dis y)].
      right. left. split; [exact A|]. split; [exact B'|]. eapply conn_trans; eassumption.
    + destruct IH2 as [<-|[[A' [B' K']]|[A' [B' K']]]]; [auto 6|exfalso; now apply (dis y)|].
      right. right. split; [exact A|]. split; [exact B'|]. eapply conn_trans; eassumption.
Qed.
Lemma conn_union1 x y : conn D1 f gs1 x y -> conn D f (gs1 ++ gs2) x y.
Proof. apply conn_mono. intros a b [[H ->]|H]; [apply conn_f; now left|]. apply conn_g, in_app_iff. auto. Qed.
Lemma conn_union2 x y : conn D2 f gs2 x y -> conn D f (gs1 ++ gs2) x y.
Proof. apply conn_mono. intros a b [[H ->]|H]; [apply conn_f; now right|]. apply conn_g, in_app_iff. auto. Qed.
Lemma bd_union x : bd D (gs1 ++ gs2) x <-> bd D1 gs1 x \/ bd D2 gs2 x.
Proof.
  unfold bd. rewrite ends_app. split.
  - intros [[H|H] K]; [left|right]; (split; [exact H|tauto]).
  - intros [[H K]|[H K]]; (split; [unfold D; auto|]); intros [I|I]; auto; [apply (proj2 G2) in I|apply (proj2 G1) in I]; eauto.
Qed.
Lemma closed_union x : closed D f (gs1 ++ gs2) x <-> closed D1 f gs1 x \/ closed D2 f gs2 x.
Proof.
  split.
  - intros [[H|H] K]; [left|right]; (split; [exact H|]); intros y By C; apply (K y); try (apply bd_union; auto); auto using conn_union1, conn_union2.
  - intros [[H K]|[H K]]; (split; [unfold D; auto|]); intros y By C; apply conn_union in C; apply bd_union in By.
    + assert (D1 y /\ conn D1 f gs1 x y) as [Dy Cy].
      { destruct C as [<-|[[A [B C]]|[A [B C]]]]; [split; [exact H|apply conn_refl]|auto|exfalso; now apply (dis x)]. }
      destruct By as [By|By]; [now apply (K y By)|apply (dis y Dy), By].
    + assert (D2 y /\ conn D2 f gs2 x y) as [Dy Cy].
      { destruct C as [<-|[[A [B C]]|[A [B C]]]]; [split; [exact H|apply conn_refl]|exfalso; now apply (dis x)|auto]. }
      destruct By as [By|By]; [apply (dis y); [apply By|exact Dy]|now apply (K y By)].
Qed.
Theorem glued_union : glued D f (gs1 ++ gs2) r (n1 + n2).
Proof.
  split.
  - intros x Hx. rewrite bd_union. apply bd_union in Hx. destruct Hx as [Hx|Hx]; [pose proof (gl_match _ _ _ _ _ H1 x Hx)|pose proof (gl_match _ _ _ _ _ H2 x Hx)]; tauto.
  - intros x Hx. apply bd_union in Hx. destruct Hx as [Hx|Hx]; [apply conn_union1, (gl_conn _ _ _ _ _ H1 x Hx)|apply conn_union2, (gl_conn _ _ _ _ _ H2 x Hx)].
  - intros x y Hx Hy C. apply conn_union in C. apply bd_union in Hx, Hy. destruct C as [->|[[A [B C]]|[A [B C]]]]; auto.
    + destruct Hx as [Hx|Hx]; [|exfalso; eapply dis; [exact A|apply Hx]]. destruct Hy as [Hy|Hy]; [|exfalso; eapply dis; [exact B|apply Hy]].
      now apply (gl_uniq _ _ _ _ _ H1).
    + destruct Hx as [Hx|Hx]; [exfalso; eapply dis; [apply Hx|exact A]|]. destruct Hy as [Hy|Hy]; [exfalso; eapply dis; [apply Hy|exact B]|].
      now apply (gl_uniq _ _ _ _ _ H2).
  - intros x [H|H].
    + destruct (gl_dec _ _ _ _ _ H1 x H) as [K|[y [A B]]]; [left; apply closed_union; auto|right; exists y; split; [apply bd_union; auto|now apply conn_union1]].
    + destruct (gl_dec _ _ _ _ _ H2 x H) as [K|[y [A B]]]; [left; apply closed_union; auto|right; exists y; split; [apply bd_union; auto|now apply conn_union2]].
  - destruct (gl_reps _ _ _ _ _ H1) as [l1 [L1 [A1 [B1 C1]]]], (gl_reps _ _ _ _ _ H2) as [l2 [L2 [A2 [B2 C2]]]].
    exists (l1 ++ l2). split; [rewrite app_length; congruence|]. split; [|split].
    + intros x Hx. apply closed_union. apply in_app_iff in Hx. destruct Hx; auto.
    + assert (F1 : Forall D1 l1) by (apply Forall_forall; intros x Hx; apply A1, Hx).
      assert (F2 : Forall D2 l2) by (apply Forall_forall; intros x Hx; apply A2, Hx).
      assert (X1 : forall x y, D1 x -> D1 y -> conn D f (gs1 ++ gs2) x y -> conn D1 f gs1 x y).
      { intros x y Hx Hy C. apply conn_union in C. destruct C as [->|[[? [? C]]|[? [? C]]]]; auto. exfalso; eauto. }
      assert (X2 : forall x y, D2 x -> D2 y -> conn D f (gs1 ++ gs2) x y -> conn D2 f gs2 x y).
      { intros x y Hx Hy C. apply conn_union in C. destruct C as [->|[[? [? C]]|[? [? C]]]]; auto. exfalso; eauto. }
      assert (X3 : forall x y, D1 x -> D2 y -> ~ conn D f (gs1 ++ gs2) x y).
      { intros x y Hx Hy C. apply conn_union in C. destruct C as [->|[[? [? C]]|[? [? C]]]]; eauto. }
      clear A1 C1 A2 C2 L1 L2. induction B1 as [|x l1 F B1 IH]; cbn [app].
      * induction B2 as [|x l2 F B2 IH]; constructor; [|apply IH; now inversion F2].
        inversion F2; subst. rewrite Forall_forall in *. intros y Hy C. apply (F y Hy). auto.
      * inversion F1; subst. constructor; [|auto]. apply Forall_app. rewrite !Forall_forall in *. split.
        -- intros y Hy C. apply (F y Hy). auto.
        -- intros y Hy. auto.
    + intros x K. apply closed_union in K. destruct K as [K|K].
      * destruct (C1 x K) as [y [Hy C]]. exists y. split; [apply in_app_iff; auto|now apply conn_union1].
      * destruct (C2 x K) as [y [Hy C]]. exists y. split; [apply in_app_iff; auto|now apply conn_union2].
Qed.
End Union.
End Glue.

(** *** Relabelling along an injection *)
Section Relabel.
Context {X Y : Type} (phi : X -> Y) (D : X -> Prop) (f : X -> X) (gs : list (X * X)) (r : X -> X) (n : nat).
Context (D' : Y -> Prop) (f' : Y -> Y) (r' : Y -> Y).
Context (inj : forall x y, D x -> D y -> phi x = phi y -> x = y).
Context (HD : forall y, D' y <-> exists x, D x /\ y = phi x).
Context (Hf : forall x, D x -> f' (phi x) = phi (f x)).
Context (M : matching D f) (G : good D gs).
Let gs' := map (fun p => (phi (fst p), phi (snd p))) gs.
Lemma ends_relabel : ends gs' = map phi (ends gs).
Proof. unfold ends, gs'. now rewrite map_app, !map_map. Qed.
Lemma relabel_bd x : D x -> (bd D' gs' (phi x) <-> bd D gs x).
Proof.
  intros Dx. unfold bd. rewrite ends_relabel, HD, in_map_iff. split.
  - intros [_ K]. split; [exact Dx|]. intros I. apply K. eauto.
  - intros [_ K]. split; [eauto|]. intros [y [E I]]. apply K. apply inj in E; [now subst|now apply G|exact Dx].
Qed.
Lemma relabel_conn1 x y : conn D f gs x y -> conn D' f' gs' (phi x) (phi y).
Proof.
  intros C. induction C as [x y [[H ->]|H]| | |].
  - rewrite <- Hf by exact H. apply conn_f. apply HD. eauto.
  - apply conn_g. unfold gs'. apply in_map_iff. now exists (x, y).
  - apply conn_refl.
  - now apply conn_sym.
  - eapply conn_trans; eassumption.
Qed.
Lemma relabel_conn2 u v : conn D' f' gs' u v -> u = v \/ exists x y, D x /\ D y /\ u = phi x /\ v = phi y /\ conn D f gs x y.
Proof.
  intros C. induction C as [u v [[H ->]|H]| |u v _ IH|u v w _ IH1 _ IH2].
  - right. apply HD in H. destruct H as [x [Hx ->]]. exists x, (f x). rewrite Hf by exact Hx. repeat split; auto; [now apply M|now apply conn_f].
  - right. unfold gs' in H. apply in_map_iff in H. destruct H as [[x y] [ [= <- <-]  H]]. exists x, y.
    repeat split; auto; [apply G, in_ends; eauto|apply G, in_ends; eauto|now apply conn_g].
  - auto.
  - destruct IH as [->|[x [y [A [B [-> [-> C]]]]]]]; [auto|]. right. exists y, x. repeat split; auto. now apply conn_sym.
  - destruct IH1 as [->|[x [y [A [B [-> [E C]]]]]]]; [exact IH2|]. destruct IH2 as [<-|[y' [z [A' [B' [E' [-> C']]]]]]].
    + right. exists x, y. auto.
    + right. exists x, z. rewrite E in E'. apply inj in E'; auto. subst y'. repeat split; auto. eapply conn_trans; eassumption.
Qed.
Lemma relabel_conn x y : D x -> D y -> (conn D' f' gs' (phi x) (phi y) <-> conn D f gs x y).
Proof.
  intros Dx Dy. split; [|apply relabel_conn1]. intros C. apply relabel_conn2 in C. destruct C as [E|[x' [y' [A [B [E1 [E2 C]]]]]]].
  - apply inj in E; auto. subst. apply conn_refl.
  - apply inj in E1, E2; auto. now subst.
Qed.
Lemma relabel_closed x : D x -> (closed D' f' gs' (phi x) <-> closed D f gs x).
Proof.
  intros Dx. split; intros [A K].
  - split; [exact Dx|]. intros y By C. apply (K (phi y)); [now apply relabel_bd; [apply By|]|now apply relabel_conn1].
  - split; [apply HD; eauto|]. intros v Bv C. pose proof (proj1 Bv) as Dv. apply HD in Dv. destruct Dv as [y [Dy ->]].
    apply relabel_bd in Bv; [|exact Dy]. apply relabel_conn in C; auto. now apply (K y).
Qed.
Lemma matching_relabel : matching D' f'.
Proof.
  intros u Hu. apply HD in Hu. destruct Hu as [x [Dx ->]]. destruct (M x Dx) as [A [B C]]. rewrite !Hf by auto. repeat split.
  - apply HD. eauto.
  - intros E. apply B. now apply inj.
  - now rewrite C.
Qed.
Lemma good_relabel : good D' gs'.
Proof.
  destruct G as [N I]. split.
  - rewrite ends_relabel. clear - N I inj. induction (ends gs) as [|x l IH]; [constructor|]. inversion N; subst. cbn [map]. constructor.
    + intros K. apply in_map_iff in K. destruct K as [y [E K]]. apply inj in E; [subst; auto|apply I; now right|apply I; now left].
    + apply IH; auto. intros y Hy. apply I. now right.
  - intros u Hu. rewrite ends_relabel in Hu. apply in_map_iff in Hu. destruct Hu as [x [<- Hx]]. apply HD. eauto.
Qed.
Theorem glued_relabel : (forall x, bd D gs x -> r' (phi x) = phi (r x)) -> glued D f gs r n -> glued D' f' gs' r' n.
Proof.
  intros Hr H.
  assert (Bd : forall u, bd D' gs' u <-> exists x, bd D gs x /\ u = phi x).
  { intros u. split.
    - intros Bu. pose proof (proj1 Bu) as Du. apply HD in Du. destruct Du as [x [Dx ->]]. exists x. split; [now apply relabel_bd in Bu|reflexivity].
    - intros [x [Bx ->]]. apply relabel_bd; [apply Bx|exact Bx]. }
  destruct H as [P1 P2 P3 P4 [l [L [A [B C]]]]]. split.
  - intros u Bu. apply Bd in Bu. destruct Bu as [x [Bx ->]]. destruct (P1 x Bx) as [Q1 [Q2 Q3]]. rewrite !Hr by auto. repeat split.
    + apply Bd. eauto.
    + apply Bd. eauto.
    + intros E. apply Q2. apply inj; [apply Q1|apply Bx|exact E].
    + now rewrite Q3.
  - intros u Bu. apply Bd in Bu. destruct Bu as [x [Bx ->]]. rewrite Hr by auto. apply relabel_conn1. auto.
  - intros u v Bu Bv K. apply Bd in Bu, Bv. destruct Bu as [x [Bx ->]], Bv as [y [By ->]]. apply relabel_conn in K; [|apply Bx|apply By].
    rewrite Hr by auto. destruct (P3 x y Bx By K) as [->| ->]; auto.
  - intros u Du. apply HD in Du. destruct Du as [x [Dx ->]]. destruct (P4 x Dx) as [K|[y [By K]]].
    + left. now apply relabel_closed.
    + right. exists (phi y). split; [apply Bd; eauto|now apply relabel_conn1].
  - exists (map phi l). split; [now rewrite map_length|]. split; [|split].
    + intros u Hu. apply in_map_iff in Hu. destruct Hu as [x [<- Hx]]. apply relabel_closed; [apply (A x Hx)|apply A, Hx].
    + assert (F : Forall D l) by (apply Forall_forall; intros x Hx; apply (A x Hx)). clear - B F M G inj HD Hf. induction B as [|x l K B IH]; cbn [map]; constructor.
      * inversion F; subst. rewrite Forall_forall in *. intros u Hu. apply in_map_iff in Hu. destruct Hu as [y [<- Hy]]. intros C. apply (K y Hy).
        apply relabel_conn in C; auto.
      * apply IH. now inversion F.
    + intros u Cu. pose proof (proj1 Cu) as Du. apply HD in Du. destruct Du as [x [Dx ->]]. apply relabel_closed in Cu; [|exact Dx].
      destruct (C x Cu) as [y [Hy K]]. exists (phi y). split; [apply in_map, Hy|now apply relabel_conn1].
Qed.
End Relabel.
