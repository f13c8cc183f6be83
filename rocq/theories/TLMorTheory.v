(** TLMorTheory.v – linear combinations of diagrams through the linear
    functionals they define. *)
From Verif Require Import Base ModelPoly SpecPoly PolyTheory PolyDiv EvalTheory PropsPoly ModelTL SpecTL TLTheory TLAlg TLAlg2 TLBasis TLCells TLRel PropsTL ModelMatrix ModelTLMor.
From Coq Require Import Ring Setoid Morphisms Permutation Sorting.Sorted.
Local Open Scope nat_scope.

Lemma list_eqb_eq a : forall b, ModelTL.list_eqb a b = true <-> a = b.
Proof.
  induction a as [|x a IH]; intros [|y b]; cbn; try (split; [discriminate|discriminate]); [tauto|].
  rewrite andb_true_iff, Nat.eqb_eq, IH. split; [intros [-> ->]; reflexivity|intros [= -> ->]; auto].
Qed.
Lemma diag_eqb_eq a b : diag_eqb a b = true <-> a = b.
Proof.
  unfold diag_eqb. rewrite !andb_true_iff, !Nat.eqb_eq, list_eqb_eq. destruct a, b; cbn. split; [intros [[-> ->] ->]; reflexivity|intros [= -> -> ->]; auto].
Qed.
Lemma diag_eqb_spec a b : reflect (a = b) (diag_eqb a b).
Proof. destruct (diag_eqb a b) eqn:E; constructor; [now apply diag_eqb_eq|]. intros K. apply diag_eqb_eq in K. congruence. Qed.
Lemma diag_eqb_refl a : diag_eqb a a = true. Proof. now apply diag_eqb_eq. Qed.

(** the functional of a linear combination *)
Fixpoint msum (t : terms) (F : diag -> lpoly) : lpoly :=
  match t with [] => lint 0 | x :: t' => ladd (lmul (snd x) (F (fst x))) (msum t' F) end.
Definition ddelta (d e : diag) : lpoly := if diag_eqb d e then lint 1 else lint 0.
Definition typed (top bot : nat) (d : diag) : Prop := diagram d /\ dtop d = top /\ dbot d = bot.
Record isdict (top bot : nat) (t : terms) : Prop := {
  id_nodup : NoDup (map fst t);
  id_typed : forall x, In x t -> typed top bot (fst x);
  id_canon : forall x, In x t -> lcanon (snd x) }.
Record wf (m : mor) : Prop := {
  wf_dict : isdict (motop m) (mobot m) (moterms m);
  wf_sorted : StronglySorted (fun x y => diag_leb (fst x) (fst y) = true) (moterms m);
  wf_nonzero : forall x, In x (moterms m) -> lis_zero (snd x) = false }.

Lemma msum_ext t F G : (forall x, In x t -> leq (F (fst x)) (G (fst x))) -> leq (msum t F) (msum t G).
Proof. induction t as [|x t IH]; cbn [msum]; intros H; [reflexivity|]. rewrite (H x (or_introl eq_refl)), IH by (intros; apply H; now right). reflexivity. Qed.
Lemma msum_perm t t' F : Permutation t t' -> leq (msum t F) (msum t' F).
Proof. induction 1; cbn [msum]; [reflexivity|rewrite IHPermutation; reflexivity|ring|etransitivity; eassumption]. Qed.
Lemma msum_add t F G : leq (msum t (fun d => ladd (F d) (G d))) (ladd (msum t F) (msum t G)).
Proof. induction t as [|x t IH]; cbn [msum]; [ring|]. rewrite IH. ring. Qed.
Lemma msum_scale t c F : leq (msum t (fun d => lmul c (F d))) (lmul c (msum t F)).
Proof. induction t as [|x t IH]; cbn [msum]; [ring|]. rewrite IH. ring. Qed.
Lemma msum_zero t : leq (msum t (fun _ => lint 0)) (lint 0).
Proof. induction t as [|x t IH]; cbn [msum]; [ring|]. rewrite IH. ring. Qed.
Lemma msum_swap s t (F : diag -> diag -> lpoly) : leq (msum s (fun u => msum t (fun l => F u l))) (msum t (fun l => msum s (fun u => F u l))).
Proof.
  induction s as [|x s IH]; cbn [msum]; [symmetry; apply msum_zero|]. rewrite IH, msum_add.
  assert (E : leq (lmul (snd x) (msum t (fun l => F (fst x) l))) (msum t (fun l => lmul (snd x) (F (fst x) l)))) by (symmetry; apply msum_scale).
  now rewrite E.
Qed.
Lemma lis_zero_spec p : lcanon p -> (lis_zero p = true <-> p = lint 0).
Proof.
  intros [A B]. unfold lis_zero. destruct p as [v [|c l]]; cbn [lcoeffs] in *; [|split; discriminate].
  cbn in A. split; [intros _; rewrite (A eq_refl); reflexivity|reflexivity].
Qed.
Lemma L0_int : L0 = lint 0. Proof. reflexivity. Qed.
Lemma L1_int : L1 = lint 1. Proof. reflexivity. Qed.
Lemma msum_filter t F : (forall x, In x t -> lcanon (snd x)) -> leq (msum (filter (fun '(_, c) => negb (lis_zero c)) t) F) (msum t F).
Proof.
  induction t as [|[d c] t IH]; cbn [filter msum fst snd]; intros H; [reflexivity|]. pose proof (lis_zero_spec c (H _ (or_introl eq_refl))) as Z.
  destruct (lis_zero c); cbn [negb msum fst snd]; rewrite IH by (intros; apply H; now right); [|reflexivity]. rewrite (proj1 Z eq_refl). ring.
Qed.
(** *** lookup *)
Lemma tget_in t d c : NoDup (map fst t) -> (tget t d = Some c <-> In (d, c) t).
Proof.
  induction t as [|[d' c'] t IH]; cbn [tget map fst]; intros N; [split; [discriminate|intros []]|]. inversion N as [|? ? Nd N']; subst. specialize (IH N').
  destruct (diag_eqb_spec d' d) as [->|E].
  - split; [intros [= ->]; now left|]. intros [[= ->]|I]; [reflexivity|]. exfalso. apply Nd. apply in_map_iff. exists (d, c). auto.
  - rewrite IH. split; [now right|]. intros [[= -> ->]|I]; [contradiction|exact I].
Qed.
Lemma tget_none t d : tget t d = None <-> ~ In d (map fst t).
Proof.
  induction t as [|[d' c'] t IH]; cbn [tget map fst]; [split; [intros _ []|reflexivity]|]. destruct (diag_eqb_spec d' d) as [->|E].
  - split; [discriminate|]. intros K. exfalso. apply K. now left.
  - rewrite IH. cbn [In]. tauto.
Qed.
Definition tgetd (t : terms) (d : diag) : lpoly := match tget t d with Some c => c | None => L0 end.
Lemma msum_notin t d F : ~ In d (map fst t) -> leq (msum t (fun e => if diag_eqb d e then F e else lint 0)) (lint 0).
Proof.
  induction t as [|x t IH]; cbn [msum map]; intros H; [reflexivity|]. destruct (diag_eqb_spec d (fst x)) as [->|E]; [exfalso; apply H; now left|].
  rewrite IH by (intros K; apply H; now right). ring.
Qed.
Lemma msum_delta t d : NoDup (map fst t) -> leq (msum t (ddelta d)) (tgetd t d).
Proof.
  unfold tgetd. induction t as [|[d' c'] t IH]; cbn [msum map fst snd tget]; intros N; [reflexivity|]. inversion N as [|? ? Nd N']; subst.
  destruct (diag_eqb_spec d' d) as [->|E].
  - rewrite (msum_ext t (ddelta d) (fun e => if diag_eqb d e then lint 1 else lint 0)) by (intros; reflexivity). rewrite msum_notin by exact Nd.
    unfold ddelta. rewrite diag_eqb_refl. ring.
  - rewrite IH by exact N'. unfold ddelta. destruct (diag_eqb_spec d d'); [congruence|]. ring.
Qed.
Lemma tset_keys t d c : map fst (tset t d c) = match tget t d with Some _ => map fst t | None => map fst t ++ [d] end.
Proof.
  induction t as [|[d' c'] t IH]; cbn [tset tget map fst app]; [reflexivity|]. destruct (diag_eqb_spec d' d) as [->|E]; cbn [map fst]; [reflexivity|].
  rewrite IH. now destruct (tget t d).
Qed.
Lemma tset_in t d c x : In x (tset t d c) -> x = (d, c) \/ In x t.
Proof.
  induction t as [|[d' c'] t IH]; cbn [tset]; [intros [<-|[]]; now left|]. destruct (diag_eqb_spec d' d) as [->|E]; cbn [In]; [intros [<-|H]; auto|intros [<-|H]; auto].
  destruct (IH H); auto.
Qed.
Lemma isdict_tset top bot t d c : isdict top bot t -> typed top bot d -> lcanon c -> isdict top bot (tset t d c).
Proof.
  intros [N T C] Td Cc. split.
  - rewrite tset_keys. pose proof (tget_none t d) as G. destruct (tget t d); [exact N|]. apply NoDup_app_intro; [exact N|repeat constructor; intros []|].
    intros x Hx [<-|[]]. now apply G.
  - intros x Hx. apply tset_in in Hx. destruct Hx as [->|Hx]; auto.
  - intros x Hx. apply tset_in in Hx. destruct Hx as [->|Hx]; auto.
Qed.
Lemma msum_tset t d c F : leq (ladd (msum (tset t d c) F) (lmul (tgetd t d) (F d))) (ladd (msum t F) (lmul c (F d))).
Proof.
  unfold tgetd. induction t as [|[d' c'] t IH]; cbn [tset tget msum fst snd].
  - change L0 with (lint 0). ring.
  - destruct (diag_eqb_spec d' d) as [->|E]; cbn [msum fst snd]; [ring|].
    transitivity (ladd (lmul c' (F d')) (ladd (msum (tset t d c) F) (lmul (match tget t d with Some c0 => c0 | None => L0 end) (F d)))); [ring|]. rewrite IH. ring.
Qed.
Lemma ladd_cancel a b c : leq (ladd a c) (ladd b c) -> leq a b.
Proof. intros H. transitivity (lsub (ladd a c) c); [ring|]. rewrite H. ring. Qed.
Lemma msum_tset_add t d c F : leq (msum (tset t d (ladd (tgetd t d) c)) F) (ladd (msum t F) (lmul c (F d))).
Proof. apply (ladd_cancel _ _ (lmul (tgetd t d) (F d))). rewrite msum_tset. ring. Qed.
Lemma tset_tset t d c c' : tset (tset t d c) d c' = tset t d c'.
Proof.
  induction t as [|[d' x] t IH]; cbn [tset]; [now rewrite diag_eqb_refl|]. destruct (diag_eqb_spec d' d) as [->|E]; cbn [tset]; [now rewrite diag_eqb_refl|].
  destruct (diag_eqb_spec d' d); [contradiction|]. now rewrite IH.
Qed.
Lemma tget_tset t d c : tget (tset t d c) d = Some c.
Proof.
  induction t as [|[d' x] t IH]; cbn [tset]; [cbn; now rewrite diag_eqb_refl|]. destruct (diag_eqb_spec d' d) as [->|E]; cbn [tget]; [now rewrite diag_eqb_refl|].
  destruct (diag_eqb_spec d' d); [contradiction|]. exact IH.
Qed.

(** *** the constructor *)
Lemma leb_total top bot (x y : diag * lpoly) : typed top bot (fst x) -> typed top bot (fst y) ->
  diag_leb (fst x) (fst y) = true \/ diag_leb (fst y) (fst x) = true.
Proof. intros [_ [A B]] [_ [A' B']]. unfold diag_leb. rewrite A, B, A', B', !Nat.eqb_refl. apply list_leb_total. Qed.
Lemma leb_trans top bot (x y z : diag * lpoly) : typed top bot (fst x) -> typed top bot (fst y) -> typed top bot (fst z) ->
  diag_leb (fst x) (fst y) = true -> diag_leb (fst y) (fst z) = true -> diag_leb (fst x) (fst z) = true.
Proof. intros [_ [A B]] [_ [A' B']] [_ [A'' B'']]. unfold diag_leb. rewrite A, B, A', B', A'', B'', !Nat.eqb_refl. apply list_leb_trans. Qed.
Lemma leb_antisym top bot d e : typed top bot d -> typed top bot e -> diag_leb d e = true -> diag_leb e d = true -> d = e.
Proof.
  intros [[_ La] [A B]] [[_ Lb] [A' B']]. unfold diag_leb. rewrite A, B, A', B', !Nat.eqb_refl.
  destruct d as [t b s], e as [t' b' s']; cbn in *; subst. assert (L : length s = length s') by lia. intros H1 H2. f_equal.
  revert s' L H1 H2 Lb. clear La. revert s. assert (K : forall s s', length s = length s' -> list_leb s s' = true -> list_leb s' s = true -> s = s').
  { induction s as [|x s IH]; intros [|y s']; cbn [length list_leb]; try discriminate; [reflexivity|]. intros [= L].
    rewrite (Nat.eqb_sym y x). destruct (Nat.eqb_spec x y) as [->|N]; [intros H1 H2; f_equal; auto|]. rewrite !Nat.ltb_lt. lia. }
  intros s s' L H1 H2 _. now apply K.
Qed.
Lemma StronglySorted_filter {A} (R : A -> A -> Prop) P l : StronglySorted R l -> StronglySorted R (filter P l).
Proof.
  induction 1 as [|x l S IH F]; cbn [filter]; [constructor|]. destruct (P x); [|exact IH]. constructor; [exact IH|].
  rewrite Forall_forall in *. intros y Hy. apply filter_In in Hy. apply F, Hy.
Qed.
Lemma isdict_sub top bot t t' : isdict top bot t -> (forall x, In x t' -> In x t) -> NoDup (map fst t') -> isdict top bot t'.
Proof. intros [N T C] H N'. split; auto. Qed.
Lemma NoDup_map_filter {A B} (f : A -> B) P l : NoDup (map f l) -> NoDup (map f (filter P l)).
Proof.
  induction l as [|x l IH]; cbn [map filter]; intros H; [constructor|]. inversion H as [|? ? N1 N2]; subst. destruct (P x); auto. cbn [map]. constructor; auto.
  intros K. apply N1. apply in_map_iff in K. destruct K as [y [<- K]]. apply filter_In in K. now apply in_map.
Qed.
Lemma mor_make_ok top bot t : isdict top bot t -> exists m, mor_make top bot t = Ok m /\ wf m /\ motop m = top /\ mobot m = bot /\
  (forall F, leq (msum (moterms m) F) (msum t F)) /\ (forall d c, In (d, c) (moterms m) <-> In (d, c) t /\ lis_zero c = false).
Proof.
  intros D. pose proof D as [N T C]. unfold mor_make.
  assert (E : forallb (fun '(d, _) => (dtop d =? top) && (dbot d =? bot)) t = true).
  { apply forallb_forall. intros [d c] Hx. destruct (T _ Hx) as [_ [A B]]. cbn in A, B. rewrite A, B, !Nat.eqb_refl. reflexivity. }
  rewrite E. cbn [negb]. set (s := sorted_by (fun x y : diag * lpoly => diag_leb (fst x) (fst y)) t).
  pose proof (sorted_by_perm (fun x y : diag * lpoly => diag_leb (fst x) (fst y)) t) as P. fold s in P.
  assert (Ss : StronglySorted (fun x y : diag * lpoly => diag_leb (fst x) (fst y) = true) s).
  { apply (sorted_by_sorted (fun x y : diag * lpoly => diag_leb (fst x) (fst y)) (fun x => typed top bot (fst x))).
    - intros x y. apply leb_total.
    - intros x y z. apply leb_trans.
    - rewrite Forall_forall. exact T. }
  eexists. split; [reflexivity|]. cbn [motop mobot moterms].
  assert (I : forall x, In x (filter (fun '(_, c) => negb (lis_zero c)) s) <-> In x t /\ lis_zero (snd x) = false).
  { intros [d c]. rewrite filter_In, negb_true_iff. cbn [snd]. assert (In (d, c) s <-> In (d, c) t) by (split; apply Permutation_in; auto using Permutation_sym). tauto. }
  split; [|split; [reflexivity|split; [reflexivity|split]]].
  - split; cbn [motop mobot moterms].
    + apply (isdict_sub top bot t); [exact D|intros x Hx; now apply I in Hx|]. apply NoDup_map_filter.
      apply (Permutation_NoDup (l := map fst t)); [apply Permutation_map, Permutation_sym; exact P|exact N].
    + apply StronglySorted_filter. exact Ss.
    + intros x Hx. now apply I in Hx.
  - intros F. rewrite msum_filter; [apply msum_perm; exact P|]. intros x Hx. apply C. eapply Permutation_in; eassumption.
  - intros d c. apply (I (d, c)).
Qed.
Lemma mor_make_type top bot t m : mor_make top bot t = Ok m -> motop m = top /\ mobot m = bot.
Proof. unfold mor_make. destruct (negb _); [discriminate|]. intros [= <-]. auto. Qed.

(** *** equality *)
Lemma sorted_ext {A} (R : A -> A -> Prop) l : (forall x y, In x l -> In y l -> R x y -> R y x -> x = y) -> forall l', StronglySorted R l -> StronglySorted R l' -> NoDup l -> NoDup l' ->
  (forall x, In x l <-> In x l') -> l = l'.
Proof.
  induction l as [|a l IH]; intros anti [|b l'] S S' N N' E; [reflexivity|exfalso; apply (E b); now left|exfalso; apply (E a); now left|].
  inversion S as [|? ? S1 F1]; inversion S' as [|? ? S2 F2]; inversion N as [|? ? N1 N2]; inversion N' as [|? ? N3 N4]; subst. rewrite Forall_forall in F1, F2.
  assert (K : a = b).
  { destruct (proj1 (E a) (or_introl eq_refl)) as [->|Ha]; [reflexivity|]. destruct (proj2 (E b) (or_introl eq_refl)) as [->|Hb]; [reflexivity|].
    apply anti; [now left|now right|now apply F1|now apply F2]. }
  subst b. f_equal. apply IH; auto; [intros; apply anti; auto; now right|]. intros x. split; intros Hx.
  - destruct (proj1 (E x) (or_intror Hx)) as [->|?]; [contradiction|assumption].
  - destruct (proj2 (E x) (or_intror Hx)) as [->|?]; [contradiction|assumption].
Qed.
Lemma NoDup_of_keys (t : terms) : NoDup (map fst t) -> NoDup t.
Proof. apply NoDup_map_inv. Qed.
Lemma wf_lookup m d c : wf m -> In (d, c) (moterms m) <-> leq (msum (moterms m) (ddelta d)) c /\ lcanon c /\ lis_zero c = false.
Proof.
  intros [[N T C] S Z]. split.
  - intros H. split; [|split; [apply (C _ H)|apply (Z _ H)]]. rewrite msum_delta by exact N. unfold tgetd. apply (tget_in _ _ _ N) in H. rewrite H. reflexivity.
  - intros [E [Cc Zc]]. rewrite msum_delta in E by exact N. unfold tgetd in E. destruct (tget (moterms m) d) as [c'|] eqn:G.
    + apply (tget_in _ _ _ N) in G. assert (c' = c) as <- by (apply canon_eq; auto; apply (C _ G)). exact G.
    + exfalso. assert (L0 = c) as <- by (apply canon_eq; [apply canon_make|exact Cc|exact E]). discriminate.
Qed.
Lemma wf_eq x y : wf x -> wf y -> motop x = motop y -> mobot x = mobot y ->
  (forall d, typed (motop x) (mobot x) d -> leq (msum (moterms x) (ddelta d)) (msum (moterms y) (ddelta d))) -> x = y.
Proof.
  intros Wx Wy E1 E2 H. assert (I : forall p, In p (moterms x) <-> In p (moterms y)).
  { intros [d c]. split; intros Hp.
    - pose proof (id_typed _ _ _ (wf_dict _ Wx) _ Hp) as Td. apply wf_lookup in Hp; [|exact Wx]. apply wf_lookup; [exact Wy|]. rewrite <- H by exact Td. exact Hp.
    - pose proof (id_typed _ _ _ (wf_dict _ Wy) _ Hp) as Td. apply wf_lookup in Hp; [|exact Wy]. apply wf_lookup; [exact Wx|]. rewrite H by (rewrite E1, E2; exact Td). exact Hp. }
  destruct Wx as [[N T C] S Z], Wy as [[N' T' C'] S' Z']. destruct x as [t b tx], y as [t' b' ty]; cbn [motop mobot moterms] in *. subst. f_equal.
  apply (sorted_ext (fun x y => diag_leb (fst x) (fst y) = true)); auto using NoDup_of_keys.
  intros [d c] [e c'] Hx Hy A B. assert (d = e) as <- by (apply (leb_antisym t' b'); auto; [apply (T _ Hx)|apply (T _ Hy)]).
  apply (tget_in _ _ _ N) in Hx, Hy. congruence.
Qed.
Lemma wf_eqF x y : wf x -> wf y -> motop x = motop y -> mobot x = mobot y -> (forall F, leq (msum (moterms x) F) (msum (moterms y) F)) -> x = y.
Proof. intros. apply wf_eq; auto. Qed.

(** *** the operations *)
Lemma isdict_map top bot t (f : lpoly -> lpoly) : (forall c, lcanon (f c)) -> isdict top bot t -> isdict top bot (map (fun '(d, c) => (d, f c)) t).
Proof.
  intros Hf [N T C]. split.
  - rewrite map_map. rewrite (map_ext _ fst); [exact N|]. now intros [].
  - intros x Hx. apply in_map_iff in Hx. destruct Hx as [[d c] [<- Hx]]. apply (T _ Hx).
  - intros x Hx. apply in_map_iff in Hx. destruct Hx as [[d c] [<- Hx]]. apply Hf.
Qed.
Lemma mor_scale_ok m x : wf m -> exists r, mor_scale m x = Ok r /\ wf r /\ motop r = motop m /\ mobot r = mobot m /\
  forall F, leq (msum (moterms r) F) (lmul (coerce x) (msum (moterms m) F)).
Proof.
  intros W. unfold mor_scale.
  assert (Hf : forall c, lcanon (match x with NI k => lmuli c k | NL p => lmul c p end)) by (intros; destruct x; apply canon_make).
  destruct (mor_make_ok _ _ _ (isdict_map _ _ _ (fun c => match x with NI k => lmuli c k | NL p => lmul c p end) Hf (wf_dict _ W))) as [r [E [Wr [T [B [S _]]]]]].
  exists r. split; [exact E|]. split; [exact Wr|]. split; [exact T|]. split; [exact B|]. intros F. rewrite S. clear.
  induction (moterms m) as [|[d c] t IH]; cbn [map msum fst snd]; [ring|]. rewrite IH. clear IH.
  assert (Q : leq (match x with NI k => lmuli c k | NL p => lmul c p end) (lmul c (coerce x))).
  { destruct x as [k|p]; cbn [coerce]; [|reflexivity]. apply leq_L. intros g. rewrite L_muli, L_mul.
    rewrite (L_ext c (fun e => L (lint k) (fun f => g (e + f)%Z)) (fun e => (k * g e)%Z)) by (intros e; now rewrite L_int, Z.add_0_r). unfold L. rewrite lin_scaleg. lia. }
  rewrite Q. ring.
Qed.
Lemma mor_neg_ok m : wf m -> exists r, mor_neg m = Ok r /\ wf r /\ motop r = motop m /\ mobot r = mobot m /\
  forall F, leq (msum (moterms r) F) (lneg (msum (moterms m) F)).
Proof.
  intros W. unfold mor_neg. destruct (mor_make_ok _ _ _ (isdict_map _ _ _ lneg canon_neg (wf_dict _ W))) as [r [E [Wr [T [B [S _]]]]]].
  exists r. split; [exact E|]. split; [exact Wr|]. split; [exact T|]. split; [exact B|]. intros F. rewrite S. clear.
  induction (moterms m) as [|[d c] t IH]; cbn [map msum fst snd]; [ring|]. rewrite IH. ring.
Qed.
Lemma mor_add_ok x y : wf x -> wf y -> motop x = motop y -> mobot x = mobot y -> exists r, mor_add x y = Ok r /\ wf r /\ motop r = motop x /\ mobot r = mobot x /\
  forall F, leq (msum (moterms r) F) (ladd (msum (moterms x) F) (msum (moterms y) F)).
Proof.
  intros Wx Wy E1 E2. unfold mor_add. rewrite E1, E2, !Nat.eqb_refl. cbn [andb negb]. rewrite <- E1, <- E2.
  set (step := fun (t : terms) '(d, c) => match tget t d with None => tset t d c | Some old => tset t d (ladd old c) end).
  assert (K : forall ty t, isdict (motop x) (mobot x) t -> (forall p, In p ty -> typed (motop x) (mobot x) (fst p) /\ lcanon (snd p)) ->
    isdict (motop x) (mobot x) (fold_left step ty t) /\ forall F, leq (msum (fold_left step ty t) F) (ladd (msum t F) (msum ty F))).
  { induction ty as [|[d c] ty IH]; intros t D H; cbn [fold_left msum fst snd]; [split; [exact D|intros; ring]|].
    destruct (H _ (or_introl eq_refl)) as [Td Cc]. cbn [fst snd] in Td, Cc.
    assert (St : exists c', step t (d, c) = tset t d c' /\ lcanon c' /\ leq c' (ladd (tgetd t d) c)).
    { unfold step, tgetd. destruct (tget t d) as [old|]; [exists (ladd old c); split; [reflexivity|split; [apply canon_make|reflexivity]]|].
      exists c. split; [reflexivity|]. split; [exact Cc|]. change L0 with (lint 0). ring. }
    destruct St as [c' [-> [Cc' Ec']]].
    destruct (IH (tset t d c')) as [D' S']; [now apply isdict_tset|intros; apply H; now right|]. split; [exact D'|]. intros F. rewrite S'.
    assert (Q : leq (msum (tset t d c') F) (ladd (msum t F) (lmul c (F d)))).
    { apply (ladd_cancel _ _ (lmul (tgetd t d) (F d))). rewrite msum_tset, Ec'. ring. }
    rewrite Q. ring. }
  destruct (K (moterms y) (moterms x) (wf_dict _ Wx)) as [D S].
  { intros p Hp. rewrite E1, E2. split; [apply (id_typed _ _ _ (wf_dict _ Wy) _ Hp)|apply (id_canon _ _ _ (wf_dict _ Wy) _ Hp)]. }
  destruct (mor_make_ok _ _ _ D) as [r [E [Wr [T [B [Sr _]]]]]]. exists r. split; [exact E|]. split; [exact Wr|]. split; [exact T|]. split; [exact B|].
  intros F. now rewrite Sr, S.
Qed.
Lemma mor_sub_ok x y : wf x -> wf y -> motop x = motop y -> mobot x = mobot y -> exists r, mor_sub x y = Ok r /\ wf r /\ motop r = motop x /\ mobot r = mobot x /\
  forall F, leq (msum (moterms r) F) (lsub (msum (moterms x) F) (msum (moterms y) F)).
Proof.
  intros Wx Wy E1 E2. unfold mor_sub. destruct (mor_neg_ok y Wy) as [ny [-> [Wn [T [B S]]]]]. cbn [bind].
  destruct (mor_add_ok x ny Wx Wn ltac:(congruence) ltac:(congruence)) as [r [-> [Wr [Tr [Br Sr]]]]]. exists r. split; [reflexivity|]. split; [exact Wr|].
  split; [exact Tr|]. split; [exact Br|]. intros F. rewrite Sr, S. ring.
Qed.
Lemma isdict_one d c : diagram d -> lcanon c -> isdict (dtop d) (dbot d) [(d, c)].
Proof.
  intros Hd Hc. split; [repeat constructor; intros []|intros x [<-|[]]; split; [exact Hd|auto]|intros x [<-|[]]; exact Hc].
Qed.
Lemma mor_of_diag_ok d : diagram d -> exists r, mor_of_diag d = Ok r /\ wf r /\ motop r = dtop d /\ mobot r = dbot d /\ forall F, leq (msum (moterms r) F) (F d).
Proof.
  intros Hd. unfold mor_of_diag. destruct (mor_make_ok _ _ _ (isdict_one d L1 Hd (canon_make _ _))) as [r [E [Wr [T [B [S _]]]]]]. exists r.
  split; [exact E|]. split; [exact Wr|]. split; [exact T|]. split; [exact B|]. intros F. rewrite S. cbn [msum fst snd]. change L1 with (lint 1). ring.
Qed.
Definition did (n : nat) : diag := mkD n n (id_seq n).
Definition de (i n : nat) : diag := mkD n n (e_seq i n).
Lemma diagram_id n : diagram (did n).
Proof. split; [apply crossingless_id|]. cbn [did dseq dtop dbot]. rewrite id_seq_length. lia. Qed.
Lemma diagram_e i n : i + 1 < n -> diagram (de i n).
Proof. intros H. split; [now apply crossingless_e|]. cbn [de dseq dtop dbot]. rewrite e_seq_length. lia. Qed.
Lemma mor_id_ok n : exists r, mor_id n = Ok r /\ wf r /\ motop r = n /\ mobot r = n /\ forall F, leq (msum (moterms r) F) (F (did n)).
Proof. unfold mor_id. rewrite tld_id_ok. cbn [bind]. exact (mor_of_diag_ok (did n) (diagram_id n)). Qed.
Lemma mor_e_ok i n : i + 1 < n -> exists r, mor_e i n = Ok r /\ wf r /\ motop r = n /\ mobot r = n /\ forall F, leq (msum (moterms r) F) (F (de i n)).
Proof.
  intros H. unfold mor_e. destruct (Nat.ltb_spec (S i) n); [|lia]. cbn [assert_ bind]. rewrite tld_ok by (apply (diagram_e i n H)). cbn [bind].
  exact (mor_of_diag_ok (de i n) (diagram_e i n H)).
Qed.
(** the product of two diagrams as a total function *)
Definition dprod (u l : diag) : diag * nat := match tld_mul u l with Ok x => x | Err _ => (u, 0) end.
Definition q2 (k : nat) : lpoly := lpn Q2 k.
Lemma dprod_ok u l : diagram u -> diagram l -> dbot u = dtop l -> tld_mul u l = Ok (dprod u l) /\ typed (dtop u) (dbot l) (fst (dprod u l)).
Proof.
  intros Du Dl E. unfold dprod. pose proof (C29_mul u l Du Dl) as K. rewrite E, Nat.eqb_refl in K. destruct K as [z [n [K [Dz [A [B _]]]]]]. rewrite K.
  split; [reflexivity|]. cbn [fst]. split; [exact Dz|auto].
Qed.
Definition bil (x y : terms) (F : diag -> lpoly) : lpoly := msum x (fun u => msum y (fun l => lmul (q2 (snd (dprod u l))) (F (fst (dprod u l))))).
Lemma mor_mul_ok x y : wf x -> wf y -> mobot x = motop y -> exists r, mor_mul x y = Ok r /\ wf r /\ motop r = motop x /\ mobot r = mobot y /\
  forall F, leq (msum (moterms r) F) (bil (moterms x) (moterms y) F).
Proof.
  intros Wx Wy E. unfold mor_mul. rewrite E, Nat.eqb_refl. cbn [negb].
  assert (Step : forall t up low, isdict (motop x) (mobot y) t -> In up (moterms x) -> In low (moterms y) ->
    exists t', mor_mul_step x y t up low = Ok t' /\ isdict (motop x) (mobot y) t' /\
      forall F, leq (msum t' F) (ladd (msum t F) (lmul (snd up) (lmul (snd low) (lmul (q2 (snd (dprod (fst up) (fst low)))) (F (fst (dprod (fst up) (fst low))))))))).
  { intros t [u cu] [l cl] D Hu Hl. destruct (id_typed _ _ _ (wf_dict _ Wx) _ Hu) as [Du [Tu Bu]]. destruct (id_typed _ _ _ (wf_dict _ Wy) _ Hl) as [Dl [Tl Bl]]. cbn [fst snd] in *.
    destruct (dprod_ok u l Du Dl ltac:(congruence)) as [P [Dd [Td Bd]]]. destruct (dprod u l) as [d k]. cbn [fst snd] in *.
    unfold mor_mul_step. cbn [fst snd]. unfold tld_mul in P. destruct (negb (dbot u =? dtop l)); [discriminate|].
    rewrite <- Bu. destruct (compose (dseq u) (dseq l) (dbot u)) as [[s k']|]; [|discriminate]. cbn [bind] in P |- *. rewrite <- Tu, <- Bl.
    destruct (tld (dtop u) (dbot l) s) as [d'|]; [|discriminate]. cbn [bind] in P |- *. injection P as -> ->.
    rewrite lpow_pos by (try apply canon_make; lia). rewrite Nat2Z.id. cbn [bind].
    assert (Td' : typed (motop x) (mobot y) d) by (split; [exact Dd|split; congruence]).
    assert (Q : exists old, tget (match tget t d with None => tset t d L0 | Some _ => t end) d = Some old /\ old = tgetd t d /\
      forall c, tset (match tget t d with None => tset t d L0 | Some _ => t end) d c = tset t d c).
    { unfold tgetd. destruct (tget t d) as [old|] eqn:G; [exists old; rewrite G; auto|]. exists L0. rewrite tget_tset. split; [reflexivity|]. split; [reflexivity|]. intros c. apply tset_tset. }
    destruct Q as [old [-> [-> Q]]]. rewrite Q. eexists. split; [reflexivity|]. split; [rewrite ?Tu, ?Bl; apply isdict_tset; auto; apply canon_make|].
    intros F. rewrite msum_tset_add. unfold q2. ring. }
  assert (Inner : forall up ly t, isdict (motop x) (mobot y) t -> In up (moterms x) -> (forall l, In l ly -> In l (moterms y)) ->
    exists t', foldM (fun result low => mor_mul_step x y result up low) ly t = Ok t' /\ isdict (motop x) (mobot y) t' /\
      forall F, leq (msum t' F) (ladd (msum t F) (lmul (snd up) (msum ly (fun l => lmul (q2 (snd (dprod (fst up) l))) (F (fst (dprod (fst up) l)))))))).
  { intros up. induction ly as [|l ly IH]; intros t D Hu Hl; cbn [foldM msum].
    - exists t. split; [reflexivity|]. split; [exact D|]. intros F. ring.
    - destruct (Step t up l D Hu (Hl _ (or_introl eq_refl))) as [t1 [-> [D1 S1]]]. cbn [bind].
      destruct (IH t1 D1 Hu ltac:(intros; apply Hl; now right)) as [t2 [-> [D2 S2]]]. exists t2. split; [reflexivity|]. split; [exact D2|]. intros F. rewrite S2, S1. ring. }
  assert (Outer : forall lx t, isdict (motop x) (mobot y) t -> (forall u, In u lx -> In u (moterms x)) ->
    exists t', foldM (fun result up => foldM (fun result low => mor_mul_step x y result up low) (moterms y) result) lx t = Ok t' /\ isdict (motop x) (mobot y) t' /\
      forall F, leq (msum t' F) (ladd (msum t F) (bil lx (moterms y) F))).
  { induction lx as [|u lx IH]; intros t D Hu; cbn [foldM].
    - exists t. split; [reflexivity|]. split; [exact D|]. intros F. unfold bil. cbn [msum]. ring.
    - destruct (Inner u (moterms y) t D (Hu _ (or_introl eq_refl)) ltac:(auto)) as [t1 [-> [D1 S1]]]. cbn [bind].
      destruct (IH t1 D1 ltac:(intros; apply Hu; now right)) as [t2 [-> [D2 S2]]]. exists t2. split; [reflexivity|]. split; [exact D2|]. intros F. rewrite S2, S1. unfold bil. cbn [msum]. ring. }
  destruct (Outer (moterms x) []) as [t [-> [D S]]]; [split; [constructor|intros ? []|intros ? []]|auto|]. cbn [bind].
  destruct (mor_make_ok _ _ _ D) as [r [Er [Wr [T [B [Sr _]]]]]]. exists r. split; [exact Er|]. split; [exact Wr|]. split; [exact T|]. split; [exact B|].
  intros F. rewrite Sr, S. cbn [msum]. ring.
Qed.
Lemma bil_ext x x' y y' F G : (forall H, leq (msum x H) (msum x' H)) -> (forall H, leq (msum y H) (msum y' H)) -> (forall d, leq (F d) (G d)) -> leq (bil x y F) (bil x' y' G).
Proof. intros A B C. unfold bil. rewrite A. apply msum_ext. intros u _. rewrite B. apply msum_ext. intros l _. now rewrite C. Qed.

(** associativity and units *)
Lemma q2_add a b : leq (q2 (a + b)) (lmul (q2 a) (q2 b)). Proof. apply lpn_add. Qed.
Lemma assocF u v w F : diagram u -> diagram v -> diagram w -> dbot u = dtop v -> dbot v = dtop w ->
  leq (lmul (q2 (snd (dprod u v))) (lmul (q2 (snd (dprod (fst (dprod u v)) w))) (F (fst (dprod (fst (dprod u v)) w)))))
      (lmul (q2 (snd (dprod v w))) (lmul (q2 (snd (dprod u (fst (dprod v w))))) (F (fst (dprod u (fst (dprod v w))))))).
Proof.
  intros Du Dv Dw E1 E2. destruct (C30_associative u v w Du Dv Dw E1 E2) as [xy [n1 [yz [n2 [z [m1 [m2 [H1 [H2 [H3 [H4 H5]]]]]]]]]]].
  unfold dprod. rewrite H1, H3. cbn [fst snd]. rewrite H2, H4. cbn [fst snd].
  transitivity (lmul (q2 (n1 + m1)) (F z)); [rewrite q2_add; ring|]. rewrite H5, q2_add. ring.
Qed.
Lemma mor_mul_assoc x y z xy yz : wf x -> wf y -> wf z -> mor_mul x y = Ok xy -> mor_mul y z = Ok yz ->
  exists r, mor_mul xy z = Ok r /\ mor_mul x yz = Ok r.
Proof.
  intros Wx Wy Wz Exy Eyz.
  assert (B1 : mobot x = motop y). { unfold mor_mul in Exy. destruct (Nat.eqb_spec (mobot x) (motop y)); [assumption|discriminate]. }
  assert (B2 : mobot y = motop z). { unfold mor_mul in Eyz. destruct (Nat.eqb_spec (mobot y) (motop z)); [assumption|discriminate]. }
  destruct (mor_mul_ok x y Wx Wy B1) as [? [E1 [W1 [T1 [Bo1 S1]]]]]. rewrite Exy in E1. injection E1 as <-.
  destruct (mor_mul_ok y z Wy Wz B2) as [? [E2 [W2 [T2 [Bo2 S2]]]]]. rewrite Eyz in E2. injection E2 as <-.
  destruct (mor_mul_ok xy z W1 Wz ltac:(congruence)) as [r [E3 [W3 [T3 [Bo3 S3]]]]].
  destruct (mor_mul_ok x yz Wx W2 ltac:(congruence)) as [r' [E4 [W4 [T4 [Bo4 S4]]]]].
  exists r. split; [exact E3|]. rewrite E4. f_equal. apply wf_eqF; auto; try congruence. intros F. rewrite S3, S4. unfold bil. rewrite S1. unfold bil.
  apply msum_ext. intros [u cu] Hu. cbn [fst]. destruct (id_typed _ _ _ (wf_dict _ Wx) _ Hu) as [Du [Tu Bu]]. cbn [fst] in *.
  rewrite (S2 (fun l => lmul (q2 (snd (dprod u l))) (F (fst (dprod u l))))). unfold bil.
  apply msum_ext. intros [v cv] Hv. cbn [fst]. destruct (id_typed _ _ _ (wf_dict _ Wy) _ Hv) as [Dv [Tv Bv]]. cbn [fst] in *.
  rewrite <- msum_scale. apply msum_ext. intros [w cw] Hw. cbn [fst]. destruct (id_typed _ _ _ (wf_dict _ Wz) _ Hw) as [Dw [Tw Bw]]. cbn [fst] in *.
  first [apply assocF|symmetry; apply assocF]; auto; congruence.
Qed.

Lemma dprod_id_l d : diagram d -> dprod (did (dtop d)) d = (d, 0).
Proof. intros H. destruct (C30_identity d H) as [i [j [Ei [_ [E _]]]]]. rewrite tld_id_ok in Ei. injection Ei as <-. unfold dprod, did. now rewrite E. Qed.
Lemma dprod_id_r d : diagram d -> dprod d (did (dbot d)) = (d, 0).
Proof. intros H. destruct (C30_identity d H) as [i [j [_ [Ej [_ E]]]]]. rewrite tld_id_ok in Ej. injection Ej as <-. unfold dprod, did. now rewrite E. Qed.
Lemma mor_id_l x i : wf x -> mor_id (motop x) = Ok i -> mor_mul i x = Ok x.
Proof.
  intros Wx Ei. destruct (mor_id_ok (motop x)) as [? [E [Wi [Ti [Bi Si]]]]]. rewrite Ei in E. injection E as <-.
  destruct (mor_mul_ok i x Wi Wx ltac:(congruence)) as [r [-> [Wr [T [B S]]]]]. f_equal. apply wf_eqF; auto; try congruence. intros F. rewrite S. unfold bil. rewrite Si.
  apply msum_ext. intros [d c] Hd. cbn [fst]. destruct (id_typed _ _ _ (wf_dict _ Wx) _ Hd) as [Dd [Td _]]. cbn [fst] in *. rewrite <- Td, dprod_id_l by exact Dd. cbn [fst snd].
  change (q2 0) with (lint 1). ring.
Qed.
Lemma mor_id_r x i : wf x -> mor_id (mobot x) = Ok i -> mor_mul x i = Ok x.
Proof.
  intros Wx Ei. destruct (mor_id_ok (mobot x)) as [? [E [Wi [Ti [Bi Si]]]]]. rewrite Ei in E. injection E as <-.
  destruct (mor_mul_ok x i Wx Wi ltac:(congruence)) as [r [-> [Wr [T [B S]]]]]. f_equal. apply wf_eqF; auto; try congruence. intros F. rewrite S. unfold bil.
  apply msum_ext. intros [d c] Hd. cbn [fst]. destruct (id_typed _ _ _ (wf_dict _ Wx) _ Hd) as [Dd [_ Td]]. cbn [fst] in *. rewrite Si. rewrite <- Td, dprod_id_r by exact Dd. cbn [fst snd].
  change (q2 0) with (lint 1). ring.
Qed.
