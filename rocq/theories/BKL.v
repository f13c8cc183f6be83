(** BKL.v – the Birman-Ko-Lee generators a_(s,t) in the braid group and their
    relations. *)
From Verif Require Import Base SpecBraid BraidTheory.
From Coq Require Import Setoid Morphisms.

(** a_(s, s+d+1) *)
Fixpoint bk (s d : nat) : bword :=
  match d with
  | 0 => [(s, true)]
  | S d' => [(s + d, true)] ++ bk s d' ++ [(s + d, false)]
  end.
Definition aw (s t : nat) : bword := bk s (t - s - 1).

Section BKL.
Variable n : nat.
Notation "u ~ v" := (braid_eq n u v) (at level 70).
Notation R := (in_range n).

Lemma aw_S s t : s < t -> aw s (S t) = [(t, true)] ++ aw s t ++ [(t, false)].
Proof.
  intros H. unfold aw. replace (S t - s - 1) with (S (t - s - 1)) by lia. cbn [bk].
  replace (s + S (t - s - 1)) with t by lia. reflexivity.
Qed.
Lemma aw_1 s : aw s (S s) = [(s, true)].
Proof. unfold aw. replace (S s - s - 1) with 0 by lia. reflexivity. Qed.
Lemma bk_range s d : s + d + 1 < n -> R (bk s d).
Proof.
  intros H. induction d as [|d IH]; cbn [bk].
  - constructor; [cbn; lia|constructor].
  - apply in_range_app. split; [constructor; [cbn; lia|constructor]|].
    apply in_range_app. split; [apply IH; lia|constructor; [cbn; lia|constructor]].
Qed.
Lemma aw_range s t : s < t -> t < n -> R (aw s t).
Proof. intros. apply bk_range. lia. Qed.
Lemma bk_letters s d : Forall (fun l => s <= fst l <= s + d) (bk s d).
Proof.
  induction d as [|d IH]; cbn [bk]; [constructor; [cbn; lia|constructor]|].
  apply Forall_app. split; [constructor; [cbn; lia|constructor]|].
  apply Forall_app. split; [|constructor; [cbn; lia|constructor]].
  eapply Forall_impl; [|exact IH]. cbn. intros. lia.
Qed.

(** [CJ u v w]: conjugating v by u gives w *)
Definition CJ (u v w : bword) : Prop := u ++ v ~ w ++ u.
Lemma CJ_app u v v' w w' : CJ u v w -> CJ u v' w' -> CJ u (v ++ v') (w ++ w').
Proof.
  unfold CJ. intros H K. rewrite app_assoc, H, <- !app_assoc, K. reflexivity.
Qed.
Lemma CJ_comp u u' v w x : CJ u v w -> CJ u' w x -> CJ (u' ++ u) v x.
Proof. unfold CJ. intros H K. rewrite <- app_assoc, H, !app_assoc, K. reflexivity. Qed.
Lemma CJ_sym u v w : R u -> CJ u v w -> CJ (winv u) w v.
Proof.
  unfold CJ. intros Hu H. apply (be_cancel_l n u); [exact Hu|]. apply (be_cancel_r n u); [exact Hu|].
  rewrite <- !app_assoc, (be_inv_l n u Hu), app_nil_r.
  rewrite (app_assoc u (winv u)), (be_inv_r n u Hu). cbn [List.app]. now symmetry.
Qed.
Lemma CJ_conj x U V W U' V' W' : R x -> CJ U V W -> CJ x U U' -> CJ x V V' -> CJ x W W' -> CJ U' V' W'.
Proof.
  unfold CJ. intros Hx H HU HV HW. apply (be_cancel_r n x); [exact Hx|].
  transitivity (x ++ (U ++ V)).
  - rewrite <- app_assoc, <- HV, app_assoc, <- HU, <- app_assoc. reflexivity.
  - rewrite H, app_assoc, HW, <- app_assoc, HU, app_assoc. reflexivity.
Qed.
Definition comm (u v : bword) : Prop := CJ u v v.
Lemma comm_sym u v : comm u v -> comm v u.
Proof. unfold comm, CJ. intros H. now symmetry. Qed.
Lemma comm_app u v v' : comm u v -> comm u v' -> comm u (v ++ v').
Proof. apply CJ_app. Qed.
Lemma comm_conj x U V U' V' : R x -> comm U V -> CJ x U U' -> CJ x V V' -> comm U' V'.
Proof. unfold comm. intros Hx H HU HV. exact (CJ_conj x U V V U' V' V' Hx H HU HV HV). Qed.
Lemma comm_nil u : comm u []. Proof. unfold comm, CJ. now rewrite app_nil_r. Qed.
Lemma CJ_cj i u : i + 1 < n -> CJ [(i, true)] u ([(i, true)] ++ u ++ [(i, false)]).
Proof.
  intros H. unfold CJ. rewrite <- !app_assoc.
  pose proof (be_cancel n i false H) as C. cbn [negb] in C. change [(i, false); (i, true)] with ([(i, false)] ++ [(i, true)]) in C.
  rewrite C, app_nil_r. reflexivity.
Qed.
Lemma comm_neg i u : i + 1 < n -> comm [(i, true)] u -> comm [(i, false)] u.
Proof. intros H K. apply (CJ_sym [(i, true)] u u) in K; [exact K|]. constructor; [exact H|constructor]. Qed.
Lemma R1 i e : i + 1 < n -> R [(i, e)]. Proof. intros. constructor; [cbn; lia|constructor]. Qed.

Lemma far_letter i l : i + 1 < n -> fst l + 1 < n -> i + 2 <= fst l \/ fst l + 2 <= i -> comm [(i, true)] [l].
Proof.
  intros Hi Hl F. destruct l as [j e]. cbn [fst] in *.
  assert (K : comm [(i, true)] [(j, true)]).
  { unfold comm, CJ. cbn. destruct F; [now apply be_far|apply be_sym; now apply be_far]. }
  destruct e; [exact K|]. apply comm_sym. apply comm_neg; [exact Hl|now apply comm_sym].
Qed.
Lemma far_word i u : i + 1 < n -> R u -> Forall (fun l => i + 2 <= fst l \/ fst l + 2 <= i) u -> comm [(i, true)] u.
Proof.
  intros Hi Hu F. induction u as [|l u IH]; [apply comm_nil|]. inversion_clear Hu. inversion_clear F.
  change (l :: u) with ([l] ++ u). apply comm_app; [now apply far_letter|now apply IH].
Qed.
Lemma word_comm u v : R v -> (forall l, In l v -> comm [(fst l, true)] u) -> comm v u.
Proof.
  intros Hv H. apply comm_sym. induction v as [|[i e] v IH]; [apply comm_nil|]. inversion_clear Hv.
  change ((i, e) :: v) with ([(i, e)] ++ v). apply comm_app.
  - apply comm_sym. specialize (H (i, e) (or_introl eq_refl)). cbn [fst] in H. destruct e; [exact H|now apply comm_neg].
  - apply IH; [assumption|]. intros l Hl. apply H. now right.
Qed.

(** generators that commute with a_(s,t) *)
Lemma sg_comm_in s d i : s + d + 1 < n -> s < i -> i < s + d -> comm [(i, true)] (bk s d).
Proof.
  revert i. induction d as [|d IH]; intros i Hd Hs Hi; [lia|].
  assert (i < s + d \/ i = s + d) as [L| ->] by lia.
  - cbn [bk]. assert (F : comm [(i, true)] [(s + S d, true)]) by (apply far_letter; cbn; lia).
    apply comm_app; [exact F|]. apply comm_app; [apply IH; lia|].
    apply comm_sym, comm_neg; [lia|now apply comm_sym].
  - destruct d as [|d]; [lia|]. cbn [bk]. set (j := s + S d) in *. replace (s + S (S d)) with (j + 1) by lia.
    apply (comm_conj ([(j + 1, true)] ++ [(j, true)]) [(j + 1, true)] (bk s d)).
    + apply in_range_app. split; apply R1; lia.
    + apply far_word; [lia|apply bk_range; lia|]. eapply Forall_impl; [|apply bk_letters]. cbn. intros. lia.
    + unfold CJ. cbn. apply be_sym. apply be_braid. lia.
    + eapply CJ_comp; [apply CJ_cj; lia|]. apply CJ_cj. lia.
Qed.
Lemma sg_comm s t i : s < t -> t < n -> i + 1 < n -> i + 1 < s \/ t < i \/ s < i /\ i + 1 < t -> comm [(i, true)] (aw s t).
Proof.
  intros L B Hi [H|[H|H]]; unfold aw.
  - apply far_word; [exact Hi|apply bk_range; lia|]. eapply Forall_impl; [|apply bk_letters]. cbn. intros. lia.
  - apply far_word; [exact Hi|apply bk_range; lia|]. eapply Forall_impl; [|apply bk_letters]. cbn. intros. lia.
  - apply sg_comm_in; lia.
Qed.
(** disjoint noncrossing generators commute *)
Lemma aw_comm p q r s : p < q -> q < n -> r < s -> s < n -> q < r \/ s < p \/ (p < r /\ s < q) \/ (r < p /\ q < s) ->
  comm (aw p q) (aw r s).
Proof.
  assert (K : forall p q r s, p < q -> q < n -> r < s -> s < n -> q < r \/ p < r /\ s < q -> comm (aw p q) (aw r s)).
  { clear. intros p q r s L B L' B' H. apply comm_sym, word_comm; [now apply aw_range|]. intros l Hl.
    pose proof (bk_letters r (s - r - 1)) as F. rewrite Forall_forall in F. specialize (F l Hl).
    apply sg_comm; lia. }
  intros L B L' B' [H|[H|[H|H]]]; [apply K|apply comm_sym, K|apply K|apply comm_sym, K]; auto; tauto.
Qed.

(** triangles *)
Lemma tri1 r p q : r < p -> p < q -> q < n -> aw p q ++ aw r p ~ aw r q ++ aw p q.
Proof.
  intros L1 L2. change (q < n -> CJ (aw p q) (aw r p) (aw r q)). induction q as [|q IH]; [lia|]. intros B.
  assert (p = q \/ p < q) as [<-|L] by lia.
  - rewrite aw_1. rewrite (aw_S r p L1). apply CJ_cj. lia.
  - rewrite (aw_S p q L), (aw_S r q) by lia.
    apply (CJ_conj [(q, true)] (aw p q) (aw r p) (aw r q)); [apply R1; lia|apply IH; lia| | |].
    + apply CJ_cj. lia.
    + apply sg_comm; lia.
    + apply CJ_cj. lia.
Qed.
Definition Br (u v : bword) : Prop := u ++ v ++ u ~ v ++ u ++ v.
Lemma Br_conj x U V U' V' : R x -> CJ x U U' -> CJ x V V' -> Br U' V' -> Br U V.
Proof.
  unfold Br. intros Hx HU HV H. apply (be_cancel_l n x); [exact Hx|].
  assert (A : CJ x (U ++ V ++ U) (U' ++ V' ++ U')) by (repeat apply CJ_app; assumption).
  assert (B : CJ x (V ++ U ++ V) (V' ++ U' ++ V')) by (repeat apply CJ_app; assumption).
  unfold CJ in A, B. rewrite A, B. rewrite H. reflexivity.
Qed.
Lemma Br_CJ u v i : v = [(i, true)] -> i + 1 < n -> Br u v -> CJ u (v ++ u ++ [(i, false)]) v.
Proof.
  intros -> Hi H. unfold Br, CJ in *. rewrite !app_assoc. rewrite <- (app_assoc u), H. rewrite <- !app_assoc.
  pose proof (be_cancel n i true Hi) as C. cbn [negb] in C. change [(i, true); (i, false)] with ([(i, true)] ++ [(i, false)]) in C.
  rewrite C, app_nil_r. reflexivity.
Qed.
Lemma aw_br r p : r < p -> p + 1 < n -> Br (aw r p) [(p, true)].
Proof.
  intros L B. induction p as [|p IH]; [lia|]. assert (r = p \/ r < p) as [<-|L'] by lia.
  - rewrite aw_1. unfold Br. cbn. replace (S r) with (r + 1) by lia. apply be_braid. lia.
  - apply (Br_conj (aw r p) _ _ [(p, true)] [(S p, true)]).
    + apply aw_range; lia.
    + rewrite aw_S by exact L'. apply Br_CJ; [reflexivity|lia|]. apply IH; lia.
    + apply comm_sym. apply sg_comm; lia.
    + unfold Br. cbn. replace (S p) with (p + 1) by lia. apply be_braid. lia.
Qed.
Lemma tri2 r p q : r < p -> p < q -> q < n -> aw r p ++ aw r q ~ aw p q ++ aw r p.
Proof.
  intros L1 L2. change (q < n -> CJ (aw r p) (aw r q) (aw p q)). induction q as [|q IH]; [lia|]. intros B.
  assert (p = q \/ p < q) as [<-|L] by lia.
  - rewrite aw_1, (aw_S r p L1). apply Br_CJ; [reflexivity|lia|]. apply aw_br; lia.
  - rewrite (aw_S p q L), (aw_S r q) by lia.
    apply (CJ_conj [(q, true)] (aw r p) (aw r q) (aw p q)); [apply R1; lia|apply IH; lia| | |].
    + apply sg_comm; lia.
    + apply CJ_cj. lia.
    + apply CJ_cj. lia.
Qed.
End BKL.
