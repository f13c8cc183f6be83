(** PermTheory.v – basic theory of permutations in word notation. *)
From Verif Require Import Base ModelPerm.
From Coq Require Import Permutation FinFun.

Notation ap w i := (nth i w 0) (only parsing).

(** [isperm n w]: w is a rearrangement of 0..n-1. *)
Definition isperm (n : nat) (w : list nat) : Prop := Permutation w (seq 0 n).

Lemma isperm_length n w : isperm n w -> length w = n.
Proof. intros H. apply Permutation_length in H. now rewrite seq_length in H. Qed.

Lemma isperm_NoDup n w : isperm n w -> NoDup w.
Proof. intros H. eapply Permutation_NoDup; [symmetry; exact H|apply seq_NoDup]. Qed.

Lemma isperm_bound n w x : isperm n w -> In x w -> x < n.
Proof. intros H Hx. apply (Permutation_in _ H) in Hx. apply in_seq in Hx. lia. Qed.

Lemma isperm_in n w x : isperm n w -> x < n -> In x w.
Proof.
  intros H Hx. apply (Permutation_in _ (Permutation_sym H)). apply in_seq. lia.
Qed.

Lemma isperm_intro n w :
  length w = n -> NoDup w -> (forall x, In x w -> x < n) -> isperm n w.
Proof.
  intros HL ND HB. unfold isperm.
  apply NoDup_Permutation_bis; [exact ND| |].
  - rewrite seq_length. lia.
  - intros x Hx. apply in_seq. specialize (HB x Hx). lia.
Qed.

Lemma isperm_app_lt n w i : isperm n w -> i < n -> ap w i < n.
Proof.
  intros H Hi. apply (isperm_bound n w _ H). apply nth_In.
  rewrite (isperm_length _ _ H). exact Hi.
Qed.

Lemma isperm_inj n w i j :
  isperm n w -> i < n -> j < n -> ap w i = ap w j -> i = j.
Proof.
  intros H Hi Hj E. pose proof (isperm_length _ _ H) as L.
  apply (proj1 (NoDup_nth w 0) (isperm_NoDup _ _ H)); [lia|lia|exact E].
Qed.

Lemma isperm_surj n w x : isperm n w -> x < n -> exists i, i < n /\ ap w i = x.
Proof.
  intros H Hx. pose proof (isperm_in _ _ _ H Hx) as Hin.
  apply (In_nth w x 0) in Hin. destruct Hin as [i [Hi E]].
  rewrite (isperm_length _ _ H) in Hi. now exists i.
Qed.

Lemma isperm_of_app n w :
  length w = n -> (forall i, i < n -> ap w i < n) ->
  (forall i j, i < n -> j < n -> ap w i = ap w j -> i = j) -> isperm n w.
Proof.
  intros HL HB HI. apply isperm_intro; [exact HL| |].
  - apply (NoDup_nth w 0). intros i j Hi Hj. apply HI; lia.
  - intros x Hx. apply (In_nth w x 0) in Hx. destruct Hx as [i [Hi E]].
    subst x. apply HB. lia.
Qed.

Lemma isperm_ext n v w :
  isperm n v -> isperm n w -> (forall i, i < n -> ap v i = ap w i) -> v = w.
Proof.
  intros Hv Hw H. apply (nth_ext_len v w n 0).
  - apply (isperm_length _ _ Hv).
  - apply (isperm_length _ _ Hw).
  - exact H.
Qed.

Lemma isperm_id n : isperm n (identity n).
Proof. apply Permutation_refl. Qed.

Lemma app_id n i : i < n -> ap (identity n) i = i.
Proof. intros H. unfold identity. now rewrite seq_nth. Qed.

(** ** Composition *)
Definition pcomp (x y : list nat) : list nat := map (fun j => ap x j) y.

Lemma pcomp_length x y : length (pcomp x y) = length y.
Proof. apply map_length. Qed.

Lemma app_pcomp n x y i :
  isperm n x -> isperm n y -> i < n -> ap (pcomp x y) i = ap x (ap y i).
Proof.
  intros Hx Hy Hi. unfold pcomp.
  rewrite (nth_indep _ 0 (ap x 0)) by (rewrite map_length, (isperm_length _ _ Hy); exact Hi).
  now rewrite map_nth with (f := fun j => ap x j).
Qed.

Lemma isperm_pcomp n x y : isperm n x -> isperm n y -> isperm n (pcomp x y).
Proof.
  intros Hx Hy. apply isperm_of_app.
  - rewrite pcomp_length. apply (isperm_length _ _ Hy).
  - intros i Hi. rewrite (app_pcomp n) by assumption.
    apply isperm_app_lt; [assumption|]. now apply isperm_app_lt.
  - intros i j Hi Hj E. rewrite !(app_pcomp n) in E by assumption.
    apply (isperm_inj n x) in E; auto using isperm_app_lt.
    now apply (isperm_inj n y) in E.
Qed.

Lemma compose_ok n x y : isperm n x -> isperm n y -> compose x y = Ok (pcomp x y).
Proof.
  intros Hx Hy. unfold compose.
  rewrite (isperm_length _ _ Hx), (isperm_length _ _ Hy), Nat.eqb_refl. cbn [negb].
  apply mapM_ok. intros j Hj. apply get_ok.
  rewrite (isperm_length _ _ Hx). apply (isperm_bound n y); assumption.
Qed.

Lemma compose_err x y : length x <> length y -> compose x y = Err ValueError.
Proof.
  intros H. unfold compose. apply Nat.eqb_neq in H. now rewrite H.
Qed.

Lemma pcomp_assoc n x y z :
  isperm n x -> isperm n y -> isperm n z -> pcomp (pcomp x y) z = pcomp x (pcomp y z).
Proof.
  intros Hx Hy Hz. apply (isperm_ext n); auto using isperm_pcomp.
  intros i Hi. rewrite !(app_pcomp n); auto using isperm_pcomp, isperm_app_lt.
Qed.

Lemma pcomp_id_l n x : isperm n x -> pcomp (identity n) x = x.
Proof.
  intros Hx. apply (isperm_ext n); auto using isperm_pcomp, isperm_id.
  intros i Hi. rewrite (app_pcomp n) by auto using isperm_id.
  apply app_id. now apply isperm_app_lt.
Qed.

Lemma pcomp_id_r n x : isperm n x -> pcomp x (identity n) = x.
Proof.
  intros Hx. apply (isperm_ext n); auto using isperm_pcomp, isperm_id.
  intros i Hi. rewrite (app_pcomp n) by auto using isperm_id.
  now rewrite app_id.
Qed.

(** ** Inverse *)
Definition pinv (w : list nat) : list nat :=
  fold_left (fun inv ip => upd inv (snd ip) (fst ip))
    (combine (seq 0 (length w)) w) (repeat 0 (length w)).

Lemma fold_upd_length (l : list (nat * nat)) v :
  length (fold_left (fun inv ip => upd inv (snd ip) (fst ip)) l v) = length v.
Proof.
  revert v; induction l as [|a l IH]; intros v; cbn [fold_left]; [reflexivity|].
  rewrite IH. apply upd_length.
Qed.

Lemma pinv_length w : length (pinv w) = length w.
Proof. unfold pinv. rewrite fold_upd_length. apply repeat_length. Qed.

Lemma fold_upd_spec (l : list (nat * nat)) v x i d :
  NoDup (map snd l) -> In (i, x) l -> x < length v ->
  nth x (fold_left (fun inv ip => upd inv (snd ip) (fst ip)) l v) d = i.
Proof.
  revert v; induction l as [|[a b] l IH]; intros v ND Hin Hx; [destruct Hin|].
  cbn [map snd] in ND. inversion ND as [|? ? Hb HND]; subst.
  cbn [fold_left fst snd]. destruct Hin as [E|Hin].
  - injection E as -> ->.
    assert (K : forall l v, ~ In x (map snd l) -> 
       nth x (fold_left (fun inv ip => upd inv (snd ip) (fst ip)) l v) d = nth x v d).
    { clear. induction l as [|[a b] l IH]; intros v H; cbn [fold_left fst snd]; [reflexivity|].
      rewrite IH by (intros K; apply H; now right).
      apply nth_upd_neq. intros ->. apply H. now left. }
    rewrite K by exact Hb. now apply nth_upd_eq.
  - apply IH; [exact HND|exact Hin|]. rewrite upd_length. exact Hx.
Qed.

Lemma map_snd_combine {A B} (l : list A) (l' : list B) :
  length l = length l' -> map snd (combine l l') = l'.
Proof.
  revert l'; induction l as [|a l IH]; intros [|b l'] H; cbn in *; try lia; [reflexivity|].
  rewrite IH by lia. reflexivity.
Qed.

Lemma in_combine_seq (w : list nat) i d : i < length w -> In (i, nth i w d) (combine (seq 0 (length w)) w).
Proof.
  intros H. assert (E : nth i (combine (seq 0 (length w)) w) (0, d) = (i, nth i w d)).
  { rewrite combine_nth by (now rewrite seq_length). rewrite seq_nth by exact H. reflexivity. }
  rewrite <- E. apply nth_In. rewrite combine_length, seq_length. lia.
Qed.

Lemma pinv_app n w i : isperm n w -> i < n -> ap (pinv w) (ap w i) = i.
Proof.
  intros Hw Hi. pose proof (isperm_length _ _ Hw) as L. unfold pinv.
  apply fold_upd_spec.
  - rewrite map_snd_combine by (now rewrite seq_length). apply (isperm_NoDup _ _ Hw).
  - apply in_combine_seq. lia.
  - rewrite repeat_length, L. now apply isperm_app_lt.
Qed.

Lemma isperm_pinv n w : isperm n w -> isperm n (pinv w).
Proof.
  intros Hw. pose proof (isperm_length _ _ Hw) as L. apply isperm_of_app.
  - rewrite pinv_length. exact L.
  - intros x Hx. destruct (isperm_surj _ _ _ Hw Hx) as [i [Hi E]]. subst x.
    now rewrite (pinv_app n).
  - intros x y Hx Hy E.
    destruct (isperm_surj _ _ _ Hw Hx) as [i [Hi E1]].
    destruct (isperm_surj _ _ _ Hw Hy) as [j [Hj E2]]. subst x y.
    rewrite !(pinv_app n) in E by assumption. now subst j.
Qed.

Lemma app_pinv n w x : isperm n w -> x < n -> ap w (ap (pinv w) x) = x.
Proof.
  intros Hw Hx. destruct (isperm_surj _ _ _ Hw Hx) as [i [Hi E]]. subst x.
  now rewrite (pinv_app n).
Qed.

Lemma inverse_ok n w : isperm n w -> inverse w = Ok (pinv w).
Proof.
  intros Hw. pose proof (isperm_length _ _ Hw) as L. unfold inverse, pinv.
  assert (B : forall ip, In ip (combine (seq 0 (length w)) w) -> snd ip < n).
  { intros [i p] Hin. apply in_combine_r in Hin. cbn [snd]. now apply (isperm_bound n w). }
  destruct (foldM_ok (fun inv '(i, pi) => set_ inv pi i)
     (fun inv ip => upd inv (snd ip) (fst ip)) (fun v => length v = n)
     (combine (seq 0 (length w)) w) (repeat 0 (length w))) as [E _].
  - now rewrite repeat_length.
  - intros b [i p] Hb Hin. specialize (B _ Hin). cbn [fst snd] in *. split.
    + apply set_ok. lia.
    + now rewrite upd_length.
  - exact E.
Qed.

Lemma pcomp_pinv_r n w : isperm n w -> pcomp w (pinv w) = identity n.
Proof.
  intros Hw. apply (isperm_ext n); auto using isperm_pcomp, isperm_pinv, isperm_id.
  intros i Hi. rewrite (app_pcomp n), app_id, (app_pinv n); auto using isperm_pinv.
Qed.

Lemma pcomp_pinv_l n w : isperm n w -> pcomp (pinv w) w = identity n.
Proof.
  intros Hw. apply (isperm_ext n); auto using isperm_pcomp, isperm_pinv, isperm_id.
  intros i Hi. rewrite (app_pcomp n), app_id, (pinv_app n); auto using isperm_pinv.
Qed.

Lemma pinv_pinv n w : isperm n w -> pinv (pinv w) = w.
Proof.
  intros Hw. apply (isperm_ext n); auto using isperm_pinv.
  intros i Hi.
  rewrite <- (pinv_app n w i) at 1 by assumption.
  apply (pinv_app n); auto using isperm_pinv, isperm_app_lt.
Qed.

Lemma pinv_id n : pinv (identity n) = identity n.
Proof.
  apply (isperm_ext n); auto using isperm_pinv, isperm_id.
  intros i Hi. rewrite app_id by assumption.
  rewrite <- (app_id n i) at 1 by assumption. apply (pinv_app n); auto using isperm_id.
Qed.

Lemma pinv_pcomp n x y : isperm n x -> isperm n y -> pinv (pcomp x y) = pcomp (pinv y) (pinv x).
Proof.
  intros Hx Hy. apply (isperm_ext n); auto using isperm_pinv, isperm_pcomp.
  intros i Hi. 
  destruct (isperm_surj n (pcomp x y) i (isperm_pcomp _ _ _ Hx Hy) Hi) as [k [Hk E]].
  rewrite <- E at 1. rewrite (pinv_app n) by auto using isperm_pcomp.
  rewrite (app_pcomp n) by auto using isperm_pinv.
  rewrite (app_pcomp n) in E by auto. subst i.
  rewrite (pinv_app n x), (pinv_app n y); auto using isperm_app_lt.
Qed.

(** ** Swaps *)
Lemma swap_length w i j : length (swap w i j) = length w.
Proof. unfold swap. now rewrite !upd_length. Qed.

Lemma app_swap w i j k :
  i < length w -> j < length w ->
  ap (swap w i j) k = if k =? i then ap w j else if k =? j then ap w i else ap w k.
Proof.
  intros Hi Hj. unfold swap. rewrite !nth_upd, upd_length.
  apply Nat.ltb_lt in Hi, Hj. rewrite Hi, Hj, !andb_true_r.
  rewrite (Nat.eqb_sym k i), (Nat.eqb_sym k j).
  destruct (Nat.eqb_spec i k), (Nat.eqb_spec j k); subst; auto.
Qed.

Lemma isperm_swap n w i j : isperm n w -> i < n -> j < n -> isperm n (swap w i j).
Proof.
  intros Hw Hi Hj. pose proof (isperm_length _ _ Hw) as L. apply isperm_of_app.
  - now rewrite swap_length.
  - intros k Hk. rewrite app_swap by lia.
    destruct (k =? i), (k =? j); now apply isperm_app_lt.
  - intros k l Hk Hl. rewrite !app_swap by lia.
    destruct (Nat.eqb_spec k i), (Nat.eqb_spec l i), (Nat.eqb_spec k j), (Nat.eqb_spec l j);
    subst; intros E; apply (isperm_inj (length w) w) in E; auto; lia.
Qed.

(** The transposition (i j) as a word, and right multiplication by it. *)
Definition ptrans (n i j : nat) : list nat := swap (identity n) i j.

Lemma isperm_ptrans n i j : i < n -> j < n -> isperm n (ptrans n i j).
Proof. intros. apply isperm_swap; auto using isperm_id. Qed.

Lemma app_ptrans n i j k : i < n -> j < n -> k < n ->
  ap (ptrans n i j) k = if k =? i then j else if k =? j then i else k.
Proof.
  intros Hi Hj Hk. unfold ptrans. unfold identity. rewrite app_swap by (rewrite seq_length; lia).
  rewrite !seq_nth by lia. reflexivity.
Qed.

Lemma transposition_ok n i j : i < n -> j < n -> transposition n i j = Ok (ptrans n i j).
Proof.
  intros Hi Hj. unfold transposition. apply Nat.ltb_lt in Hi, Hj. rewrite Hi, Hj. reflexivity.
Qed.

Lemma pcomp_ptrans n w i j : isperm n w -> i < n -> j < n ->
  pcomp w (ptrans n i j) = swap w i j.
Proof.
  intros Hw Hi Hj. pose proof (isperm_length _ _ Hw) as L.
  apply (isperm_ext n); auto using isperm_pcomp, isperm_swap, isperm_ptrans.
  intros k Hk. rewrite (app_pcomp n), app_ptrans, app_swap by (try lia; auto using isperm_ptrans).
  destruct (k =? i), (k =? j); reflexivity.
Qed.

Lemma ptrans_invol n i j : i < n -> j < n -> pcomp (ptrans n i j) (ptrans n i j) = identity n.
Proof.
  intros Hi Hj. apply (isperm_ext n); auto using isperm_pcomp, isperm_id, isperm_ptrans.
  intros k Hk. rewrite (app_pcomp n), app_id by auto using isperm_ptrans.
  rewrite (app_ptrans n i j k) by assumption.
  rewrite app_ptrans;
    [|lia|lia|destruct (Nat.eqb_spec k i); [|destruct (Nat.eqb_spec k j)]; lia].
  destruct (Nat.eqb_spec k i), (Nat.eqb_spec k j); subst; rewrite ?Nat.eqb_refl; auto.
  - destruct (Nat.eqb_spec j i); auto.
  - destruct (Nat.eqb_spec k i), (Nat.eqb_spec k j); auto; lia.
Qed.

Lemma pinv_ptrans n i j : i < n -> j < n -> pinv (ptrans n i j) = ptrans n i j.
Proof.
  intros Hi Hj.
  rewrite <- (pcomp_id_r n (pinv (ptrans n i j))) by auto using isperm_pinv, isperm_ptrans.
  rewrite <- (ptrans_invol n i j) at 1 by assumption.
  rewrite <- (pcomp_assoc n) by auto using isperm_pinv, isperm_ptrans.
  rewrite (pcomp_pinv_l n) by auto using isperm_ptrans.
  apply pcomp_id_l. now apply isperm_ptrans.
Qed.

(** ** Longest element *)
Lemma longest_length n : length (longest_element n) = n.
Proof. unfold longest_element. now rewrite map_length, seq_length. Qed.

Lemma app_longest n i : i < n -> ap (longest_element n) i = n - i - 1.
Proof. intros H. unfold longest_element. now rewrite nth_map_seq. Qed.

Lemma isperm_longest n : isperm n (longest_element n).
Proof.
  apply isperm_of_app.
  - apply longest_length.
  - intros i Hi. rewrite app_longest; lia.
  - intros i j Hi Hj. rewrite !app_longest; lia.
Qed.

Lemma longest_invol n : pcomp (longest_element n) (longest_element n) = identity n.
Proof.
  apply (isperm_ext n); auto using isperm_pcomp, isperm_longest, isperm_id.
  intros i Hi. rewrite (app_pcomp n), app_id by auto using isperm_longest.
  rewrite (app_longest n i) by lia. rewrite app_longest; lia.
Qed.

Lemma pinv_longest n : pinv (longest_element n) = longest_element n.
Proof.
  apply (isperm_ext n); auto using isperm_pinv, isperm_longest.
  intros i Hi.
  assert (E : i = ap (longest_element n) (n - i - 1)) by (rewrite app_longest; lia).
  rewrite E at 1. rewrite (pinv_app n); auto using isperm_longest; [|lia].
  rewrite app_longest; lia.
Qed.

Lemma is_identity_spec n w : isperm n w -> (is_identity w = true <-> w = identity n).
Proof.
  intros Hw. pose proof (isperm_length _ _ Hw) as L. unfold is_identity. rewrite forallb_forall, L.
  split.
  - intros H. apply (isperm_ext n); auto using isperm_id. intros i Hi.
    rewrite app_id by assumption. apply Nat.eqb_eq. apply H. apply in_seq. lia.
  - intros -> i Hi. apply in_seq in Hi. apply Nat.eqb_eq. apply app_id. lia.
Qed.

Lemma is_longest_spec n w : isperm n w -> (is_longest_element w = true <-> w = longest_element n).
Proof.
  intros Hw. pose proof (isperm_length _ _ Hw) as L. unfold is_longest_element. rewrite forallb_forall, L.
  split.
  - intros H. apply (isperm_ext n); auto using isperm_longest. intros i Hi.
    rewrite app_longest by assumption. apply Nat.eqb_eq. apply H. apply in_seq. lia.
  - intros -> i Hi. apply in_seq in Hi. apply Nat.eqb_eq. apply app_longest. lia.
Qed.
