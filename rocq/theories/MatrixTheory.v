(** MatrixTheory.v – matrices over a commutative ring (setoid equality). *)
From Verif Require Import Base ModelMatrix SpecMatrix.
From Coq Require Import Ring Setoid Morphisms.

Lemma div_pos c i j : j < c -> (c * i + j) / c = i.
Proof. intros H. rewrite Nat.mul_comm, Nat.div_add_l by lia. rewrite Nat.div_small by exact H. lia. Qed.
Lemma mod_pos c i j : j < c -> (c * i + j) mod c = j.
Proof. intros H. rewrite Nat.add_comm, Nat.mul_comm, Nat.mod_add by lia. now apply Nat.mod_small. Qed.
Lemma pos_lt r c i j : i < r -> j < c -> c * i + j < r * c.
Proof. intros H1 H2. nia. Qed.
Lemma pos_split r c p : p < r * c -> p / c < r /\ p mod c < c /\ p = c * (p / c) + p mod c.
Proof.
  intros H. assert (c <> 0) by lia. repeat split.
  - apply Nat.div_lt_upper_bound; [lia|]. lia.
  - now apply Nat.mod_upper_bound.
  - now apply Nat.div_mod.
Qed.
Lemma map_add_seq t c : map (fun j => t + j) (seq 0 c) = seq t c.
Proof. induction c as [|d IHd]; [reflexivity|]. rewrite !seq_S, map_app, IHd. reflexivity. Qed.
Lemma pairs_positions r c : map (fun '(i, j) => c * i + j) (pairs r c) = seq 0 (r * c).
Proof.
  unfold pairs.
  assert (K : forall r s, map (fun '(i, j) => c * i + j) (list_prod (seq s r) (seq 0 c)) = seq (s * c) (r * c)).
  { induction r0 as [|r0 IH]; intros s; cbn [seq list_prod]; [reflexivity|]. rewrite map_app, map_map, IH.
    cbn [Nat.mul]. rewrite seq_app. f_equal; [|f_equal; lia].
    rewrite (map_ext _ (fun j => s * c + j)) by (intros; lia).
    apply map_add_seq. }
  apply K.
Qed.
Lemma in_pairs r c i j : In (i, j) (pairs r c) <-> i < r /\ j < c.
Proof. unfold pairs. rewrite in_prod_iff, !in_seq. lia. Qed.

Lemma fold_left_prod {A B C} (f : A -> B -> C -> A) (l1 : list B) (l2 : list C) : forall a,
  fold_left (fun a x => fold_left (fun a y => f a x y) l2 a) l1 a = fold_left (fun a xy => f a (fst xy) (snd xy)) (list_prod l1 l2) a.
Proof.
  induction l1 as [|x l1 IH]; intros a; cbn [fold_left list_prod]; [reflexivity|]. rewrite fold_left_app, IH. f_equal.
  clear IH. revert a. induction l2 as [|y l2 IH2]; intros a; cbn; [reflexivity|]. apply IH2.
Qed.
Lemma fold_left_ext_in {A B} (f g : A -> B -> A) l : (forall a b, In b l -> f a b = g a b) -> forall a, fold_left f l a = fold_left g l a.
Proof. induction l as [|b l IH]; intros H a; cbn; [reflexivity|]. rewrite H by now left. apply IH. intros; apply H. now right. Qed.
Lemma fold_left_map {A B C} (f : A -> C -> A) (g : B -> C) l : forall a, fold_left f (map g l) a = fold_left (fun a b => f a (g b)) l a.
Proof. induction l as [|b l IH]; intros a; cbn; [reflexivity|]. apply IH. Qed.
(** updating pairwise different positions *)
Lemma fold_upd {A} (d : A) (F : nat -> A -> A) ps : NoDup ps -> forall acc, Forall (fun p => p < length acc) ps ->
  length (fold_left (fun acc p => upd acc p (F p (nth p acc d))) ps acc) = length acc /\
  forall q, nth q (fold_left (fun acc p => upd acc p (F p (nth p acc d))) ps acc) d =
    if in_dec Nat.eq_dec q ps then F q (nth q acc d) else nth q acc d.
Proof.
  induction 1 as [|p ps N ND IH]; intros acc HF; [split; [reflexivity|intros q; reflexivity]|].
  inversion HF as [|? ? Hp HF']; subst. cbn [fold_left].
  destruct (IH (upd acc p (F p (nth p acc d)))) as [IL IN].
  { eapply Forall_impl; [|exact HF']. intros a Ha. now rewrite upd_length. }
  split; [rewrite IL; apply upd_length|]. intros q. rewrite IN.
  destruct (in_dec Nat.eq_dec q ps) as [Hq|Hq], (in_dec Nat.eq_dec q (p :: ps)) as [Hq'|Hq'].
  - rewrite nth_upd_neq; [reflexivity|]. intros ->. contradiction.
  - exfalso. apply Hq'. now right.
  - destruct Hq' as [->|Hq']; [|contradiction]. now rewrite nth_upd_eq.
  - rewrite nth_upd_neq; [reflexivity|]. intros ->. apply Hq'. now left.
Qed.
Lemma upd_nth_id {A} (l : list A) p d : upd l p (nth p l d) = l.
Proof. revert p. induction l as [|x l IH]; intros [|p]; cbn; [reflexivity..|]. now rewrite IH. Qed.
Lemma upd_upd {A} (l : list A) p a b : upd (upd l p a) p b = upd l p b.
Proof. revert p. induction l as [|x l IH]; intros [|p]; cbn; [reflexivity..|]. now rewrite IH. Qed.

Definition mwf {R} (m : mat R) : Prop := length (mdata m) = mrows m * mcols m.

Section Raw.
Context {R : Type} (O I : R) (radd rmul rsub : R -> R -> R).
Local Notation rsum := (rsum O radd).
Definition ent (m : mat R) (i j : nat) : R := entry O (mcols m) (mdata m) i j.

Lemma mat_make_ok r c (d : list R) : length d = r * c -> mat_make (Z.of_nat r) (Z.of_nat c) d = Ok (mkM r c d).
Proof.
  intros H. unfold mat_make. destruct (Z.leb_spec 0 (Z.of_nat r)); [|lia]. destruct (Z.leb_spec 0 (Z.of_nat c)); [|lia]. cbn [andb negb].
  destruct (Z.eqb_spec (Z.of_nat r * Z.of_nat c) (Z.of_nat (length d))); [|lia]. cbn [negb]. now rewrite !Nat2Z.id.
Qed.
Lemma mat_make_spec nr nc (d : list R) :
  mat_make nr nc d = if ((0 <=? nr) && (0 <=? nc) && (nr * nc =? Z.of_nat (length d)))%Z then Ok (mkM (Z.to_nat nr) (Z.to_nat nc) d) else Err ValueError.
Proof. unfold mat_make. destruct (0 <=? nr)%Z, (0 <=? nc)%Z, (nr * nc =? _)%Z; reflexivity. Qed.
Lemma rsum_fold n f : fold_left (fun s k => radd s (f k)) (seq 0 n) O = rsum n f.
Proof. induction n as [|n IH]; [reflexivity|]. rewrite seq_S, fold_left_app, IH. reflexivity. Qed.
Lemma kloop p (t : nat -> R) ks : forall acc, p < length acc ->
  fold_left (fun acc k => accum O radd acc p (t k)) ks acc = upd acc p (fold_left (fun s k => radd s (t k)) ks (nth p acc O)).
Proof.
  induction ks as [|k ks IH]; intros acc H; cbn [fold_left]; [now rewrite upd_nth_id|].
  rewrite IH by (unfold accum; now rewrite upd_length). unfold accum. now rewrite upd_upd, nth_upd_eq.
Qed.
Definition prod_data (a b : mat R) : list R :=
  map (fun p => rsum (mcols a) (fun k => rmul (ent a (p / mcols b) k) (ent b k (p mod mcols b)))) (seq 0 (mrows a * mcols b)).
Lemma mat_mul_eq a b : mcols a = mrows b -> mat_mul O radd rmul a b = Ok (mkM (mrows a) (mcols b) (prod_data a b)).
Proof.
  intros H. unfold mat_mul. rewrite H at 1. rewrite Nat.eqb_refl. cbn [negb].
  set (nd := fold_left _ _ _). assert (E : nd = prod_data a b); [|rewrite E; apply mat_make_ok; unfold prod_data; now rewrite map_length, seq_length].
  set (r := mrows a) in *. set (c := mcols b) in *.
  set (F := fun p s => fold_left (fun s k => radd s (rmul (ent a (p / c) k) (ent b k (p mod c)))) (seq 0 (mcols a)) s).
  assert (E1 : nd = fold_left (fun acc p => upd acc p (F p (nth p acc O))) (seq 0 (r * c)) (repeat O (r * c))).
  { rewrite <- (pairs_positions r c). rewrite fold_left_map. unfold nd, pairs.
    rewrite (fold_left_prod (fun acc i j => fold_left (fun acc k => accum O radd acc (c * i + j) (rmul (nth (mcols a * i + k) (mdata a) O) (nth (c * k + j) (mdata b) O))) (seq 0 (mcols a)) acc)).
    assert (L : length (repeat O (r * c)) = r * c) by apply repeat_length. revert L. generalize (repeat O (r * c)) as acc.
    assert (Q : Forall (fun ij => fst ij < r /\ snd ij < c) (list_prod (seq 0 r) (seq 0 c))).
    { apply Forall_forall. intros [i j] Hij. now apply (in_pairs r c i j). }
    revert Q. generalize (list_prod (seq 0 r) (seq 0 c)) as l. induction l as [|[i j] l IH]; intros Q acc L; [reflexivity|].
    pose proof (Forall_inv Q) as [Hi Hj]. pose proof (Forall_inv_tail Q) as Q'. cbn [fold_left fst snd] in *. rewrite kloop by (rewrite L; now apply pos_lt).
    rewrite IH; [|exact Q'|now rewrite upd_length]. f_equal. f_equal. unfold F. now rewrite div_pos, mod_pos by exact Hj. }
  rewrite E1. clear E1. destruct (fold_upd O F (seq 0 (r * c)) (seq_NoDup _ _) (repeat O (r * c))) as [L N].
  { apply Forall_forall. intros p Hp. rewrite repeat_length. apply in_seq in Hp. lia. }
  rewrite repeat_length in L. apply (nth_ext_len _ _ (r * c) O); [exact L|unfold prod_data; now rewrite map_length, seq_length|].
  intros p Hp. rewrite N. destruct (in_dec Nat.eq_dec p (seq 0 (r * c))) as [_|X]; [|exfalso; apply X, in_seq; lia].
  unfold prod_data. fold r c. rewrite (nth_map_seq _ (r * c)) by exact Hp. unfold F. rewrite nth_repeat. apply rsum_fold.
Qed.
Lemma mat_mul_shape a b : mcols a <> mrows b -> mat_mul O radd rmul a b = Err ValueError.
Proof. intros H. unfold mat_mul. apply Nat.eqb_neq in H. now rewrite H. Qed.
Lemma prod_data_length a b : length (prod_data a b) = mrows a * mcols b.
Proof. unfold prod_data. now rewrite map_length, seq_length. Qed.
Lemma prod_ent a b i j : i < mrows a -> j < mcols b ->
  ent (mkM (mrows a) (mcols b) (prod_data a b)) i j = rsum (mcols a) (fun k => rmul (ent a i k) (ent b k j)).
Proof.
  intros Hi Hj. unfold ent at 1, entry. cbn [mcols mdata]. unfold prod_data. rewrite nth_map_seq by now apply pos_lt.
  now rewrite div_pos, mod_pos by exact Hj.
Qed.
Lemma mat_mul_index_ok (a b : mat R) i j k : mwf a -> mwf b -> mcols a = mrows b -> i < mrows a -> j < mcols b -> k < mcols a ->
  mcols b * i + j < mrows a * mcols b /\ mcols a * i + k < length (mdata a) /\ mcols b * k + j < length (mdata b).
Proof. intros A B E Hi Hj Hk. rewrite A, B. repeat split; apply pos_lt; lia. Qed.

(** reading entries *)
Lemma mat_get_ok m i j : mwf m -> i < mrows m -> j < mcols m -> mat_get m (Z.of_nat i) (Z.of_nat j) = Ok (ent m i j).
Proof.
  intros W Hi Hj. unfold mat_get. destruct (Z.leb_spec 0 (Z.of_nat i)); [|lia]. destruct (Z.leb_spec 0 (Z.of_nat j)); [|lia].
  destruct (Z.ltb_spec (Z.of_nat i) (Z.of_nat (mrows m))); [|lia]. destruct (Z.ltb_spec (Z.of_nat j) (Z.of_nat (mcols m))); [|lia].
  cbn [andb negb]. rewrite !Nat2Z.id. apply get_ok. rewrite W. now apply pos_lt.
Qed.
Lemma mat_get_bad (m : mat R) i j : ~ (0 <= i < Z.of_nat (mrows m) /\ 0 <= j < Z.of_nat (mcols m))%Z -> mat_get m i j = Err IndexError.
Proof.
  intros H. unfold mat_get.
  destruct (Z.leb_spec 0 i); [|reflexivity]. destruct (Z.ltb_spec i (Z.of_nat (mrows m))); [|reflexivity].
  destruct (Z.leb_spec 0 j); [|reflexivity]. destruct (Z.ltb_spec j (Z.of_nat (mcols m))); [|reflexivity]. exfalso. apply H. lia.
Qed.
Lemma mat_ext (a b : mat R) : mwf a -> mwf b -> mrows a = mrows b -> mcols a = mcols b ->
  (forall i j, i < mrows a -> j < mcols a -> ent a i j = ent b i j) -> a = b.
Proof.
  destruct a as [r c d], b as [r' c' d']. unfold mwf, ent, entry. cbn [mrows mcols mdata]. intros Wa Wb <- <- H. f_equal.
  apply (nth_ext_len _ _ (r * c) O); auto. intros p Hp. destruct (pos_split r c p Hp) as [A [B C]]. rewrite C. now apply H.
Qed.
Lemma scalar_ok n x : exists m, mat_scalar O (Z.of_nat n) x = Ok m /\ mwf m /\ mrows m = n /\ mcols m = n /\
  forall i j, i < n -> j < n -> ent m i j = if i =? j then x else O.
Proof.
  unfold mat_scalar. rewrite Nat2Z.id. assert (L : length (pairs n n) = n * n) by (unfold pairs; now rewrite prod_length, seq_length).
  rewrite mat_make_ok by (rewrite map_length; exact L). eexists. split; [reflexivity|].
  split; [unfold mwf; cbn; now rewrite map_length|]. split; [reflexivity|]. split; [reflexivity|]. intros i j Hi Hj.
  unfold ent, entry. cbn [mcols mdata].
  set (f := fun ij : nat * nat => _).
  assert (E : nth_error (pairs n n) (n * i + j) = Some (i, j)).
  { pose proof (pairs_positions n n) as P.
    assert (K : nth_error (map (fun '(i, j) => n * i + j) (pairs n n)) (n * i + j) = Some (n * i + j)).
    { rewrite P. rewrite (nth_error_nth' _ 0) by (rewrite seq_length; now apply pos_lt). f_equal. rewrite seq_nth by now apply pos_lt. lia. }
    rewrite nth_error_map in K. destruct (nth_error (pairs n n) (n * i + j)) as [[i' j']|] eqn:En; [|discriminate].
    cbn in K. injection K as K. apply nth_error_In in En. apply in_pairs in En. destruct En as [Hi' Hj'].
    f_equal. f_equal; [rewrite <- (div_pos n i j Hj), <- (div_pos n i' j' Hj'); now rewrite K|rewrite <- (mod_pos n i j Hj), <- (mod_pos n i' j' Hj'); now rewrite K]. }
  apply nth_error_nth. rewrite nth_error_map, E. reflexivity.
Qed.
Lemma transpose_ok m : mwf m -> exists t, mat_transpose m = Ok t /\ mwf t /\ mrows t = mcols m /\ mcols t = mrows m /\
  forall i j, i < mcols m -> j < mrows m -> ent t i j = ent m j i.
Proof using Type.
  intros W. unfold mat_transpose. rewrite (mapM_ok _ (fun '(i, j) => ent m j i)).
  2: { intros [i j] H. apply in_pairs in H. destruct H; apply mat_get_ok; assumption. }
  cbn [bind]. assert (L : length (pairs (mcols m) (mrows m)) = mcols m * mrows m) by (unfold pairs; now rewrite prod_length, !seq_length).
  rewrite mat_make_ok by (rewrite map_length; exact L). eexists. split; [reflexivity|].
  split; [unfold mwf; cbn; now rewrite map_length|]. split; [reflexivity|]. split; [reflexivity|]. intros i j Hi Hj.
  unfold ent at 1, entry. cbn [mcols mdata].
  assert (E : map (fun '(i, j) => ent m j i) (pairs (mcols m) (mrows m)) = map (fun p => ent m (p mod mrows m) (p / mrows m)) (seq 0 (mcols m * mrows m))).
  { rewrite <- pairs_positions, map_map. apply map_ext_in. intros [i' j'] H. apply in_pairs in H. now rewrite div_pos, mod_pos by apply H. }
  rewrite E, nth_map_seq by now apply pos_lt. now rewrite div_pos, mod_pos by exact Hj.
Qed.
End Raw.

Section Ring.
Context {R : Type} (O I : R) (radd rmul rsub : R -> R -> R) (ropp : R -> R) (req : R -> R -> Prop).
Context (Req : Equivalence req) (Rext : ring_eq_ext radd rmul ropp req) (Rth : ring_theory O I radd rmul rsub ropp req).
Add Ring Rr : Rth (setoid Req Rext).
#[local] Instance radd_p : Proper (req ==> req ==> req) radd. Proof. apply Rext. Qed.
#[local] Instance rmul_p : Proper (req ==> req ==> req) rmul. Proof. apply Rext. Qed.
Local Notation rsum := (rsum O radd).
Local Notation ent := (ent O).
Local Notation mmul := (mat_mul O radd rmul).
Infix "==" := req (at level 70).

Lemma rsum_ext n f g : (forall k, k < n -> f k == g k) -> rsum n f == rsum n g.
Proof. induction n as [|n IH]; intros H; cbn; [reflexivity|]. rewrite IH, H by auto. reflexivity. Qed.
Lemma rsum_zero n f : (forall k, k < n -> f k == O) -> rsum n f == O.
Proof. induction n as [|n IH]; intros H; cbn; [reflexivity|]. rewrite IH, H by auto. ring. Qed.
Lemma rsum_add n f g : rsum n (fun k => radd (f k) (g k)) == radd (rsum n f) (rsum n g).
Proof. induction n as [|n IH]; cbn; [ring|]. rewrite IH. ring. Qed.
Lemma rsum_mull n a f : rmul a (rsum n f) == rsum n (fun k => rmul a (f k)).
Proof. induction n as [|n IH]; cbn; [ring|]. rewrite <- IH. ring. Qed.
Lemma rsum_mulr n a f : rmul (rsum n f) a == rsum n (fun k => rmul (f k) a).
Proof. induction n as [|n IH]; cbn; [ring|]. rewrite <- IH. ring. Qed.
Lemma rsum_swap n m f : rsum n (fun i => rsum m (fun j => f i j)) == rsum m (fun j => rsum n (fun i => f i j)).
Proof.
  induction n as [|n IH]; cbn [SpecMatrix.rsum].
  - rewrite rsum_zero; [reflexivity|]. intros; reflexivity.
  - rewrite IH, <- rsum_add. reflexivity.
Qed.
Lemma rsum_delta n i f : i < n -> rsum n (fun k => rmul (if i =? k then I else O) (f k)) == f i.
Proof.
  induction n as [|n IH]; intros H; [lia|]. cbn [SpecMatrix.rsum]. destruct (Nat.eqb_spec i n) as [->|N].
  - rewrite rsum_zero; [ring|]. intros k Hk. destruct (Nat.eqb_spec n k); [lia|]. ring.
  - rewrite IH by lia. ring.
Qed.
(** same shape and equal entries *)
Definition meq (a b : mat R) : Prop := mrows a = mrows b /\ mcols a = mcols b /\ Forall2 req (mdata a) (mdata b).
Lemma meq_ent a b : mwf a -> mwf b ->
  (meq a b <-> mrows a = mrows b /\ mcols a = mcols b /\ forall i j, i < mrows a -> j < mcols a -> ent a i j == ent b i j).
Proof.
  destruct a as [r c d], b as [r' c' d']. unfold mwf, meq, MatrixTheory.ent, entry. cbn [mrows mcols mdata]. intros Wa Wb.
  assert (F2 : forall (x y : list R), length x = length y -> ((forall p, p < length x -> nth p x O == nth p y O) <-> Forall2 req x y)).
  { induction x as [|u x IH]; intros [|v y] L; try discriminate.
    - split; [constructor|]. intros _ p Hp. cbn in Hp. lia.
    - cbn in L. injection L as L. split.
      + intros H. constructor; [apply (H 0); cbn; lia|]. apply IH; [exact L|]. intros p Hp. apply (H (S p)). cbn. lia.
      + intros H. inversion H; subst. intros [|p] Hp; cbn; [assumption|]. apply IH; auto. cbn in Hp. lia. }
  split; intros [<- [<- H]]; (split; [reflexivity|]; split; [reflexivity|]).
  - intros i j Hi Hj. apply F2; [congruence|exact H|]. rewrite Wa. now apply pos_lt.
  - apply F2; [congruence|]. rewrite Wa. intros p Hp. destruct (pos_split r c p Hp) as [A [B C]]. rewrite C. now apply H.
Qed.
#[global] Instance meq_equiv : Equivalence meq.
Proof.
  split.
  - intros a. repeat split. induction (mdata a); constructor; [reflexivity|assumption].
  - intros a b [A [B C]]. repeat split; auto. induction C; constructor; [now symmetry|assumption].
  - intros a b c [A [B C]] [A' [B' C']]. split; [congruence|]. split; [congruence|]. revert C'. generalize (mdata c). clear - C Req.
    induction C; intros z HZ; inversion HZ; subst; constructor; [etransitivity; eassumption|auto].
Qed.
Definition prod (a b : mat R) : mat R := mkM (mrows a) (mcols b) (prod_data O radd rmul a b).
Lemma prod_wf a b : mwf (prod a b). Proof. unfold mwf, prod. cbn. apply prod_data_length. Qed.
Lemma mul_ok a b : mcols a = mrows b -> mmul a b = Ok (prod a b). Proof. apply mat_mul_eq. Qed.
Lemma prod_e a b i j : i < mrows a -> j < mcols b -> ent (prod a b) i j = rsum (mcols a) (fun k => rmul (ent a i k) (ent b k j)).
Proof. apply prod_ent. Qed.
Lemma prod_meq a a' b b' : mwf a -> mwf a' -> mwf b -> mwf b' -> mcols a = mrows b -> meq a a' -> meq b b' -> meq (prod a b) (prod a' b').
Proof.
  intros Wa Wa' Wb Wb' C Ha Hb. apply meq_ent in Ha; auto. apply meq_ent in Hb; auto.
  destruct Ha as [A1 [A2 A3]], Hb as [B1 [B2 B3]]. apply meq_ent; auto using prod_wf. split; [exact A1|]. split; [exact B2|].
  intros i j Hi Hj. cbn [prod mrows mcols] in Hi, Hj. rewrite !prod_e by congruence. rewrite <- A2. apply rsum_ext. intros k Hk.
  rewrite A3, B3 by congruence. reflexivity.
Qed.
Lemma prod_assoc a b c : mcols a = mrows b -> mcols b = mrows c -> meq (prod (prod a b) c) (prod a (prod b c)).
Proof.
  intros H1 H2. apply meq_ent; auto using prod_wf. split; [reflexivity|]. split; [reflexivity|]. intros i j Hi Hj. cbn [prod mrows mcols] in Hi, Hj.
  rewrite !prod_e by (cbn; assumption). cbn [prod mrows mcols].
  transitivity (rsum (mcols b) (fun k => rsum (mcols a) (fun l => rmul (rmul (ent a i l) (ent b l k)) (ent c k j)))).
  - apply rsum_ext. intros k Hk. rewrite prod_e by assumption. apply rsum_mulr.
  - rewrite rsum_swap. apply rsum_ext. intros l Hl. rewrite prod_e by congruence. rewrite rsum_mull. apply rsum_ext. intros k Hk. ring.
Qed.
Definition is_identity (n : nat) (m : mat R) : Prop :=
  mwf m /\ mrows m = n /\ mcols m = n /\ forall i j, i < n -> j < n -> ent m i j = if i =? j then I else O.
Lemma identity_ok n : exists m, mat_identity O I (Z.of_nat n) = Ok m /\ is_identity n m.
Proof. unfold mat_identity. destruct (scalar_ok O n I) as [m [E H]]. exists m. split; [exact E|exact H]. Qed.
Lemma prod_id_l n e a : is_identity n e -> mwf a -> mrows a = n -> meq (prod e a) a.
Proof.
  intros [W [E1 [E2 E3]]] Wa H. apply meq_ent; auto using prod_wf. cbn [prod mrows mcols]. split; [congruence|]. split; [reflexivity|].
  intros i j Hi Hj. rewrite prod_e by assumption. rewrite E2. rewrite E1 in Hi. etransitivity; [|apply (rsum_delta n i (fun k => ent a k j) Hi)].
  apply rsum_ext. intros k Hk. now rewrite E3.
Qed.
Lemma prod_id_r n e a : is_identity n e -> mwf a -> mcols a = n -> meq (prod a e) a.
Proof.
  intros [W [E1 [E2 E3]]] Wa H. apply meq_ent; auto using prod_wf. cbn [prod mrows mcols]. split; [reflexivity|]. split; [congruence|].
  intros i j Hi Hj. rewrite prod_e by assumption. rewrite H. rewrite E2 in Hj. etransitivity; [|apply (rsum_delta n j (fun k => ent a i k) Hj)].
  apply rsum_ext. intros k Hk. rewrite E3 by assumption. rewrite Nat.eqb_sym. ring.
Qed.
(** powers *)
Fixpoint mpow_nat (e m : mat R) (k : nat) : mat R := match k with 0 => e | S k' => prod m (mpow_nat e m k') end.
Section Pow.
Variables (n : nat) (e m : mat R).
Hypothesis (He : is_identity n e) (Wm : mwf m) (Rm : mrows m = n) (Cm : mcols m = n).
Lemma He' : mwf e /\ mrows e = n /\ mcols e = n. Proof. destruct He as [? [? [? _]]]; auto. Qed.
Lemma mpow_shape k : mwf (mpow_nat e m k) /\ mrows (mpow_nat e m k) = n /\ mcols (mpow_nat e m k) = n.
Proof.
  induction k as [|k [A [B C]]]; [apply He'|]. cbn [mpow_nat]. split; [apply prod_wf|]. split; [exact Rm|exact C].
Qed.
Lemma mpow_add a b : meq (mpow_nat e m (a + b)) (prod (mpow_nat e m a) (mpow_nat e m b)).
Proof.
  induction a as [|a IH]; cbn [mpow_nat Nat.add].
  - symmetry. apply (prod_id_l n e _ He); apply mpow_shape.
  - pose proof (mpow_shape a) as [A1 [A2 A3]]. pose proof (mpow_shape b) as [B1 [B2 B3]]. pose proof (mpow_shape (a + b)) as [D1 [D2 D3]].
    etransitivity; [|symmetry; apply prod_assoc; congruence].
    apply prod_meq; auto using prod_wf; [congruence|reflexivity].
Qed.
Lemma pow_loop_ok fuel : forall exp acc pow2 a b, (0 <= exp)%Z -> 0 < fuel -> (exp = 0%Z \/ S (Z.to_nat (Z.log2 exp)) < fuel) ->
  mwf acc -> mrows acc = n -> mcols acc = n -> mwf pow2 -> mrows pow2 = n -> mcols pow2 = n ->
  meq acc (mpow_nat e m a) -> meq pow2 (mpow_nat e m b) ->
  exists r, mat_pow_loop O radd rmul fuel exp acc pow2 = Ok r /\ mwf r /\ mrows r = n /\ mcols r = n /\ meq r (mpow_nat e m (a + b * Z.to_nat exp)).
Proof.
  induction fuel as [|fuel IH]; intros exp acc pow2 a b Hexp HF0 HF Wa Ra Ca Wp Rp Cp Ha Hp; [lia|]. cbn [mat_pow_loop].
  destruct (Z.eqb_spec exp 0) as [->|N].
  - exists acc. split; [reflexivity|]. repeat (split; [assumption|]). cbn [Z.to_nat]. now rewrite Nat.mul_0_r, Nat.add_0_r.
  - destruct HF as [?|HF]; [contradiction|]. assert (HF1 : 0 < fuel) by lia.
    assert (HF2 : (exp / 2 = 0)%Z \/ S (Z.to_nat (Z.log2 (exp / 2))) < fuel).
    { destruct (Z.eq_dec exp 1) as [->|]; [left; reflexivity|right]. replace (exp / 2)%Z with (Z.shiftr exp 1) by (rewrite Z.shiftr_div_pow2 by lia; reflexivity).
      rewrite Z.log2_shiftr by lia. pose proof (Z.log2_le_mono 2 exp ltac:(lia)). change (Z.log2 2) with 1%Z in *. lia. }
    pose proof (Z.div_mod exp 2 ltac:(lia)) as DM. pose proof (Z.mod_pos_bound exp 2 ltac:(lia)) as MB.
    assert (D0 : (0 <= exp / 2)%Z) by (apply Z.div_pos; lia).
    rewrite (mul_ok pow2 pow2) by congruence.
    assert (Hp2 : meq (prod pow2 pow2) (mpow_nat e m (b + b))).
    { etransitivity; [apply prod_meq; [exact Wp|apply (mpow_shape b)|exact Wp|apply (mpow_shape b)|congruence|exact Hp|exact Hp]|]. symmetry. apply mpow_add. }
    destruct (Z.eqb_spec (exp mod 2) 1) as [M|M].
    + rewrite (mul_ok acc pow2) by congruence. cbn [bind].
      destruct (IH (exp / 2)%Z (prod acc pow2) (prod pow2 pow2) (a + b) (b + b)) as [r [E [A [B [C D]]]]]; auto using prod_wf.
      * etransitivity; [apply prod_meq; [exact Wa|apply (mpow_shape a)|exact Wp|apply (mpow_shape b)|congruence|exact Ha|exact Hp]|]. symmetry. apply mpow_add.
      * exists r. split; [exact E|]. repeat (split; [assumption|]). replace (a + b * Z.to_nat exp) with (a + b + (b + b) * Z.to_nat (exp / 2)); [exact D|].
        replace (Z.to_nat exp) with (2 * Z.to_nat (exp / 2) + 1) by lia. lia.
    + cbn [bind].
      destruct (IH (exp / 2)%Z acc (prod pow2 pow2) a (b + b)) as [r [E [A [B [C D]]]]]; auto using prod_wf.
      exists r. split; [exact E|]. repeat (split; [assumption|]). replace (a + b * Z.to_nat exp) with (a + (b + b) * Z.to_nat (exp / 2)); [exact D|].
      replace (Z.to_nat exp) with (2 * Z.to_nat (exp / 2)) by lia. lia.
Qed.
End Pow.
End Ring.
