(** SymWords.v – relations on braid words that forget over and under: a word and the
    permutation it spells; powers. *)
From Verif Require Import Base ModelPerm PermTheory WeakOrder PermWords SpecBraid BraidTheory.
From Coq Require Import Factorial Permutation.
Local Open Scope nat_scope.

Section Sym.
Variable n : nat.
Variable S : bword -> bword -> Prop.
Hypothesis S_sym : forall u v, S u v -> S v u.
Hypothesis S_trans : forall u v w, S u v -> S v w -> S u w.
Hypothesis S_app : forall u u' v v', S u u' -> S v v' -> S (u ++ v) (u' ++ v').
Hypothesis S_be : forall u v, braid_eq n u v -> S u v.
Hypothesis S_flip : forall i, i + 1 < n -> S [(i, true)] [(i, false)].
Lemma S_refl u : S u u. Proof using S_be. apply S_be, be_refl. Qed.
Definition under (w : bword) : list nat := prodw n (map fst w).
Lemma S_letter i e : i + 1 < n -> S [(i, e)] [(i, true)].
Proof using S_sym S_be S_flip. intros H. destruct e; [apply S_refl|now apply S_sym, S_flip]. Qed.
Lemma S_square i : i + 1 < n -> S [(i, true); (i, true)] [].
Proof using S_sym S_be S_flip S_app S_trans.
  intros H. apply (S_trans _ ([(i, true)] ++ [(i, false)])); [apply (S_app [(i, true)] [(i, true)] [(i, true)] [(i, false)]); [apply S_refl|now apply S_flip]|]. apply S_be. apply (be_cancel n i true H).
Qed.
Lemma S_word w : in_range n w -> exists u, redw n u (under w) /\ S w (pword u).
Proof using S_sym S_be S_flip S_app S_trans.
  induction 1 as [|[i e] w Hi Hw (u & RU & SU)]; [exists []; split; [constructor|apply S_refl]|]. cbn [fst] in Hi. unfold under. cbn [map fst prodw fold_right]. fold (prodw n (map fst w)). fold (under w).
  assert (P : isperm n (under w)) by (eapply redw_perm; exact RU).
  assert (K : S ((i, e) :: w) ([(i, true)] ++ pword u)) by (apply (S_app [(i, e)] [(i, true)] w (pword u)); [now apply S_letter|exact SU]).
  destruct (Ldes_dec (under w) i) as [D|D].
  - destruct (Ldes_split n (under w) i P Hi D) as [D1 D2]. assert (P' : isperm n (pcomp (sg n i) (under w))) by (apply isperm_pcomp; [now apply isperm_sg|exact P]).
    destruct (redw_ex n _ P') as [u' RU']. exists u'. split; [exact RU'|]. apply (S_trans _ _ _ K).
    assert (R2 : redw n (i :: u') (under w)) by (rewrite D2; now constructor).
    apply (S_trans _ ([(i, true)] ++ pword (i :: u'))); [apply S_app; [apply S_refl|apply S_be; now apply (matsumoto n u (i :: u') (under w))]|].
    change ([(i, true)] ++ pword (i :: u')) with ([(i, true); (i, true)] ++ pword u'). apply (S_trans _ ([] ++ pword u')); [apply S_app; [now apply S_square|apply S_refl]|apply S_refl].
  - exists (i :: u). split; [constructor; auto; now apply pred_sg_l|exact K].
Qed.
Lemma S_under u v : in_range n u -> in_range n v -> under u = under v -> S u v.
Proof using S_sym S_be S_flip S_app S_trans.
  intros Ru Rv E. destruct (S_word u Ru) as (x & RX & SX). destruct (S_word v Rv) as (y & RY & SY). rewrite E in RX. apply (S_trans _ _ _ SX). apply (S_trans _ (pword y)); [|now apply S_sym]. apply S_be. now apply (matsumoto n x y (under v)).
Qed.
Lemma pow_range w k : in_range n w -> in_range n (concat (repeat w k)).
Proof using Type. intros H. induction k as [|k IH]; [constructor|]. cbn [repeat concat]. apply in_range_app. now split. Qed.
Lemma pow_add (w : bword) a b : concat (repeat w (a + b)) = concat (repeat w a) ++ concat (repeat w b).
Proof using Type. now rewrite repeat_app, concat_app. Qed.
Lemma under_perm w : in_range n w -> isperm n (under w).
Proof using Type. intros H. apply prodw_perm. induction H; constructor; auto. Qed.
Lemma repeats {A} (dec : forall x y : A, {x = y} + {x <> y}) (f : nat -> A) (l : list A) : (forall k, In (f k) l) -> exists a b, a < b <= length l /\ f a = f b.
Proof using Type.
  intros H. assert (K : forall m, NoDup (map f (seq 0 m)) \/ exists a b, a < b < m /\ f a = f b).
  { induction m as [|m [ND|(a & b & Hab & E)]]; [left; constructor| |right; exists a, b; split; [lia|exact E]].
    destruct (in_dec dec (f m) (map f (seq 0 m))) as [I|N].
    - right. apply in_map_iff in I. destruct I as (a & E & I). apply in_seq in I. exists a, m. split; [lia|exact E].
    - left. rewrite seq_S, map_app. apply (Permutation.Permutation_NoDup (l := f m :: map f (seq 0 m))); [apply Permutation.Permutation_cons_append|]. now constructor. }
  destruct (K (Datatypes.S (length l))) as [ND|(a & b & Hab & E)]; [|exists a, b; split; [lia|exact E]]. exfalso.
  assert (I : incl (map f (seq 0 (Datatypes.S (length l)))) l) by (intros x Hx; apply in_map_iff in Hx; destruct Hx as (k & <- & _); apply H).
  pose proof (NoDup_incl_length ND I) as Q. rewrite map_length, seq_length in Q. lia.
Qed.
(** some positive power of a word is related to the empty word *)
Lemma S_torsion w : in_range n w -> exists k, 0 < k <= fact n /\ S (concat (repeat w k)) [].
Proof using S_sym S_be S_flip S_app S_trans.
  intros Hw. destruct (repeats (list_eq_dec Nat.eq_dec) (fun k => under (concat (repeat w k))) (elements n)) as (a & b & Hab & E).
  { intros k. apply elements_in. now apply under_perm, pow_range. }
  rewrite elements_length in Hab. exists (b - a). split; [lia|].
  assert (K : S (concat (repeat w a)) (concat (repeat w a) ++ concat (repeat w (b - a)))). { rewrite <- pow_add. replace (a + (b - a)) with b by lia. apply S_under; [now apply pow_range..|exact E]. }
  set (u := concat (repeat w a)) in *. set (v := concat (repeat w (b - a))) in *. assert (Ru : in_range n u) by now apply pow_range.
  assert (C : S (winv u ++ u) (winv u ++ u ++ v)) by (apply S_app; [apply S_refl|exact K]).
  apply (S_trans _ (winv u ++ u ++ v)); [apply S_be; rewrite app_assoc; apply be_sym; apply (be_trans n _ ([] ++ v)); [apply be_app; [now apply be_inv_l|apply be_refl]|apply be_refl]|].
  apply (S_trans _ (winv u ++ u)); [now apply S_sym|]. apply S_be. now apply be_inv_l.
Qed.
End Sym.
