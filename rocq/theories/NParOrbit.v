(** NParOrbit.v – the blocks of a noncrossing permutation are its orbits. *)
From Verif Require Import Base ModelPerm PermTheory NCTheory CycleTheory SpecBraid SpecPerm PropsPerm2.
From Coq Require Import Permutation Sorted.

Section Orbit.
Variable n : nat.
Notation P := (isperm n).
Notation Q := (NCTheory.Q n).
Notation ed := (NCTheory.ed n).
Notation sm := (NCTheory.sm n).
Notation so := same_orbit.

Lemma so_refl w x : so w x x. Proof. now exists 0. Qed.
Lemma so_step w x : so w x (ap w x). Proof. now exists 1. Qed.
Lemma so_trans w x y z : so w x y -> so w y z -> so w x z.
Proof.
  intros [j <-] [k <-]. exists (k + j). change (it w (k + j) x = it w k (it w j x)). apply it_add.
Qed.
Lemma so_lt w x y : P w -> x < n -> so w x y -> y < n.
Proof. intros Hw Hx [k <-]. now apply (it_lt n w Hw k x). Qed.
Lemma so_sym w x y : P w -> x < n -> so w x y -> so w y x.
Proof.
  intros Hw Hx H. destruct (disjoint_cycles_ok n w Hw) as [cs [_ [HP [HC _]]]].
  destruct (c_ex n cs HP x Hx) as [c [Hc Hxc]]. apply (so_of n w cs HC c); auto. now apply (so_in n w cs HC c x).
Qed.

Lemma so_sm w x y : Q w -> x < n -> so w x y -> sm w x y.
Proof.
  intros [Hw N] Hx [k <-]. induction k as [|k IH]; [apply sm_refl|]. apply (sm_trans n w _ _ _ IH).
  apply N. now apply (it_lt n w Hw k x).
Qed.
Lemma ed_so w : Q w -> forall a b, ed w a b -> so w b a.
Proof.
  intros [Hw N] a b. remember (b - a) as d eqn:Ed. revert b Ed. induction d as [d IH] using lt_wf_ind. intros b -> K.
  pose proof K as [L [B H]]. pose proof (H b B) as Hb. destruct (Nat.eq_dec (ap w b) a) as [E0|E0].
  - rewrite <- E0. apply so_step.
  - assert (Kb : ed w (ap w b) b).
    { apply sm_ed; [lia|]. apply sm_sym. now apply N. }
    apply (so_trans w b (ap w b) a); [apply so_step|].
    apply (IH (ap w b - a)); [lia|reflexivity|]. apply (ed_left n w a (ap w b) b); [lia|exact K|exact Kb].
Qed.
Lemma sm_so w x y : Q w -> x < n -> (sm w x y <-> so w x y).
Proof.
  intros Hw Hx. split; [|now apply so_sm]. intros [<-|[K|K]]; [apply so_refl| |now apply ed_so].
  pose proof K as [L [B _]]. apply so_sym; [apply Hw|lia|now apply ed_so].
Qed.

(** noncrossing means: the cycles descend and no two cross *)
Theorem NC_spec w : P w -> (NC n w <-> descends w /\ ~ crossing w).
Proof.
  intros Hw. pose proof (isperm_length n w Hw) as Lw. split.
  - intros N. assert (Hq : Q w) by (split; assumption). split.
    + intros x Hx. rewrite Lw in Hx. assert (Z : forall y, so w x y -> sm w x y) by (intros y; now apply so_sm).
      destruct (le_lt_dec x (ap w x)) as [L|L]; [right|left; split; [exact L|]]; intros y Hy; [|intros Ly].
      * apply Z in Hy. destruct Hy as [<-|[K|K]]; [lia| |]; destruct K as [A [B K]]; specialize (K x Hx); lia.
      * apply Z in Hy. assert (K : ed w y x) by (apply sm_ed; [exact Ly|now apply sm_sym]). destruct K as [A [B K]]. specialize (K x Hx). lia.
    + intros [a [b [c [d [L1 [L2 [L3 [L4 [A [B C]]]]]]]]]]. rewrite Lw in L4. apply C.
      assert (Kac : ed w a c) by (apply sm_ed; [lia|]; apply so_sm; [exact Hq|lia|exact A]).
      assert (Kbd : ed w b d) by (apply sm_ed; [lia|]; apply so_sm; [exact Hq|lia|exact B]).
      destruct (straddle n w a c b d Kac Kbd) as [S _]; [unfold side; lia|]. apply sm_so; [exact Hq|lia|now apply sm_sym].
  - intros [D X] i Hi. pose proof (isperm_app_lt n w i Hw Hi) as Bi.
    assert (J : forall j, j < n -> ap w i = ap w j -> i = j) by (intros j Hj E0; now apply (isperm_inj n w)).
    assert (Sj : forall x y, x < n -> so w x y -> so w y x) by (intros x y; now apply so_sym).
    assert (dec : forall j, j < n -> so w i j \/ ~ so w i j).
    { intros j Hj. destruct (disjoint_cycles_ok n w Hw) as [cs [_ [HP [HC _]]]].
      destruct (c_ex n cs HP i Hi) as [c [Hc Hic]]. destruct (in_dec Nat.eq_dec j c) as [K|K].
      - left. now apply (so_of n w cs HC c).
      - right. intros S. apply K. now apply (so_in n w cs HC c i). }
    (* an orbit other than that of i does not straddle i and w(i) *)
    assert (O : forall j, j < n -> ~ so w i j -> forall lo hi, (lo = i /\ hi = ap w i \/ lo = ap w i /\ hi = i) ->
      lo < hi -> (lo < j < hi <-> lo < ap w j < hi)).
    { intros j Hj NS lo hi Hlh Lh. pose proof (isperm_app_lt n w j Hw Hj) as Bj.
      assert (Hlo : lo < n) by lia. assert (Hhi : hi < n) by lia.
      assert (Slo : so w lo hi) by (destruct Hlh as [[-> ->]|[-> ->]]; [apply so_step|apply Sj; [exact Hi|apply so_step]]).
      assert (Sil : so w i lo) by (destruct Hlh as [[-> ->]|[-> ->]]; [apply so_refl|apply so_step]).
      assert (Sih : so w i hi) by (apply (so_trans w i lo); assumption).
      assert (Nwj : ~ so w i (ap w j)).
      { intros K. apply NS. apply (so_trans w i (ap w j)); [exact K|]. apply Sj; [exact Hj|apply so_step]. }
      assert (ND : forall x y, (x = lo \/ x = hi) -> (y = j \/ y = ap w j) -> x <> y /\ ~ so w x y /\ ~ so w y x).
      { intros x y Hx Hy. assert (Sx : so w i x) by (destruct Hx as [->| ->]; assumption).
        assert (Ny : ~ so w i y) by (destruct Hy as [->| ->]; assumption).
        assert (By : y < n) by (destruct Hy as [->| ->]; assumption).
        split; [intros ->; contradiction|]. split; intros K; apply Ny.
        - apply (so_trans w i x); assumption.
        - apply (so_trans w i x); [exact Sx|]. now apply Sj. }
      assert (Sjj : so w j (ap w j)) by apply so_step. assert (Sjj' : so w (ap w j) j) by (apply Sj; assumption).
      destruct (ND lo j) as [? [? ?]]; auto. destruct (ND hi j) as [? [? ?]]; auto. destruct (ND lo (ap w j)) as [? [? ?]]; auto. destruct (ND hi (ap w j)) as [? [? ?]]; auto.
      split; intros K; (destruct (lt_dec lo (ap w j)), (lt_dec (ap w j) hi), (lt_dec lo j), (lt_dec j hi); try lia); exfalso; apply X.
      - exists lo, j, hi, (ap w j). repeat split; try assumption; try lia.
      - exists (ap w j), lo, j, hi. repeat split; try assumption; try lia.
      - exists lo, (ap w j), hi, j. repeat split; try assumption; try lia.
      - exists j, lo, (ap w j), hi. repeat split; try assumption; try lia. }
    pose proof (D i) as Di. rewrite Lw in Di. specialize (Di Hi).
    destruct (Nat.lt_trichotomy i (ap w i)) as [L|[K|L]]; [right; left|now left|right; right].
    + destruct Di as [[Di _]|Di]; [lia|]. split; [exact L|]. split; [exact Bi|]. intros j Hj. destruct (dec j Hj) as [S|S].
      * pose proof (Di j S) as B1. pose proof (Di (ap w j) (so_trans w i j _ S (so_step w j))) as B2. specialize (J j Hj).
        assert (J' : i = j -> ap w i = ap w j) by now intros ->. clear - B1 B2 J J' L. lia.
      * pose proof (O j Hj S i (ap w i) ltac:(auto) L) as B1. assert (i <> j) by (intros ->; apply S, so_refl). 
        assert (ap w i <> j) by (intros <-; apply S, so_step). specialize (J j Hj).
        assert (ap w j <> i).
        { intros K. apply S. apply Sj; [exact Hj|]. rewrite <- K. apply so_step. }
        assert (J' : ap w i <> ap w j) by (intros K; now apply J in K). clear - B1 H H0 H1 J' L. lia.
    + destruct Di as [[_ Di]|Di]; [|specialize (Di i (so_refl w i)); lia].
      split; [exact L|]. split; [exact Hi|]. intros j Hj. destruct (dec j Hj) as [S|S].
      * pose proof (Di j S) as B1. pose proof (Di (ap w j) (so_trans w i j _ S (so_step w j))) as B2. specialize (J j Hj).
        assert (J' : i = j -> ap w i = ap w j) by now intros ->. clear - B1 B2 J J' L. lia.
      * pose proof (O j Hj S (ap w i) i ltac:(auto) L) as B1. assert (i <> j) by (intros ->; apply S, so_refl). 
        assert (ap w i <> j) by (intros <-; apply S, so_step). specialize (J j Hj).
        assert (ap w j <> i).
        { intros K. apply S. apply Sj; [exact Hj|]. rewrite <- K. apply so_step. }
        assert (J' : ap w i <> ap w j) by (intros K; now apply J in K). clear - B1 H H0 H1 J' L. lia.
Qed.
End Orbit.
