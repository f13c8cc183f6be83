(** StrandBlocks.v – a matrix in block triangular form whose diagonal blocks are known is
    known, as soon as it commutes with a matrix that has two different powers of v as its
    diagonal blocks. *)
From Verif Require Import Base ModelPoly SpecPoly PolyTheory PropsPoly ModelMatrix SpecMatrix MatrixTheory NumTheory.
From Verif Require Import SpecBraid BraidTheory ModelTL ModelTLMor ModelRep SpecRep RepTheory PropsRep FullTwist PropsPolymat3 PropsStable.
From Coq Require Import Ring Setoid Morphisms Permutation.
Local Open Scope nat_scope.
#[local] Existing Instance neqp_equiv.
#[local] Instance nadd_proper p : Proper (neqp p ==> neqp p ==> neqp p) nadd. Proof. intros x x' H y y' K. now apply (nringp_ext p). Qed.
#[local] Instance nmul_proper p : Proper (neqp p ==> neqp p ==> neqp p) nmul. Proof. intros x x' H y y' K. now apply (nringp_ext p). Qed.
#[local] Instance nneg_proper p : Proper (neqp p ==> neqp p) nneg. Proof. intros x x' H. now apply (nringp_ext p). Qed.
#[local] Instance nsub_proper p : Proper (neqp p ==> neqp p ==> neqp p) nsub.
Proof. intros x x' H y y' K. etransitivity; [apply (Rsub_def (nringp p))|]. rewrite H, K. symmetry. apply (Rsub_def (nringp p)). Qed.

(** ** sums over lists of indices *)
Section Sums.
Variable p : Z.
Add Ring nringpr : (nringp p) (setoid (neqp_equiv p) (nringp_ext p)).
Local Notation "a == b" := (neqp p a b) (at level 70).
Definition ls (l : list nat) (f : nat -> num) : num := fold_right (fun x a => nadd (f x) a) (NI 0) l.
Lemma ls_ext l f g : (forall x, In x l -> f x == g x) -> ls l f == ls l g.
Proof. induction l as [|x l IH]; intros H; [reflexivity|]. cbn [ls fold_right]. fold (ls l f). fold (ls l g). rewrite (H x (or_introl eq_refl)), IH; [reflexivity|]. intros y Hy. apply H. now right. Qed.
Lemma ls_app l l' f : ls (l ++ l') f == nadd (ls l f) (ls l' f).
Proof. induction l as [|x l IH]; [change (ls l' f == nadd (NI 0) (ls l' f)); ring|change (nadd (f x) (ls (l ++ l') f) == nadd (nadd (f x) (ls l f)) (ls l' f)); rewrite IH; ring]. Qed.
Lemma ls_map g l f : ls (map g l) f = ls l (fun x => f (g x)).
Proof. induction l as [|x l IH]; [reflexivity|]. cbn [ls fold_right map]. fold (ls (map g l) f). now rewrite IH. Qed.
Lemma ls_perm l l' f : Permutation l l' -> ls l f == ls l' f.
Proof. induction 1 as [|x l l' _ IH|x y l|l l' l'' _ IH1 _ IH2]; [reflexivity| | |etransitivity; eassumption]; cbn [ls fold_right]; [fold (ls l f); fold (ls l' f); now rewrite IH|fold (ls l f); ring]. Qed.
Lemma ls_rsum d f : rsum (NI 0) nadd d f == ls (seq 0 d) f.
Proof. induction d as [|d IH]; [reflexivity|]. cbn [rsum]. rewrite IH, seq_S, ls_app. cbn [ls fold_right Nat.add]. ring. Qed.
Lemma ls_zero l f : (forall x, In x l -> f x == NI 0) -> ls l f == NI 0.
Proof. induction l as [|x l IH]; intros H; [reflexivity|]. cbn [ls fold_right]. fold (ls l f). rewrite (H x (or_introl eq_refl)), IH; [ring|]. intros y Hy. apply H. now right. Qed.
Lemma ls_delta_l d i c f : i < d -> ls (seq 0 d) (fun k => nmul (if i =? k then c else NI 0) (f k)) == nmul c (f i).
Proof.
  intros Hi. rewrite <- ls_rsum. transitivity (rsum (NI 0) nadd d (fun k => nmul (if i =? k then NI 1 else NI 0) (nmul c (f k)))).
  - apply (rsum_ext (NI 0) nadd nmul nneg (neqp p) _ (nringp_ext p)). intros k _. destruct (i =? k); ring.
  - now apply (rsum_delta (NI 0) (NI 1) nadd nmul nsub nneg (neqp p) _ (nringp_ext p) (nringp p) d i (fun k => nmul c (f k))).
Qed.
End Sums.

Lemma numcoef_vmul c x e : numcoef (nmul (NL (vpow c)) x) e = numcoef x (e - c).
Proof.
  rewrite !numcoef_coerce. pose proof (coerce_mul (NL (vpow c)) x e) as K. rewrite K. cbn [coerce].
  rewrite !coef_L, L_mul. unfold vpow. rewrite L_make. cbn [lin]. rewrite Z.add_0_r, Z.mul_1_l. apply L_ext. intros f. unfold delta. destruct (Z.eqb_spec f (e - c)), (Z.eqb_spec (c + f) e); lia.
Qed.
(** a sequence that is zero far out and periodic modulo p is zero modulo p *)
Lemma period_zero (p a b : Z) (D : Z -> Z) (B : Z) : a <> b -> (forall e, B < e -> D e = 0)%Z -> (forall e, (p | D (e - a) - D (e - b))%Z) -> forall e, (p | D e)%Z.
Proof.
  intros N HB H. assert (Q : exists s, (0 < s)%Z /\ forall e, (p | D e - D (e + s))%Z).
  { destruct (Z.lt_ge_cases a b) as [L|L].
    - exists (b - a)%Z. split; [lia|]. intros e. pose proof (H (e + b)%Z) as K. replace (e + b - b)%Z with e in K by lia. replace (e + b - a)%Z with (e + (b - a))%Z in K by lia. destruct K as [k K]. exists (- k)%Z. lia.
    - exists (a - b)%Z. split; [lia|]. intros e. pose proof (H (e + a)%Z) as K. replace (e + a - a)%Z with e in K by lia. replace (e + a - b)%Z with (e + (a - b))%Z in K by lia. exact K. }
  destruct Q as (s & Hs & Q). assert (G : forall k e, (B - Z.of_nat k < e)%Z -> (p | D e)%Z).
  { induction k as [|k IH]; intros e He; [rewrite HB by lia; apply Z.divide_0_r|]. destruct (IH (e + s)%Z ltac:(lia)) as [x X]. destruct (Q e) as [y Y]. exists (x + y)%Z. lia. }
  intros e. apply (G (Z.to_nat (B - e + 1)) e). lia.
Qed.

Section Blocks.
Variables (p : Z) (n D d1 d0 : nat) (X A1 A0 : bword -> nat -> nat -> num) (f1 f0 : nat -> nat) (T : bword) (a b : Z).
Local Notation "x == y" := (neqp p x y) (at level 70).
Hypothesis (HT : in_range n T) (Hab : 0 < d1 -> 0 < d0 -> a <> b).
Hypothesis PM : Permutation (map f1 (seq 0 d1) ++ map f0 (seq 0 d0)) (seq 0 D).
Hypothesis XM : forall u v i j, in_range n u -> in_range n v -> i < D -> j < D -> X (u ++ v) i j == rsum (NI 0) nadd D (fun k => nmul (X u i k) (X v k j)).
Hypothesis XT : forall w i j, in_range n w -> i < D -> j < D -> X (T ++ w) i j == X (w ++ T) i j.
Hypothesis X11 : forall w i j, in_range n w -> i < d1 -> j < d1 -> X w (f1 i) (f1 j) == A1 w i j.
Hypothesis X00 : forall w i j, in_range n w -> i < d0 -> j < d0 -> X w (f0 i) (f0 j) == A0 w i j.
Hypothesis X01 : forall w i j, in_range n w -> i < d0 -> j < d1 -> X w (f0 i) (f1 j) == NI 0.
Hypothesis T1 : forall i j, i < d1 -> j < d1 -> A1 T i j == (if i =? j then NL (vpow a) else NI 0).
Hypothesis T0 : forall i j, i < d0 -> j < d0 -> A0 T i j == (if i =? j then NL (vpow b) else NI 0).
Add Ring nringpr2 : (nringp p) (setoid (neqp_equiv p) (nringp_ext p)).
Lemma f1_lt i : i < d1 -> f1 i < D.
Proof using All. intros H. assert (I : In (f1 i) (seq 0 D)) by (apply (Permutation_in _ PM), in_or_app; left; apply in_map, in_seq; lia). apply in_seq in I. lia. Qed.
Lemma f0_lt i : i < d0 -> f0 i < D.
Proof using All. intros H. assert (I : In (f0 i) (seq 0 D)) by (apply (Permutation_in _ PM), in_or_app; right; apply in_map, in_seq; lia). apply in_seq in I. lia. Qed.
Lemma f_cases k : k < D -> (exists i, i < d1 /\ k = f1 i) \/ (exists i, i < d0 /\ k = f0 i).
Proof using All.
  intros H. assert (I : In k (map f1 (seq 0 d1) ++ map f0 (seq 0 d0))) by (apply (Permutation_in _ (Permutation_sym PM)), in_seq; lia). apply in_app_or in I.
  destruct I as [I|I]; apply in_map_iff in I; destruct I as (i & <- & I); apply in_seq in I; [left|right]; exists i; split; auto; lia.
Qed.
Lemma X_split u v i j : in_range n u -> in_range n v -> i < D -> j < D ->
  X (u ++ v) i j == nadd (ls (seq 0 d1) (fun k => nmul (X u i (f1 k)) (X v (f1 k) j))) (ls (seq 0 d0) (fun k => nmul (X u i (f0 k)) (X v (f0 k) j))).
Proof using All. intros Hu Hv Hi Hj. rewrite (XM u v i j) by auto. rewrite ls_rsum. rewrite <- (ls_perm p _ _ _ PM). rewrite ls_app, !ls_map. reflexivity. Qed.
Lemma corner w i j : in_range n w -> i < d1 -> j < d0 ->
  nadd (nmul (NL (vpow a)) (X w (f1 i) (f0 j))) (ls (seq 0 d0) (fun k => nmul (X T (f1 i) (f0 k)) (A0 w k j))) ==
  nadd (ls (seq 0 d1) (fun k => nmul (A1 w i k) (X T (f1 k) (f0 j)))) (nmul (NL (vpow b)) (X w (f1 i) (f0 j))).
Proof using All.
  intros Hw Hi Hj. pose proof (XT w (f1 i) (f0 j) Hw (f1_lt i Hi) (f0_lt j Hj)) as K. rewrite (X_split T w), (X_split w T) in K by auto using f1_lt, f0_lt.
  rewrite <- (ls_delta_l p d1 i (NL (vpow a)) (fun k => X w (f1 k) (f0 j)) Hi).
  transitivity (nadd (ls (seq 0 d1) (fun k => nmul (X T (f1 i) (f1 k)) (X w (f1 k) (f0 j)))) (ls (seq 0 d0) (fun k => nmul (X T (f1 i) (f0 k)) (X w (f0 k) (f0 j))))).
  - apply (nringp_ext p).
    + apply ls_ext. intros k Hk. apply in_seq in Hk. rewrite (X11 T i k), (T1 i k) by (auto; lia). reflexivity.
    + apply ls_ext. intros k Hk. apply in_seq in Hk. rewrite (X00 w k j) by (auto; lia). reflexivity.
  - rewrite K. apply (nringp_ext p).
    + apply ls_ext. intros k Hk. apply in_seq in Hk. rewrite (X11 w i k) by (auto; lia). reflexivity.
    + transitivity (ls (seq 0 d0) (fun k => nmul (if j =? k then NL (vpow b) else NI 0) (X w (f1 i) (f0 k)))); [|now rewrite (ls_delta_l p d0 j (NL (vpow b)) (fun k => X w (f1 i) (f0 k)) Hj)].
      apply ls_ext. intros k Hk. apply in_seq in Hk. rewrite (X00 T k j), (T0 k j) by (auto; lia). rewrite (Nat.eqb_sym k j). ring.
Qed.
Theorem blocks_known u w : in_range n u -> in_range n w -> (forall i j, i < d1 -> j < d1 -> A1 u i j == A1 w i j) -> (forall i j, i < d0 -> j < d0 -> A0 u i j == A0 w i j) -> forall i j, i < D -> j < D -> X u i j == X w i j.
Proof using All.
  intros Hu Hw E1 E0 i j Hi Hj. destruct (f_cases i Hi) as [(x & Hx & ->)|(x & Hx & ->)], (f_cases j Hj) as [(y & Hy & ->)|(y & Hy & ->)].
  - rewrite !X11 by auto. now apply E1.
  - pose proof (corner u x y Hu Hx Hy) as Ku. pose proof (corner w x y Hw Hx Hy) as Kw.
    assert (Q0 : ls (seq 0 d0) (fun k => nmul (X T (f1 x) (f0 k)) (A0 u k y)) == ls (seq 0 d0) (fun k => nmul (X T (f1 x) (f0 k)) (A0 w k y))) by (apply ls_ext; intros k Hk; apply in_seq in Hk; rewrite (E0 k y) by (auto; lia); reflexivity).
    assert (Q1 : ls (seq 0 d1) (fun k => nmul (A1 u x k) (X T (f1 k) (f0 y))) == ls (seq 0 d1) (fun k => nmul (A1 w x k) (X T (f1 k) (f0 y)))) by (apply ls_ext; intros k Hk; apply in_seq in Hk; rewrite (E1 x k) by (auto; lia); reflexivity).
    rewrite Q0, Q1 in Ku. set (S0 := ls (seq 0 d0) _) in *. set (S1 := ls (seq 0 d1) _) in *. set (yu := X u (f1 x) (f0 y)) in *. set (yw := X w (f1 x) (f0 y)) in *. clearbody S0 S1 yu yw.
    assert (K : nadd (nmul (NL (vpow a)) yu) (nmul (NL (vpow b)) yw) == nadd (nmul (NL (vpow b)) yu) (nmul (NL (vpow a)) yw)).
    { transitivity (nadd (nsub (nadd (nmul (NL (vpow a)) yu) S0) S0) (nmul (NL (vpow b)) yw)); [ring|]. rewrite Ku. transitivity (nadd (nsub (nadd S1 (nmul (NL (vpow b)) yw)) S0) (nmul (NL (vpow b)) yu)); [ring|]. rewrite <- Kw. ring. }
    apply neqp_congr. apply neqp_congr in K. unfold congr in K |- *. destruct (numcoef_bounded yu) as [B1 HB1]. destruct (numcoef_bounded yw) as [B2 HB2].
    apply (period_zero p a b (fun e => numcoef yu e - numcoef yw e)%Z (Z.max B1 B2)); [apply Hab; lia|intros e He; cbv beta; rewrite HB1, HB2 by lia; reflexivity|]. intros e. cbv beta. specialize (K e).
    assert (NA : forall s t, numcoef (nadd s t) e = (numcoef s e + numcoef t e)%Z). { intros s t. rewrite !numcoef_coerce, (coerce_add s t e), !coef_L. apply L_add. }
    rewrite !NA, !numcoef_vmul in K. destruct K as [k K]. exists k. lia.
  - rewrite !X01 by auto. reflexivity.
  - rewrite !X00 by auto. now apply E0.
Qed.
End Blocks.
