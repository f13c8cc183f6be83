(** GermAct.v – the group action on normal forms D^d . l over a germ. *)
From Verif Require Import Base Germ GermNF.

Section Act.
Variable G : Germ.
Notation T := (T G).
Notation one := (one G).
Notation D := (D G).
Notation red := (red G).
Notation "x ** y" := (mul G x y) (at level 40, left associativity).
Notation lc := (lc G).
Notation rc := (rc G).
Variable rn : T -> T -> T * T.
Hypothesis rn_ok : forall x y, rnspec G x y (fst (rn x y)) (snd (rn x y)).
Variable eqd : forall x y : T, {x = y} + {x <> y}.

Implicit Types a b c x y z w : T.
Implicit Types l p q r : list T.
Notation lm := (lm G rn).
Notation nf := (nf G).
Notation NF := (NF G rn).

(** tau a = D^-1 a D,  ltau a = D a D^-1. *)
Definition tau a := rc (rc a).
Definition ltau a := lc (lc a).

Lemma tau_ltau a : tau (ltau a) = a.
Proof. unfold tau, ltau. now rewrite !(rc_lc G). Qed.
Lemma ltau_tau a : ltau (tau a) = a.
Proof. unfold tau, ltau. now rewrite !(lc_rc G). Qed.
Lemma tau_inj a b : tau a = tau b -> a = b.
Proof. intros H. now rewrite <- (ltau_tau a), H, ltau_tau. Qed.

Lemma rc_mul a b : red a b -> red b (rc (a ** b)) /\ b ** rc (a ** b) = rc a.
Proof.
  intros H. pose proof (red_rc G (a ** b)) as K.
  split; [now apply (red_mul_l G a)|].
  apply rc_unique; [now apply (red_mul_l2 G)|].
  rewrite <- (assoc_r_eq G) by assumption. apply mul_rc.
Qed.

Lemma tau_mul a b : red a b -> red (tau a) (tau b) /\ tau (a ** b) = tau a ** tau b.
Proof.
  intros H.
  destruct (rc_mul a b H) as [H1 E1].
  destruct (rc_mul _ _ H1) as [H2 E2]. rewrite E1 in H2, E2.
  destruct (rc_mul _ _ H2) as [H3 E3]. rewrite E2 in H3, E3.
  unfold tau. split; [exact H3|now symmetry].
Qed.

Lemma lc_mul a b : red a b -> red (lc (a ** b)) a /\ lc (a ** b) ** a = lc b.
Proof.
  intros H. pose proof (red_lc G (a ** b)) as K.
  split; [now apply (red_mul_r G _ _ b)|].
  apply lc_unique; [now apply (red_mul_r2 G)|].
  rewrite (assoc_l_eq G) by assumption. apply mul_lc.
Qed.

Lemma ltau_mul a b : red a b -> red (ltau a) (ltau b) /\ ltau (a ** b) = ltau a ** ltau b.
Proof.
  intros H.
  destruct (lc_mul a b H) as [H1 E1].
  destruct (lc_mul _ _ H1) as [H2 E2]. rewrite E1 in H2, E2.
  destruct (lc_mul _ _ H2) as [H3 E3]. rewrite E2 in H3, E3.
  unfold ltau. split; [exact H3|now symmetry].
Qed.

Lemma tau_one : tau one = one.
Proof. unfold tau. now rewrite (rc_one G), (rc_D G). Qed.
Lemma tau_D : tau D = D.
Proof. unfold tau. now rewrite (rc_D G), (rc_one G). Qed.
Lemma ltau_one : ltau one = one.
Proof. now rewrite <- tau_one, ltau_tau, tau_one. Qed.
Lemma ltau_D : ltau D = D.
Proof. now rewrite <- tau_D, ltau_tau, tau_D. Qed.

Lemma tau_le a b : le G a b -> le G (tau a) (tau b).
Proof.
  intros [f [H <-]]. destruct (tau_mul _ _ H) as [H1 H2]. exists (tau f). now split.
Qed.
Lemma ltau_le a b : le G a b -> le G (ltau a) (ltau b).
Proof.
  intros [f [H <-]]. destruct (ltau_mul _ _ H) as [H1 H2]. exists (ltau f). now split.
Qed.

Lemma tau_nrm a b : nrm G a b -> nrm G (tau a) (tau b).
Proof.
  intros H e He Hr. rewrite <- (tau_ltau e). 
  assert (E : ltau e = one).
  { apply H.
    - apply ltau_le in He. now rewrite ltau_tau in He.
    - destruct (ltau_mul _ _ Hr) as [K _]. now rewrite ltau_tau in K. }
  rewrite E. apply tau_one.
Qed.
Lemma ltau_nrm a b : nrm G a b -> nrm G (ltau a) (ltau b).
Proof.
  intros H e He Hr. rewrite <- (ltau_tau e). 
  assert (E : tau e = one).
  { apply H.
    - apply tau_le in He. now rewrite tau_ltau in He.
    - destruct (tau_mul _ _ Hr) as [K _]. now rewrite tau_ltau in K. }
  rewrite E. apply ltau_one.
Qed.

(** powers of tau *)
Definition taupow (k : Z) a : T :=
  match k with
  | Z0 => a
  | Zpos p => Nat.iter (Pos.to_nat p) tau a
  | Zneg p => Nat.iter (Pos.to_nat p) ltau a
  end.

Lemma taupow_succ k a : taupow (k + 1) a = tau (taupow k a).
Proof.
  destruct k as [|p|p].
  - reflexivity.
  - change (Z.pos p + 1)%Z with (Z.pos (p + 1)). cbn [taupow].
    rewrite Pos2Nat.inj_add. change (Pos.to_nat 1) with 1. rewrite Nat.add_1_r. reflexivity.
  - destruct (Pos.eq_dec p 1) as [->|N].
    + cbn. now rewrite tau_ltau.
    + replace (Z.neg p + 1)%Z with (Z.neg (p - 1)) by lia. cbn [taupow].
      replace (Pos.to_nat p) with (S (Pos.to_nat (p - 1))) by lia.
      cbn [Nat.iter nat_rect]. change (nat_rect (fun _ => T) ?a (fun _ => ltau) ?n) with (Nat.iter n ltau a).
      now rewrite tau_ltau.
Qed.

Lemma taupow_pred k a : taupow (k - 1) a = ltau (taupow k a).
Proof.
  rewrite <- (ltau_tau (taupow (k - 1) a)), <- taupow_succ. f_equal. f_equal. lia.
Qed.

Lemma taupow_0 a : taupow 0 a = a. Proof. reflexivity. Qed.

Lemma Z_ind2 (P : Z -> Prop) :
  P 0%Z -> (forall k, P k -> P (k + 1)%Z) -> (forall k, P k -> P (k - 1)%Z) -> forall k, P k.
Proof.
  intros H0 HS HP k. apply Z.peano_ind; [exact H0| |].
  - intros x Hx. replace (Z.succ x) with (x + 1)%Z by lia. now apply HS.
  - intros x Hx. replace (Z.pred x) with (x - 1)%Z by lia. now apply HP.
Qed.

Lemma taupow_add j k a : taupow (j + k) a = taupow j (taupow k a).
Proof.
  induction j as [|j IH|j IH] using Z_ind2.
  - reflexivity.
  - replace (j + 1 + k)%Z with (j + k + 1)%Z by lia. now rewrite !taupow_succ, IH.
  - replace (j - 1 + k)%Z with (j + k - 1)%Z by lia. now rewrite !taupow_pred, IH.
Qed.

Lemma taupow_one k : taupow k one = one.
Proof.
  induction k as [|k IH|k IH] using Z_ind2; [reflexivity| |].
  - now rewrite taupow_succ, IH, tau_one.
  - now rewrite taupow_pred, IH, ltau_one.
Qed.
Lemma taupow_D k : taupow k D = D.
Proof.
  induction k as [|k IH|k IH] using Z_ind2; [reflexivity| |].
  - now rewrite taupow_succ, IH, tau_D.
  - now rewrite taupow_pred, IH, ltau_D.
Qed.
Lemma taupow_mul k a b : red a b ->
  red (taupow k a) (taupow k b) /\ taupow k (a ** b) = taupow k a ** taupow k b.
Proof.
  intros H. induction k as [|k IH|k IH] using Z_ind2.
  - now split.
  - rewrite !taupow_succ. destruct IH as [H1 E1]. rewrite E1. now apply tau_mul.
  - rewrite !taupow_pred. destruct IH as [H1 E1]. rewrite E1. now apply ltau_mul.
Qed.
Lemma taupow_nrm k a b : nrm G a b -> nrm G (taupow k a) (taupow k b).
Proof.
  intros H. induction k as [|k IH|k IH] using Z_ind2; [exact H| |].
  - rewrite !taupow_succ. now apply tau_nrm.
  - rewrite !taupow_pred. now apply ltau_nrm.
Qed.
Lemma taupow_inj k a b : taupow k a = taupow k b -> a = b.
Proof.
  intros H. rewrite <- (taupow_0 a), <- (taupow_0 b).
  replace 0%Z with (- k + k)%Z by lia. now rewrite !taupow_add, H.
Qed.
Lemma taupow_nf k l : nf l -> nf (map (taupow k) l).
Proof.
  induction l as [|x l IH]; intros H; [exact I|]. cbn [map]. destruct H as [H1 H2].
  split; [|now apply IH]. destruct l as [|y l]; [exact I|]. cbn [map]. now apply taupow_nrm.
Qed.

(** ** Stripping leading D and trailing one *)
Fixpoint lead l : nat :=
  match l with
  | x :: l' => if eqd x D then S (lead l') else 0
  | [] => 0
  end.
Fixpoint dropD l : list T :=
  match l with
  | x :: l' => if eqd x D then dropD l' else l
  | [] => []
  end.
Fixpoint trim l : list T :=
  match l with
  | [] => []
  | x :: l' => match trim l' with
               | [] => if eqd x one then [] else [x]
               | t => x :: t
               end
  end.
Definition state := (Z * list T)%type.
Definition canon (d : Z) l : state := ((d + Z.of_nat (lead l))%Z, trim (dropD l)).
(** head is not D, last is not one, and normal *)
Definition ok (s : state) : Prop :=
  nf (snd s) /\ dropD (snd s) = snd s /\ trim (snd s) = snd s.

Definition act a (s : state) : state := let (d, l) := s in canon d (lm (taupow d a) l).

Lemma lead_dropD l : l = repeat D (lead l) ++ dropD l.
Proof.
  induction l as [|x l IH]; [reflexivity|]. cbn [lead dropD]. destruct (eqd x D) as [->|N].
  - cbn [repeat List.app]. now rewrite <- IH.
  - reflexivity.
Qed.

Lemma trim_ones l : exists m, l = trim l ++ repeat one m.
Proof.
  induction l as [|x l [m IH]]; [now exists 0|]. cbn [trim].
  destruct (trim l) as [|y t] eqn:E.
  - destruct (eqd x one) as [->|N].
    + exists (S m). cbn. cbn in IH. now rewrite IH at 1.
    + exists m. cbn. cbn in IH. now rewrite IH at 1.
  - exists m. cbn [List.app]. now rewrite IH at 1.
Qed.

Lemma trim_app_ones l m : trim (l ++ repeat one m) = trim l.
Proof.
  induction l as [|x l IH].
  - cbn. induction m as [|m IH]; [reflexivity|]. cbn [repeat trim]. rewrite IH.
    destruct (eqd one one); [reflexivity|contradiction].
  - cbn [List.app trim]. now rewrite IH.
Qed.

Lemma trim_idem l : trim (trim l) = trim l.
Proof. destruct (trim_ones l) as [m E]. rewrite E at 2. now rewrite trim_app_ones. Qed.

Lemma dropD_idem l : dropD (dropD l) = dropD l.
Proof.
  induction l as [|x l IH]; [reflexivity|]. cbn [dropD].
  destruct (eqd x D) as [->|N]; [exact IH|]. cbn [dropD]. destruct (eqd x D); [contradiction|reflexivity].
Qed.

Lemma nf_app_l p q : nf (p ++ q) -> nf p.
Proof.
  induction p as [|x p IH]; intros H; [exact I|]. cbn [List.app] in H. destruct H as [H1 H2].
  split; [|now apply IH]. destruct p; [exact I|exact H1].
Qed.
Lemma nf_app_r p q : nf (p ++ q) -> nf q.
Proof.
  induction p as [|x p IH]; intros H; [exact H|]. apply IH. now destruct H.
Qed.

Lemma dropD_nil_or l : dropD l = l -> l = [] \/ exists x l', l = x :: l' /\ x <> D.
Proof.
  destruct l as [|x l]; [now left|]. intros H. right. exists x, l. split; [reflexivity|].
  intros ->. cbn [dropD] in H. destruct (eqd D D); [|contradiction].
  assert (K : length (dropD l) <= length l).
  { clear H. induction l as [|y l IH]; [reflexivity|]. cbn [dropD]. destruct (eqd y D); cbn [length]; lia. }
  rewrite H in K. cbn [length] in K. lia.
Qed.

Lemma canon_ok d l : nf l -> ok (canon d l).
Proof.
  intros H. unfold ok, canon. cbn [snd].
  assert (Hd : nf (dropD l)).
  { rewrite (lead_dropD l) in H. now apply nf_app_r in H. }
  destruct (trim_ones (dropD l)) as [m E]. split; [|split].
  - rewrite E in Hd. now apply nf_app_l in Hd.
  - pose proof (dropD_idem l) as K. destruct (dropD_nil_or _ K) as [K1|[x [l' [K1 N]]]].
    + now rewrite K1.
    + rewrite K1. cbn [trim]. destruct (trim l') as [|y t].
      * destruct (eqd x one); [reflexivity|]. cbn [dropD]. destruct (eqd x D); [contradiction|reflexivity].
      * cbn [dropD]. destruct (eqd x D); [contradiction|reflexivity].
  - apply trim_idem.
Qed.

Lemma canon_fix d l : ok (d, l) -> canon d l = (d, l).
Proof.
  intros [H1 [H2 H3]]. cbn [snd] in *. unfold canon. rewrite H2, H3.
  destruct (dropD_nil_or _ H2) as [->|[x [l' [-> N]]]]; cbn [lead].
  - f_equal. lia.
  - destruct (eqd x D); [contradiction|]. f_equal. lia.
Qed.

Lemma lead_app_D k l : lead (repeat D k ++ l) = k + lead l.
Proof.
  induction k as [|k IH]; [reflexivity|]. cbn [repeat List.app lead]. destruct (eqd D D); [|contradiction].
  now rewrite IH.
Qed.
Lemma dropD_app_D k l : dropD (repeat D k ++ l) = dropD l.
Proof.
  induction k as [|k IH]; [reflexivity|]. cbn [repeat List.app dropD]. destruct (eqd D D); [|contradiction].
  exact IH.
Qed.

(** In a normal list, a one is followed only by ones; if D = one every list
    of simples is trivial.  We need: appending ones does not change canon,
    unless D = one. *)
Lemma canon_app_D d k l : canon d (repeat D k ++ l) = canon (d + Z.of_nat k) l.
Proof. unfold canon. rewrite lead_app_D, dropD_app_D. f_equal. lia. Qed.

Hypothesis D_ne_one : D <> one.

Lemma lead_app_ones l m : lead (l ++ repeat one m) = lead l.
Proof.
  induction l as [|x l IH].
  - cbn. destruct m; [reflexivity|]. cbn. destruct (eqd one D); [exfalso; now apply D_ne_one|reflexivity].
  - cbn [List.app lead]. destruct (eqd x D); [now rewrite IH|reflexivity].
Qed.
Lemma dropD_app_ones l m : dropD (l ++ repeat one m) = dropD l ++ repeat one m.
Proof.
  induction l as [|x l IH].
  - cbn. destruct m; [reflexivity|]. cbn. destruct (eqd one D); [exfalso; now apply D_ne_one|reflexivity].
  - cbn [List.app dropD]. destruct (eqd x D); [exact IH|reflexivity].
Qed.

Lemma canon_app_ones d l m : canon d (l ++ repeat one m) = canon d l.
Proof. unfold canon. rewrite lead_app_ones, dropD_app_ones. now rewrite trim_app_ones. Qed.

(** ** lm against D *)
Lemma rn_D_r a : rn a D = (D, tau a).
Proof.
  apply (rn_eq G rn rn_ok). exists (rc a). repeat split.
  - apply red_rc.
  - apply mul_rc.
  - apply red_rc.
  - apply mul_rc.
  - apply nrm_D_l.
Qed.

Lemma lm_app_D a k l : lm a (repeat D k ++ l) = repeat D k ++ lm (taupow (Z.of_nat k) a) l.
Proof.
  revert a; induction k as [|k IH]; intros a; [reflexivity|].
  cbn [repeat List.app GermNF.lm]. rewrite rn_D_r, IH. f_equal. f_equal.
  replace (Z.of_nat (S k)) with (Z.of_nat k + 1)%Z by lia. rewrite taupow_add. reflexivity.
Qed.

Lemma act_canon a d l : act a (canon d l) = canon d (lm (taupow d a) l).
Proof.
  assert (E : exists m, l = repeat D (lead l) ++ trim (dropD l) ++ repeat one m).
  { destruct (trim_ones (dropD l)) as [m E]. exists m. rewrite <- E. apply lead_dropD. }
  destruct E as [m E]. rewrite E at 2.
  rewrite lm_app_D, lm_app_ones by exact rn_ok.
  rewrite canon_app_D, canon_app_ones. unfold act, canon at 1.
  f_equal. rewrite <- taupow_add. f_equal. f_equal. lia.
Qed.

Lemma act_ok a s : ok s -> ok (act a s).
Proof.
  destruct s as [d l]. intros [H _]. apply canon_ok. apply (lm_nf G rn rn_ok). exact H.
Qed.

Lemma act_mul a b s : red a b -> act a (act b s) = act (a ** b) s.
Proof.
  destruct s as [d l]. intros H. unfold act at 2 3. rewrite act_canon.
  destruct (taupow_mul d a b H) as [H1 E1]. rewrite E1.
  rewrite (lm_compose G rn rn_ok) by exact H1.
  apply (canon_app_ones d _ 1).
Qed.

Lemma act_one s : ok s -> act one s = s.
Proof.
  destruct s as [d l]. intros H. unfold act. rewrite taupow_one, (lm_one G rn rn_ok).
  change [one] with (repeat one 1). rewrite canon_app_ones. now apply canon_fix.
Qed.

Definition shift (k : Z) (s : state) : state := ((fst s + k)%Z, snd s).

Lemma shift_ok k s : ok s -> ok (shift k s).
Proof. exact (fun H => H). Qed.

Lemma shift_shift j k s : shift j (shift k s) = shift (k + j) s.
Proof. unfold shift. cbn. f_equal. lia. Qed.
Lemma shift_0 s : shift 0 s = s.
Proof. destruct s. unfold shift. cbn. f_equal. lia. Qed.

Lemma canon_shift k d l : canon (d + k) l = shift k (canon d l).
Proof. unfold canon, shift. cbn. f_equal. lia. Qed.

Lemma act_D s : ok s -> act D s = shift 1 s.
Proof.
  destruct s as [d l]. intros H. unfold act. rewrite taupow_D, (lm_D G rn rn_ok) by apply H.
  change (D :: l) with (repeat D 1 ++ l). rewrite canon_app_D. unfold shift. cbn [fst snd].
  apply canon_fix. exact H.
Qed.

Lemma act_shift k a s : act a (shift k s) = shift k (act (taupow k a) s).
Proof.
  destruct s as [d l]. unfold shift at 1, act. cbn [fst snd]. rewrite canon_shift. f_equal.
  f_equal. f_equal. now rewrite taupow_add.
Qed.

Definition act_inv a (s : state) : state := shift (-1) (act (lc a) s).

Lemma act_inv_ok a s : ok s -> ok (act_inv a s).
Proof. intros H. apply shift_ok. now apply act_ok. Qed.

Lemma act_act_inv a s : ok s -> act a (act_inv a s) = s.
Proof.
  intros H. unfold act_inv. rewrite act_shift.
  change (taupow (-1) a) with (lc (lc a)).
  rewrite act_mul by apply red_lc. rewrite (mul_lc G), act_D by exact H.
  rewrite shift_shift. apply shift_0.
Qed.

Lemma act_inv_act a s : ok s -> act_inv a (act a s) = s.
Proof.
  intros H. unfold act_inv. rewrite act_mul by apply red_lc.
  rewrite (mul_lc G), act_D by exact H. rewrite shift_shift. apply shift_0.
Qed.

Lemma act_inj a s s' : ok s -> ok s' -> act a s = act a s' -> s = s'.
Proof. intros H H' E. now rewrite <- (act_inv_act a s), E, act_inv_act. Qed.

(** ** Lists acting *)
Definition actl l (s : state) : state := fold_right act s l.

Lemma actl_ok l s : ok s -> ok (actl l s).
Proof. intros H. induction l as [|x l IH]; [exact H|]. now apply act_ok. Qed.

Lemma actl_app p q s : actl (p ++ q) s = actl p (actl q s).
Proof. apply fold_right_app. Qed.

(** the algorithmic form: conjugate by the accumulated power and normalise *)
Lemma actl_canon l d q : actl l (canon d (NF q)) = canon d (NF (map (taupow d) l ++ q)).
Proof.
  induction l as [|x l IH]; [reflexivity|]. cbn [actl fold_right map List.app].
  fold (actl l (canon d (NF q))). rewrite IH, act_canon. reflexivity.
Qed.

Lemma ok_nf s : ok s -> nf (snd s).
Proof. now intros [H _]. Qed.

Lemma ok_nil d : ok (d, []).
Proof. repeat split. Qed.

Lemma actl_state l d : ok (d, l) -> actl l (0%Z, []) = (0%Z, l).
Proof.
  intros H. change (0%Z, []) with (canon 0 (NF [])). rewrite actl_canon.
  rewrite app_nil_r. replace (map (taupow 0) l) with l by (symmetry; apply (map_id l)).
  rewrite (NF_fix G rn rn_ok) by apply H. apply canon_fix. exact H.
Qed.

(** the element of a state acting on another state *)
Definition acts (s t : state) : state := shift (fst s) (actl (snd s) t).

Lemma acts_unit s : ok s -> acts s (0%Z, []) = s.
Proof.
  destruct s as [d l]. intros H. unfold acts. cbn [fst snd]. rewrite (actl_state l d H).
  unfold shift. cbn. f_equal.
Qed.

(** product formula used by the code *)
Lemma acts_mul d1 l1 d2 l2 : ok (d2, l2) ->
  acts (d1, l1) (d2, l2) = canon (d1 + d2) (NF (map (taupow d2) l1 ++ l2)).
Proof.
  intros H. unfold acts. cbn [fst snd].
  rewrite <- (canon_fix _ _ H) at 1. rewrite <- (NF_fix G rn rn_ok l2) at 1 by apply H.
  rewrite actl_canon. rewrite <- canon_shift. f_equal. lia.
Qed.

(** ** product_normalised_factors with its early exits *)
Fixpoint comb_back (fuel_l : list T) x : list T := (* reversed prefix, element *)
  match fuel_l with
  | [] => [x]
  | s :: p' =>
      let (w, z) := rn s x in
      if eqd w s then rev p' ++ [s; x] else comb_back p' w ++ [z]
  end.

Lemma rm_app p s x : rm G rn (p ++ [s]) x =
  let (w, z) := rn s x in rm G rn p w ++ [z].
Proof.
  destruct (rn s x) as [w z] eqn:E. induction p as [|t p IH].
  - cbn. now rewrite E.
  - cbn [List.app rm]. rewrite IH. pose proof (rm_length G rn p w) as L.
    destruct (rm G rn p w) as [|y q]; [discriminate|]. cbn [List.app].
    destruct (rn t y). reflexivity.
Qed.

Lemma comb_back_rm p x : nf (rev p) -> comb_back p x = rm G rn (rev p) x.
Proof.
  revert x; induction p as [|s p IH]; intros x H; [reflexivity|].
  cbn [rev comb_back] in *. rewrite rm_app. destruct (rn s x) as [w z] eqn:E.
  destruct (eqd w s) as [->|N].
  - pose proof (rm_nochange G rn rn_ok (rev p) x s z H E) as K. rewrite <- K.
    rewrite rm_app, E. reflexivity.
  - rewrite IH; [reflexivity|]. now apply nf_app_l in H.
Qed.
End Act.
