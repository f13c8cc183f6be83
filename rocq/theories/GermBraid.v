(** GermBraid.v – normal forms over a germ decide equality in the braid group,
    given that the germ's simples are lifted to braid words compatibly. *)
From Verif Require Import Base Germ GermNF GermAct SpecBraid BraidTheory.
From Coq Require Import Setoid.

Section GermBraid.
Variable G : Germ.
Notation T := (T G).
Notation one := (one G).
Notation D := (D G).
Notation red := (red G).
Notation "x ** y" := (mul G x y) (at level 40, left associativity).
Notation lc := (lc G).
Notation rc := (rc G).
Variable rn : T -> T -> T * T.
Hypothesis rn_ok : forall x y, rnspec G x y (fst (rn x y)) (snd (rn x y)).
Variable eqd : forall x y : T, {x = y} + {x <> y}.
Hypothesis D_ne_one : D <> one.
Variable n : nat.
Variable lift : T -> bword.
Variable atom : nat -> T.
Hypothesis lift_range : forall x, in_range n (lift x).
Hypothesis lift_mul : forall a b, red a b -> braid_eq n (lift (a ** b)) (lift a ++ lift b).
Hypothesis lift_atom : forall i, i + 1 < n -> braid_eq n (lift (atom i)) [(i, true)].

Notation act := (act G rn eqd).
Notation act_inv := (act_inv G rn eqd).
Notation ok := (ok G eqd).
Notation nf := (nf G).
Notation NF := (NF G rn).
Notation canon := (canon G eqd).
Notation shift := (shift G).
Notation taupow := (taupow G).
Notation tau := (tau G).
Notation ltau := (ltau G).
Notation state := (state G).

Hypothesis act_braid : forall i s, i + 2 < n -> ok s ->
  act (atom i) (act (atom (i + 1)) (act (atom i) s)) =
  act (atom (i + 1)) (act (atom i) (act (atom (i + 1)) s)).
Hypothesis act_far : forall i j s, i + 2 <= j -> j + 1 < n -> ok s ->
  act (atom i) (act (atom j) s) = act (atom j) (act (atom i) s).

Lemma lift_one : braid_eq n (lift one) [].
Proof.
  apply (be_cancel_l n (lift one)); [apply lift_range|].
  rewrite <- lift_mul by apply red_1l. rewrite (mul_1l G), app_nil_r. apply be_refl.
Qed.

Lemma lift_tau a : braid_eq n (lift a ++ lift D) (lift D ++ lift (tau a)).
Proof.
  transitivity (lift a ++ lift (rc a) ++ lift (tau a)).
  - unfold GermAct.tau. rewrite <- (lift_mul (rc a)) by apply red_rc. rewrite (mul_rc G). apply be_refl.
  - rewrite app_assoc. rewrite <- (lift_mul a) by apply red_rc. rewrite (mul_rc G). apply be_refl.
Qed.

Notation DW k := (wpow (lift D) k).

Lemma lift_ltau a : braid_eq n (lift a ++ winv (lift D)) (winv (lift D) ++ lift (ltau a)).
Proof.
  apply (be_cancel_l n (lift D)); [apply lift_range|].
  apply (be_cancel_r n (lift D)); [apply lift_range|].
  rewrite <- !app_assoc. rewrite be_inv_l by apply lift_range. rewrite app_nil_r.
  rewrite (lift_tau (ltau a)), tau_ltau.
  rewrite !app_assoc, be_inv_r by apply lift_range. apply be_refl.
Qed.

Lemma lift_taupow k a : braid_eq n (lift a ++ DW k) (DW k ++ lift (taupow k a)).
Proof.
  induction k as [|k IH|k IH] using Zind2.
  - rewrite wpow_0, app_nil_r. apply be_refl.
  - rewrite (Z.add_comm k 1). rewrite !(wpow_add n) by apply lift_range.
    (* move D past first *)
    rewrite (Z.add_comm 1 k).
    assert (E : braid_eq n (DW 1 ++ DW k) (DW k ++ DW 1)).
    { rewrite <- !(wpow_add n) by apply lift_range. now rewrite Z.add_comm. }
    rewrite E. rewrite app_assoc, IH, <- !app_assoc.
    assert (E1 : DW 1 = lift D) by (apply wpow_1 || apply wpow_m1).
    rewrite E1. rewrite lift_tau. rewrite taupow_succ. apply be_refl.
  - replace (k - 1)%Z with (k + -1)%Z by lia. rewrite !(wpow_add n) by apply lift_range.
    rewrite app_assoc, IH, <- !app_assoc.
    assert (E1 : DW (-1) = winv (lift D)) by (apply wpow_1 || apply wpow_m1).
    rewrite E1. rewrite lift_ltau.
    replace (k + -1)%Z with (k - 1)%Z by lia. rewrite taupow_pred. apply be_refl.
Qed.

Definition liftl (l : list T) : bword := flat_map lift l.
Definition word_of (s : state) : bword := DW (fst s) ++ liftl (snd s).

Lemma liftl_range l : in_range n (liftl l).
Proof.
  induction l as [|x l IH]; [constructor|]. apply in_range_app. split; [apply lift_range|exact IH].
Qed.
Lemma word_of_range s : in_range n (word_of s).
Proof.
  apply in_range_app. split; [|apply liftl_range]. apply in_range_wpow, lift_range.
Qed.
Lemma liftl_app p q : liftl (p ++ q) = liftl p ++ liftl q.
Proof. apply flat_map_app. Qed.

Lemma rn_lift x y w z : rn x y = (w, z) -> braid_eq n (lift w ++ lift z) (lift x ++ lift y).
Proof.
  intros E. apply (rn_ok2 G rn rn_ok) in E. destruct E as [c [H1 [H2 [H3 [H4 _]]]]]. subst w y.
  rewrite !lift_mul by assumption. rewrite app_assoc. apply be_refl.
Qed.

Lemma lm_lift a l : braid_eq n (liftl (lm G rn a l)) (lift a ++ liftl l).
Proof.
  revert a; induction l as [|x l IH]; intros a; cbn [lm].
  - apply be_refl.
  - destruct (rn a x) as [y b] eqn:E. cbn [liftl flat_map].
    fold (liftl (lm G rn b l)). fold (liftl l).
    rewrite IH, app_assoc. rewrite (rn_lift _ _ _ _ E). rewrite app_assoc. apply be_refl.
Qed.

Lemma NF_lift l : braid_eq n (liftl (NF l)) (liftl l).
Proof.
  induction l as [|x l IH]; [apply be_refl|]. cbn [GermNF.NF fold_right].
  rewrite lm_lift. fold (NF l). rewrite IH. apply be_refl.
Qed.

Lemma liftl_repeat_one m : braid_eq n (liftl (repeat one m)) [].
Proof.
  induction m as [|m IH]; [apply be_refl|]. cbn [repeat liftl flat_map].
  fold (liftl (repeat one m)). rewrite IH, lift_one. apply be_refl.
Qed.
Lemma liftl_repeat_D m : liftl (repeat D m) = DW (Z.of_nat m).
Proof.
  unfold wpow. destruct (Z.leb_spec 0 (Z.of_nat m)); [|lia]. rewrite Nat2Z.id.
  unfold liftl. rewrite flat_map_concat_map. f_equal. induction m; [reflexivity|]. cbn. f_equal. apply IHm. lia.
Qed.

Lemma canon_word d l : braid_eq n (word_of (canon d l)) (DW d ++ liftl l).
Proof.
  unfold word_of, GermAct.canon. cbn [fst snd].
  rewrite (lead_dropD G eqd l) at 3. rewrite liftl_app, liftl_repeat_D.
  rewrite (wpow_add n) by apply lift_range.
  destruct (trim_ones G eqd (dropD G eqd l)) as [m E]. rewrite E at 2.
  rewrite liftl_app, liftl_repeat_one, app_nil_r, <- app_assoc. apply be_refl.
Qed.

Lemma act_word a s : braid_eq n (word_of (act a s)) (lift a ++ word_of s).
Proof.
  destruct s as [d l]. unfold GermAct.act. rewrite canon_word, lm_lift.
  rewrite !app_assoc. rewrite <- lift_taupow. unfold word_of. cbn [fst snd].
  rewrite <- !app_assoc. apply be_refl.
Qed.

Lemma shift_word k s : braid_eq n (word_of (shift k s)) (DW k ++ word_of s).
Proof.
  destruct s as [d l]. unfold word_of, GermAct.shift. cbn [fst snd].
  rewrite Z.add_comm, (wpow_add n) by apply lift_range. rewrite <- app_assoc. apply be_refl.
Qed.

Lemma act_inv_word a s : braid_eq n (word_of (act_inv a s)) (winv (lift a) ++ word_of s).
Proof.
  unfold GermAct.act_inv. rewrite shift_word, act_word.
  apply (be_cancel_l n (lift a)); [apply lift_range|].
  rewrite (app_assoc (lift a) (winv (lift a))), be_inv_r by apply lift_range. cbn [List.app].
  rewrite !app_assoc. rewrite lift_taupow. rewrite <- (app_assoc (DW (-1))).
  change (taupow (-1) a) with (lc (lc a)).
  rewrite <- lift_mul by apply red_lc. rewrite (mul_lc G).
  assert (E1 : DW (-1) = winv (lift D)) by (apply wpow_1 || apply wpow_m1).
  rewrite E1, be_inv_l by apply lift_range. apply be_refl.
Qed.

(** ** Words acting *)
Definition actletter (x : nat * bool) (s : state) : state :=
  if snd x then act (atom (fst x)) s else act_inv (atom (fst x)) s.
Definition actw (w : bword) (s : state) : state := fold_right actletter s w.
Definition nfw (w : bword) : state := actw w (0%Z, []).

Lemma actw_app u v s : actw (u ++ v) s = actw u (actw v s).
Proof. apply fold_right_app. Qed.

Lemma actletter_ok x s : ok s -> ok (actletter x s).
Proof.
  intros H. unfold actletter. destruct (snd x).
  - now apply act_ok.
  - now apply act_inv_ok.
Qed.
Lemma actw_ok w s : ok s -> ok (actw w s).
Proof. intros H. induction w as [|x w IH]; [exact H|]. now apply actletter_ok. Qed.
Lemma nfw_ok w : ok (nfw w).
Proof. apply actw_ok. apply ok_nil. Qed.

Lemma actw_complete u v : braid_eq n u v -> forall s, ok s -> actw u s = actw v s.
Proof.
  induction 1 as [u|u v H IH|u v w H1 IH1 H2 IH2|u u' v v' H1 IH1 H2 IH2|i e Hi|i j Hij Hj|i Hi]; intros s Hs.
  - reflexivity.
  - symmetry. now apply IH.
  - now rewrite IH1, IH2.
  - rewrite !actw_app, IH2 by assumption. apply IH1. now apply actw_ok.
  - unfold actw, actletter. cbn [fold_right fst snd]. destruct e; cbn [negb snd fst].
    + now apply act_act_inv.
    + now apply act_inv_act.
  - unfold actw, actletter. cbn [fold_right fst snd]. now apply act_far.
  - unfold actw, actletter. cbn [fold_right fst snd]. now apply act_braid.
Qed.

Lemma actw_word w s : in_range n w -> braid_eq n (word_of (actw w s)) (w ++ word_of s).
Proof.
  induction w as [|[i e] w IH]; intros H; [apply be_refl|].
  inversion H; subst. cbn [actw fold_right]. fold (actw w s).
  unfold actletter. cbn [fst snd] in *. destruct e.
  - rewrite act_word, IH by assumption. rewrite lift_atom by assumption. apply be_refl.
  - rewrite act_inv_word, IH by assumption. rewrite lift_atom by assumption. apply be_refl.
Qed.

Theorem nfw_sound w : in_range n w -> braid_eq n (word_of (nfw w)) w.
Proof.
  intros H. unfold nfw. rewrite actw_word by exact H. unfold word_of. cbn. rewrite app_nil_r. apply be_refl.
Qed.

Theorem nfw_complete u v : braid_eq n u v -> nfw u = nfw v.
Proof. intros H. apply actw_complete; [exact H|apply ok_nil]. Qed.

Theorem nfw_decides u v : in_range n u -> in_range n v -> (nfw u = nfw v <-> braid_eq n u v).
Proof.
  intros Hu Hv. split; [|apply nfw_complete].
  intros E. rewrite <- (nfw_sound u), <- (nfw_sound v) by assumption. rewrite E. apply be_refl.
Qed.

(** ** Round trip: the word of a state acts back to the state. *)
Hypothesis act_lift : forall x s, ok s -> actw (lift x) s = act x s.

Lemma actw_liftl l s : ok s -> actw (liftl l) s = actl G rn eqd l s.
Proof.
  intros H. induction l as [|x l IH]; [reflexivity|]. cbn [liftl flat_map actl fold_right].
  fold (liftl l). fold (actl G rn eqd l s). rewrite actw_app, IH, act_lift; [reflexivity|].
  now apply actl_ok.
Qed.

Lemma actw_DW k s : ok s -> actw (DW k) s = shift k s.
Proof.
  revert s. induction k as [|k IH|k IH] using Zind2; intros s H.
  - cbn. now rewrite shift_0.
  - rewrite (actw_complete _ _ (wpow_succ n (lift D) k (lift_range D)) s H).
    rewrite actw_app, IH, act_lift by (try apply shift_ok; exact H).
    rewrite act_D by (try apply shift_ok; exact H || exact rn_ok).
    now rewrite shift_shift.
  - rewrite (actw_complete _ _ (wpow_pred n (lift D) k (lift_range D)) s H).
    rewrite actw_app, IH by exact H.
    assert (H' : ok (shift k s)) by (now apply shift_ok).
    assert (K : forall t, ok t -> actw (winv (lift D)) t = shift (-1) t).
    { intros t Ht.
      assert (E : actw (lift D) (actw (winv (lift D)) t) = t).
      { rewrite <- actw_app. rewrite (actw_complete _ _ (be_inv_r n (lift D) (lift_range D)) t Ht). reflexivity. }
      rewrite act_lift in E by now apply actw_ok.
      rewrite act_D in E by (exact rn_ok || now apply actw_ok).
      rewrite <- E at 2. rewrite shift_shift. now rewrite shift_0. }
    rewrite K by exact H'. now rewrite shift_shift.
Qed.

Theorem actw_word_of s t : ok t -> actw (word_of s) t = acts G rn eqd s t.
Proof.
  intros H. unfold word_of, acts. rewrite actw_app, actw_liftl by exact H.
  apply actw_DW. now apply actl_ok.
Qed.

Theorem nfw_word_of s : ok s -> nfw (word_of s) = s.
Proof.
  intros H. unfold nfw. rewrite actw_word_of by apply ok_nil. now apply acts_unit.
Qed.

Theorem word_of_inj s t : ok s -> ok t -> (s = t <-> braid_eq n (word_of s) (word_of t)).
Proof.
  intros Hs Ht. rewrite <- nfw_decides by apply word_of_range. now rewrite !nfw_word_of.
Qed.

Lemma acts_word s t : ok t -> braid_eq n (word_of (acts G rn eqd s t)) (word_of s ++ word_of t).
Proof.
  intros H. rewrite <- actw_word_of by exact H. apply actw_word. apply word_of_range.
Qed.
End GermBraid.
