(** NFGeneric.v – enumeration, suffixes, slices, inf and sup for any class whose
    table tabulates a germ (used for DGNF). *)
From Verif Require Import Base ModelPerm ModelBraid SpecBraid BraidTheory Germ GermNF GermAct GermBraid TableTheory NFApi.
From Coq Require Import Setoid FinFun.

Section Gen.
Context {A : Type}.
Variable tbl : nftable A.
Variable G : Germ.
Variable rn : T G -> T G -> T G * T G.
Variable eqd : forall x y : T G, {x = y} + {x <> y}.
Variable n : nat.
Variable wd : T G -> list (Z * Z).
Variable atom : nat -> T G.
Variable idx : T G -> Z.
Variable div : T G -> A.
Hypothesis TK : table_ok tbl G rn eqd n wd atom idx div.
Variable tb : nat -> res (nftable A).
Hypothesis Htb : tb n = Ok tbl.
Notation enc := (TableTheory.enc G n idx).
Notation ok := (ok G eqd).
Notation reps := (reps G eqd n wd idx).
Notation lift := (TableTheory.lift G wd).
Notation actw := (actw G rn eqd atom).
Notation act := (act G rn eqd).
Notation act_inv := (act_inv G rn eqd).

Lemma gval_enc b : nf_value tb n b -> exists s, ok s /\ b = enc s.
Proof using TK Htb. intros V. destruct (value_reps _ _ _ _ _ _ _ _ _ TK tb Htb b V) as [w [[s [H [E _]]] _]]. eauto. Qed.
Lemma gmkE d l : ok (d, l) -> mk tb n d (map idx l) = Ok (enc (d, l)).
Proof using TK Htb. apply (mk_ok _ _ _ _ _ _ _ _ _ TK tb Htb). Qed.
Lemma genc_val s : ok s -> nf_value tb n (enc s).
Proof using TK Htb. intros H. eapply (reps_value _ _ _ _ _ _ _ _ _ TK tb Htb). apply reps_word. exact H. Qed.

(** ** all_of_length *)
Theorem g_all_of_length len power : (0 <= len)%Z ->
  exists bs, all_of_length tb n len power = Ok bs /\ NoDup bs /\
    (forall b, In b bs <-> nf_value tb n b /\ o_pow b = power /\ length (o_factors b) = Z.to_nat len) /\
    count_all_of_length tb n len = Ok (Z.of_nat (length bs)).
Proof using TK Htb.
  intros Hk. destruct (normal_forms_none _ _ _ _ _ _ _ _ _ TK len Hk) as [ls [E [ND H]]].
  exists (map (fun m => enc (power, m)) ls). unfold all_of_length. rewrite Htb. cbn [bind]. rewrite E. cbn [bind]. split; [|split; [|split]].
  - rewrite (mapM_ok _ (fun f => NFObj n power f)); [now rewrite map_map|].
    intros f Hf. apply in_map_iff in Hf. destruct Hf as [m [<- Hm]]. apply H in Hm. destruct Hm as [_ Om]. apply (gmkE power m). exact Om.
  - apply Injective_map_NoDup; [|exact ND]. intros a b K. apply (enc_inj _ _ _ _ _ _ _ _ _ TK) in K. congruence.
  - intros b. rewrite in_map_iff. split.
    + intros [m [<- Hm]]. apply H in Hm. destruct Hm as [L Om]. split; [now apply genc_val|]. cbn. now rewrite map_length.
    + intros [V [Ep L]]. destruct (gval_enc b V) as [[d l] [Ho ->]]. cbn in Ep, L. subst d. rewrite map_length in L.
      exists l. split; [reflexivity|]. apply H. split; [exact L|exact Ho].
  - unfold count_all_of_length. rewrite Htb. cbn [bind]. rewrite map_length.
    pose proof (count_ok _ _ _ _ _ _ _ _ _ TK None I len _ Hk E) as C. rewrite map_length in C. exact C.
Qed.
(** ** sample *)
Theorem g_sample len :
  (forall draw b, nf_sample tb draw n len = Ok b -> nf_value tb n b /\ o_pow b = 0%Z /\ length (o_factors b) = len) /\
  (forall b, nf_value tb n b -> o_pow b = 0%Z -> length (o_factors b) = len -> exists draw, nf_sample tb draw n len = Ok b).
Proof using TK Htb.
  unfold nf_sample, sample. rewrite Htb. cbn [bind]. rewrite (tk_DD _ _ _ _ _ _ _ _ _ TK).
  assert (K : forall l, nf G (D G :: l) /\ Forall (proper G) l <-> ok (0%Z, l)).
  { intros l. pose proof (nf_D_l _ _ _ _ _ _ _ _ _ TK l) as K1. pose proof (ok_proper _ _ _ _ _ _ _ _ _ TK 0%Z l) as K2. tauto. }
  split.
  - intros draw b Hb. destruct (sample_loop tbl draw 0 len (idx (D G))) as [f|] eqn:Hf; [|discriminate]. cbn [bind] in Hb.
    destruct (sample_loop_sound _ _ _ _ _ _ _ _ _ TK draw len 0 (D G) f Hf) as [l [-> [L [N Pr]]]].
    assert (O : ok (0%Z, l)) by (apply K; auto). rewrite (gmkE 0 l O) in Hb. injection Hb as <-. split; [now apply genc_val|]. cbn. now rewrite map_length.
  - intros b V P0 L. destruct (gval_enc b V) as [[d l] [Ho ->]]. cbn in P0, L. subst d. rewrite map_length in L.
    destruct (proj2 (K l) Ho) as [N1 N2]. destruct (sample_loop_complete _ _ _ _ _ _ _ _ _ TK l 0 (D G) N1 N2) as [draw E]. rewrite L in E.
    exists draw. rewrite E. cbn [bind]. now apply gmkE.
Qed.
(** ** multiplication without cancellation *)
Lemma gliftl_taupow k l : braid_eq n (flat_map lift l ++ wpow (lift (D G)) k) (wpow (lift (D G)) k ++ flat_map lift (map (taupow G k) l)).
Proof using TK.
  induction l as [|x l IH]; cbn [map flat_map].
  - rewrite app_nil_r. apply be_refl.
  - rewrite <- app_assoc. eapply be_trans; [apply be_app; [apply be_refl|exact IH]|].
    rewrite !app_assoc. apply be_app; [|apply be_refl].
    apply (lift_taupow G n lift); intros; [apply (tk_range _ _ _ _ _ _ _ _ _ TK)|now apply (tk_mul _ _ _ _ _ _ _ _ _ TK)].
Qed.
Lemma gmul_ok s t : map (taupow G (fst t)) (snd s) = snd s -> ok s -> ok t -> ok (0%Z, snd s ++ snd t) ->
  nf_mul tb (enc s) (enc t) = Ok (enc ((fst s + fst t)%Z, snd s ++ snd t)).
Proof using TK Htb.
  intros Ev Hs Htt Ho.
  destruct (reps_mul _ _ _ _ _ _ _ _ _ TK tb Htb _ _ _ _ (reps_word G eqd n wd idx s Hs) (reps_word G eqd n wd idx t Htt)) as [c [Ec Rc]].
  rewrite Ec. f_equal. apply (reps_eq _ _ _ _ _ _ _ _ _ TK _ _ _ _ Rc (reps_word G eqd n wd idx ((fst s + fst t)%Z, snd s ++ snd t) Ho)).
  unfold word_of. cbn [fst snd]. unfold liftl. rewrite flat_map_app.
  rewrite <- app_assoc. eapply be_trans.
  { apply be_app; [apply be_refl|]. rewrite app_assoc. apply be_app; [apply gliftl_taupow|apply be_refl]. }
  rewrite Ev. rewrite !app_assoc. apply be_app; [|apply be_refl]. apply be_app; [|apply be_refl].
  apply be_sym. apply wpow_add. apply (tk_range _ _ _ _ _ _ _ _ _ TK).
Qed.
Lemma glast_factor d l : last_factor (enc (d, l)) = None /\ l = [] \/ exists p s, l = p ++ [s] /\ last_factor (enc (d, l)) = Some (idx s).
Proof using.
  destruct l as [|x l]; [now left|]. right.
  destruct (exists_last (l := x :: l) ltac:(discriminate)) as [p [s E]]. exists p, s. split; [exact E|].
  rewrite E. unfold last_factor, TableTheory.enc. cbn [o_factors snd]. rewrite map_app. cbn [map].
  assert (K : forall (q : list Z) z, match q ++ [z] with [] => None | x :: _ => Some (last (q ++ [z]) x) end = Some z).
  { intros q z. destruct q as [|y q]; [reflexivity|]. cbn [List.app]. f_equal.
    change (y :: q ++ [z]) with ((y :: q) ++ [z]). apply last_last. }
  apply K.
Qed.
Lemma gsuffixes d l k : (0 <= k)%Z -> ok (d, l) ->
  exists ls, normal_forms tbl k (last_factor (enc (d, l))) = Ok (map (map idx) ls) /\ NoDup ls /\
    forall m, In m ls <-> (length m = Z.to_nat k /\ ok (0%Z, m) /\ ok (0%Z, l ++ m)).
Proof using TK.
  intros Hk Ho. destruct (glast_factor d l) as [[-> ->]|[p [s [-> ->]]]].
  - destruct (normal_forms_none _ _ _ _ _ _ _ _ _ TK k Hk) as [ls [E [ND H]]]. exists ls. split; [exact E|].
    split; [exact ND|]. intros m. rewrite H. cbn [List.app]. tauto.
  - destruct (normal_forms_some _ _ _ _ _ _ _ _ _ TK s k Hk) as [ls [E [ND H]]]. exists ls. split; [exact E|].
    split; [exact ND|]. intros m. rewrite H. rewrite !(ok_proper _ _ _ _ _ _ _ _ _ TK) in *.
    rewrite <- app_assoc. cbn [List.app]. rewrite (nf_glue G p s m). rewrite !Forall_app in *.
    destruct Ho as [O1 [O2 O3]].
    assert (nf G (s :: m) -> nf G m) by (destruct m; cbn; tauto).
    inversion O3; subst. cbn [map]. split.
    + intros [K1 [K2 K3]]. split; [exact K1|]. split; [split; [now auto|exact K3]|]. split; [split; [exact O1|exact K2]|].
      split; [exact O2|]. now constructor.
    + intros [K1 [[B1 B2] [[C1 C2] C3]]]. split; [exact K1|]. split; [exact C2|exact B2].
Qed.
(** nf_suffixes: for powers k of Delta for which conjugation by Delta^k is trivial,
    multiplying by a suffix appends its factors; the suffixes are exactly those *)
Theorem g_nf_suffixes b k : nf_value tb n b -> (0 <= k)%Z ->
  exists xs, nf_suffixes tb b k = Ok xs /\ NoDup xs /\
    (forall x, In x xs -> nf_value tb n x /\ length (o_factors x) = Z.to_nat k /\ o_pow x = o_pow b /\
      ((forall z, taupow G (o_pow b) z = z) -> exists c, nf_mul tb b x = Ok c /\ o_factors c = o_factors b ++ o_factors x /\ o_pow c = (o_pow b + o_pow b)%Z)) /\
    (forall x c, nf_value tb n x -> length (o_factors x) = Z.to_nat k -> o_pow x = o_pow b -> (forall z, taupow G (o_pow b) z = z) -> nf_mul tb b x = Ok c -> o_factors c = o_factors b ++ o_factors x -> In x xs).
Proof using TK Htb.
  intros V Hk. destruct (gval_enc b V) as [[d l] [Ho ->]].
  unfold nf_suffixes. cbn [o_n TableTheory.enc]. rewrite Htb. cbn [bind].
  destruct (gsuffixes d l k Hk Ho) as [ls [E [ND H]]].
  unfold TableTheory.enc in E at 1. cbn [fst snd] in *. unfold TableTheory.enc. cbn [fst snd o_pow o_factors]. rewrite E. cbn [bind].
  exists (map (fun m => enc (d, m)) ls). split; [|split; [|split]].
  - rewrite (mapM_ok _ (fun f => NFObj n d f)); [now rewrite map_map|].
    intros f Hf. apply in_map_iff in Hf. destruct Hf as [m [<- Hm]]. apply H in Hm. destruct Hm as [_ [Om _]]. apply (gmkE d m). exact Om.
  - apply Injective_map_NoDup; [|exact ND]. intros a b K. apply (enc_inj _ _ _ _ _ _ _ _ _ TK) in K. congruence.
  - intros x Hx. apply in_map_iff in Hx. destruct Hx as [m [<- Hm]]. apply H in Hm. destruct Hm as [L [Om Olm]].
    split; [now apply genc_val|]. cbn [o_factors o_pow TableTheory.enc fst snd]. split; [now rewrite map_length|]. split; [reflexivity|].
    intros Ev. eexists. split; [apply (gmul_ok (d, l) (d, m)); auto|].
    + cbn [fst snd]. rewrite <- (map_id l) at 2. apply map_ext. exact Ev.
    + cbn [fst snd TableTheory.enc o_factors o_pow]. now rewrite map_app.
  - intros x c Vx L Px Ev Ec Fc. destruct (gval_enc x Vx) as [[d' m] [Hm ->]]. cbn [TableTheory.enc o_pow o_factors fst snd] in *. subst d'. rewrite map_length in L.
    change (NFObj n d (map idx l)) with (enc (d, l)) in Ec. change (NFObj n d (map idx m)) with (enc (d, m)) in Ec.
    apply in_map_iff. exists m. split; [reflexivity|]. apply H. split; [exact L|]. split; [exact Hm|].
    destruct (reps_mul _ _ _ _ _ _ _ _ _ TK tb Htb _ _ _ _ (reps_word G eqd n wd idx (d, l) Ho) (reps_word G eqd n wd idx (d, m) Hm)) as [c' [Ec' [s [Hs [Es _]]]]].
    rewrite Ec in Ec'. injection Ec' as <-. rewrite Es in Fc. cbn [TableTheory.enc o_factors snd] in Fc. rewrite <- map_app in Fc.
    assert (Q : snd s = l ++ m). { clear -Fc TK. revert Fc. generalize (l ++ m). induction (snd s) as [|x a IH]; intros [|y c] K; try discriminate; [reflexivity|]. injection K as K1 K2. f_equal; [now apply (tk_inj _ _ _ _ _ _ _ _ _ TK)|now apply IH]. }
    rewrite <- Q. exact Hs.
Qed.

(** ** inf and sup, with respect to products of simple elements *)
Definition simple_product (w : bword) : Prop := exists l, braid_eq n w (flat_map lift l).
Lemma actw_lifts l s : ok s -> actw (flat_map lift l) s = fold_right act s l.
Proof using TK.
  intros H. induction l as [|x l IH]; [reflexivity|]. cbn [flat_map fold_right]. rewrite actw_app, IH. apply (tk_actlift _ _ _ _ _ _ _ _ _ TK).
  clear IH. induction l as [|y l IH]; [exact H|]. cbn [fold_right]. apply (act_ok G rn (tk_rn _ _ _ _ _ _ _ _ _ TK) eqd). exact IH.
Qed.
Lemma acts_ok l s : ok s -> ok (fold_right act s l).
Proof using TK. intros H. induction l as [|y l IH]; [exact H|]. cbn [fold_right]. apply (act_ok G rn (tk_rn _ _ _ _ _ _ _ _ _ TK) eqd). exact IH. Qed.
Lemma lifts_inf l s : ok s -> (fst s <= fst (actw (flat_map lift l) s))%Z.
Proof using TK.
  intros H. rewrite actw_lifts by exact H. induction l as [|x l IH]; [cbn; lia|]. cbn [fold_right]. pose proof (act_inf G rn eqd x (fold_right act s l)). lia.
Qed.
Lemma actw_winv x s : ok s -> actw (winv (lift x)) s = act_inv x s.
Proof using TK.
  pose proof (tk_rn _ _ _ _ _ _ _ _ _ TK) as RN. pose proof (tk_D1 _ _ _ _ _ _ _ _ _ TK) as D1.
  intros H. assert (H' : ok (actw (winv (lift x)) s)) by now apply (actw_ok G rn RN eqd).
  apply (act_inj G rn RN eqd D1 x); [exact H'|now apply act_inv_ok|]. rewrite act_act_inv by auto.
  rewrite <- (tk_actlift _ _ _ _ _ _ _ _ _ TK) by exact H'. rewrite <- actw_app.
  rewrite (actw_complete G rn RN eqd D1 n atom (tk_braid _ _ _ _ _ _ _ _ _ TK) (tk_far _ _ _ _ _ _ _ _ _ TK) _ _ (be_inv_r n (lift x) (tk_range _ _ _ _ _ _ _ _ _ TK x)) s H). reflexivity.
Qed.
Lemma lifts_sup l : forall s, ok s -> (sup_of G (actw (winv (flat_map lift l)) s) <= sup_of G s)%Z.
Proof using TK.
  induction l as [|x l IH]; intros s H; [cbn; lia|]. cbn [flat_map]. rewrite winv_app, actw_app, actw_winv by exact H.
  pose proof (act_inv_sup G rn eqd x s). specialize (IH (act_inv x s) (act_inv_ok G rn (tk_rn _ _ _ _ _ _ _ _ _ TK) eqd x s H)). lia.
Qed.
Lemma simple_app u v : simple_product u -> simple_product v -> simple_product (u ++ v).
Proof using. intros [l H] [m K]. exists (l ++ m). rewrite flat_map_app. now apply be_app. Qed.
Lemma simple_mor u v : braid_eq n u v -> simple_product u -> simple_product v.
Proof using. intros E [l H]. exists l. now rewrite <- E. Qed.
Lemma simple_lift x : simple_product (lift x).
Proof using. exists [x]. cbn. rewrite app_nil_r. reflexivity. Qed.
Lemma simple_pow k : (0 <= k)%Z -> simple_product (wpow (lift (D G)) k).
Proof using.
  intros H. exists (repeat (D G) (Z.to_nat k)). unfold wpow. destruct (Z.leb_spec 0 k); [|lia]. rewrite flat_map_concat_map, map_repeat. reflexivity.
Qed.
Lemma eqn_shift d l u k : ok (d, l) -> braid_eq n (word_of G lift (d, l)) (wpow (lift (D G)) k ++ u) -> (d, l) = shift G k (nfw G rn eqd atom u).
Proof using TK.
  pose proof (tk_rn _ _ _ _ _ _ _ _ _ TK) as RN. pose proof (tk_D1 _ _ _ _ _ _ _ _ _ TK) as D1. pose proof (tk_braid _ _ _ _ _ _ _ _ _ TK) as AB. pose proof (tk_far _ _ _ _ _ _ _ _ _ TK) as AF.
  pose proof (tk_range _ _ _ _ _ _ _ _ _ TK) as LR. pose proof (tk_actlift _ _ _ _ _ _ _ _ _ TK) as AL.
  intros Hs E. rewrite <- (nfw_word_of G rn RN eqd D1 n lift atom LR AB AF AL _ Hs).
  rewrite (nfw_complete G rn RN eqd D1 n atom AB AF _ _ E). unfold nfw at 1. rewrite actw_app.
  apply (actw_DW G rn RN eqd D1 n lift atom LR AB AF AL). apply (nfw_ok G rn RN eqd).
Qed.
Lemma g_inf s k : ok s -> (simple_product (wpow (lift (D G)) (- k) ++ word_of G lift s) <-> (k <= fst s)%Z).
Proof using TK.
  pose proof (tk_range _ _ _ _ _ _ _ _ _ TK) as LR.
  intros Hs. destruct s as [d l]. cbn [fst]. split.
  - intros [u H3].
    assert (E : braid_eq n (word_of G lift (d, l)) (wpow (lift (D G)) k ++ flat_map lift u)).
    { rewrite <- H3, app_assoc, <- wpow_add by apply LR. replace (k + - k)%Z with 0%Z by lia. reflexivity. }
    pose proof (eqn_shift d l _ k Hs E) as E2.
    pose proof (lifts_inf u (0%Z, []) (ok_nil G eqd 0)) as K. unfold nfw in E2. unfold shift in E2. injection E2 as E3 _. cbn [fst] in K. lia.
  - intros Hk. apply (simple_mor (wpow (lift (D G)) (d - k) ++ flat_map lift l)).
    + unfold word_of. cbn [fst snd]. rewrite app_assoc, <- wpow_add by apply LR. replace (- k + d)%Z with (d - k)%Z by lia. reflexivity.
    + apply simple_app; [apply simple_pow; lia|exists l; reflexivity].
Qed.
Lemma g_winv_D l : simple_product (winv (flat_map lift l) ++ wpow (lift (D G)) (Z.of_nat (length l))).
Proof using TK.
  pose proof (tk_range _ _ _ _ _ _ _ _ _ TK) as LR. pose proof (tk_mul _ _ _ _ _ _ _ _ _ TK) as LM.
  induction l as [|x l IH]; [exists []; reflexivity|].
  cbn [flat_map length]. rewrite winv_app, <- app_assoc.
  assert (E : braid_eq n (winv (lift x) ++ wpow (lift (D G)) (Z.of_nat (S (length l))))
       (wpow (lift (D G)) (Z.of_nat (length l)) ++ lift (taupow G (Z.of_nat (length l)) (rc G x)))).
  { rewrite <- (lift_taupow G n lift LR LM).
    apply (be_cancel_l n (lift x)); [apply LR|]. rewrite !app_assoc, be_inv_r by apply LR.
    cbn [List.app]. rewrite <- LM by apply red_rc. rewrite mul_rc.
    replace (Z.of_nat (S (length l))) with (Z.of_nat (length l) + 1)%Z by lia. rewrite wpow_succ by apply LR. reflexivity. }
  eapply simple_mor; [|apply (simple_app _ _ IH (simple_lift (taupow G (Z.of_nat (length l)) (rc G x))))].
  rewrite <- app_assoc. apply be_app; [reflexivity|]. symmetry. exact E.
Qed.
Lemma g_sup s k : ok s -> (simple_product (winv (word_of G lift s) ++ wpow (lift (D G)) k) <-> (sup_of G s <= k)%Z).
Proof using TK.
  pose proof (tk_range _ _ _ _ _ _ _ _ _ TK) as LR.
  intros Hs. destruct s as [d l]. unfold sup_of. cbn [fst snd]. split.
  - intros [u H3].
    assert (E : braid_eq n (word_of G lift (d, l)) (wpow (lift (D G)) k ++ winv (flat_map lift u))).
    { assert (RW : in_range n (word_of G lift (d, l))) by (apply word_of_range; exact LR).
      rewrite <- (winv_mor n _ _ H3). rewrite winv_app, winv_winv, app_assoc, be_inv_r by (apply in_range_wpow, LR). reflexivity. }
    pose proof (eqn_shift d l _ k Hs E) as E2.
    pose proof (lifts_sup u (0%Z, []) (ok_nil G eqd 0)) as K. fold (nfw G rn eqd atom (winv (flat_map lift u))) in K.
    unfold sup_of, shift in *. destruct (nfw G rn eqd atom (winv (flat_map lift u))) as [d' l'] eqn:E4. cbn [fst snd length] in *.
    injection E2 as -> ->. lia.
  - intros Hk. unfold word_of. cbn [fst snd]. rewrite winv_app, <- app_assoc.
    assert (E : braid_eq n (winv (wpow (lift (D G)) d) ++ wpow (lift (D G)) k)
                 (wpow (lift (D G)) (Z.of_nat (length l)) ++ wpow (lift (D G)) (k - d - Z.of_nat (length l)))).
    { apply (be_cancel_l n (wpow (lift (D G)) d)); [apply in_range_wpow, LR|].
      rewrite !app_assoc, be_inv_r by (apply in_range_wpow, LR). cbn [List.app].
      rewrite <- !wpow_add by apply LR. replace (d + Z.of_nat (length l) + (k - d - Z.of_nat (length l)))%Z with k by lia. reflexivity. }
    eapply simple_mor; [|apply (simple_app _ _ (g_winv_D l) (simple_pow (k - d - Z.of_nat (length l)) ltac:(lia)))].
    rewrite <- app_assoc. apply be_app; [reflexivity|]. symmetry. exact E.
Qed.
End Gen.
