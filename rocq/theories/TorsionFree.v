(** TorsionFree.v – greatest lower bounds for left division in a Garside group given by
    a germ, and absence of torsion. *)
From Verif Require Import Base Germ GermNF GermAct SpecBraid BraidTheory GermBraid.
From Coq Require Import Setoid Morphisms.

(** the exponent sum of a braid word *)
Definition esum (w : bword) : Z := fold_right (fun l s => ((if snd l : bool then 1 else -1) + s)%Z) 0%Z w.
Lemma esum_app u v : esum (u ++ v) = (esum u + esum v)%Z.
Proof. induction u as [|l u IH]; [reflexivity|]. cbn [List.app esum fold_right]. fold (esum (u ++ v)) (esum u). lia. Qed.
Lemma esum_winv u : esum (winv u) = (- esum u)%Z.
Proof. induction u as [|[i b] u IH]; [reflexivity|]. rewrite winv_cons, esum_app, IH. cbn [esum fold_right fst snd negb]. fold (esum u). destruct b; cbn [negb]; lia. Qed.
Lemma esum_be n u v : braid_eq n u v -> esum u = esum v.
Proof.
  induction 1 as [u|u v _ IH|u v w _ IH1 _ IH2|u u' v v' _ IH1 _ IH2|i e Hi|i j Hi Hj|i Hi]; try congruence; try (rewrite !esum_app; congruence); cbn; try reflexivity. destruct e; reflexivity.
Qed.
Lemma esum_concat w k : esum (concat (repeat w k)) = (Z.of_nat k * esum w)%Z.
Proof. induction k as [|k IH]; [reflexivity|]. cbn [repeat concat]. rewrite esum_app, IH. lia. Qed.

Section Lattice.
Variable G : Germ.
Notation T := (T G).
Notation one := (one G).
Notation D := (D G).
Notation red := (red G).
Notation "x ** y" := (mul G x y) (at level 40, left associativity).
Notation le := (Germ.le G).
Variable rn : T -> T -> T * T.
Hypothesis rn_ok : forall x y, rnspec G x y (fst (rn x y)) (snd (rn x y)).
Variable eqd : forall x y : T, {x = y} + {x <> y}.
Hypothesis D_ne_one : D <> one.
Variable n : nat.
Variable lift : T -> bword.
Variable atom : nat -> T.
Hypothesis lift_range : forall x, in_range n (lift x).
Hypothesis lift_mul : forall a b, red a b -> braid_eq n (lift (a ** b)) (lift a ++ lift b).
Hypothesis lift_atom : forall i, i + 1 < n -> braid_eq n (lift (atom i)) [(i, true)].
Notation act := (act G rn eqd).
Notation ok := (ok G eqd).
Notation nf := (nf G).
Notation NF := (NF G rn).
Notation canon := (canon G eqd).
Notation liftl := (liftl G lift).
Notation DW k := (wpow (lift D) k).
Hypothesis act_braid : forall i s, i + 2 < n -> ok s ->
  act (atom i) (act (atom (i + 1)) (act (atom i) s)) =
  act (atom (i + 1)) (act (atom i) (act (atom (i + 1)) s)).
Hypothesis act_far : forall i j s, i + 2 <= j -> j + 1 < n -> ok s ->
  act (atom i) (act (atom j) s) = act (atom j) (act (atom i) s).
Hypothesis act_lift : forall x s, ok s -> actw G rn eqd atom (lift x) s = act x s.
Hypothesis lift_esum : forall x, x <> one -> (0 < esum (lift x))%Z.

Local Instance be_equiv : Equivalence (braid_eq n).
Proof using Type. split; [intros u; apply be_refl|intros u v; apply be_sym|intros u v w; apply be_trans]. Qed.
Local Instance be_app_mor : Proper (braid_eq n ==> braid_eq n ==> braid_eq n) (@app (nat * bool)).
Proof using Type. intros u u' H v v' K. now apply be_app. Qed.
Local Instance winv_proper : Proper (braid_eq n ==> braid_eq n) winv.
Proof using Type. intros u v H. now apply winv_mor. Qed.

Lemma liftl_app l m : liftl (l ++ m) = liftl l ++ liftl m. Proof using Type. apply flat_map_app. Qed.
Lemma liftl_in l : in_range n (liftl l). Proof using lift_range. now apply liftl_range. Qed.
Lemma lift_1 : braid_eq n (lift one) []. Proof using lift_range lift_mul. now apply (lift_one G n lift). Qed.
Lemma esum_lift x : (0 <= esum (lift x))%Z.
Proof using lift_esum lift_range lift_mul eqd. destruct (eqd x one) as [->|N]; [rewrite (esum_be n _ _ lift_1); cbn; lia|]. pose proof (lift_esum x N). lia. Qed.
Lemma esum_liftl l : (0 <= esum (liftl l))%Z.
Proof using lift_esum lift_range lift_mul eqd. induction l as [|x l IH]; [cbn; lia|]. cbn [GermBraid.liftl flat_map]. fold (liftl l). rewrite esum_app. pose proof (esum_lift x). lia. Qed.
Lemma esum_zero l : esum (liftl l) = 0%Z -> braid_eq n (liftl l) [].
Proof using lift_esum lift_range lift_mul eqd.
  induction l as [|x l IH]; intros H; [reflexivity|]. cbn [GermBraid.liftl flat_map] in *. fold (liftl l) in *. rewrite esum_app in H. pose proof (esum_lift x). pose proof (esum_liftl l). destruct (eqd x one) as [->|N]; [|pose proof (lift_esum x N); lia]. rewrite lift_1. cbn [List.app]. apply IH. lia.
Qed.

(** ** left division *)
Definition pos (w : bword) : Prop := exists l, braid_eq n w (liftl l).
Definition ble (u v : bword) : Prop := pos (winv u ++ v).
Local Instance pos_proper : Proper (braid_eq n ==> iff) pos.
Proof using Type. intros u v H. split; intros [l L]; exists l; [now rewrite <- H|now rewrite H]. Qed.
Local Instance ble_proper : Proper (braid_eq n ==> braid_eq n ==> iff) ble.
Proof using Type. intros u u' H v v' K. unfold ble. now rewrite H, K. Qed.
Lemma pos_app u v : pos u -> pos v -> pos (u ++ v).
Proof using Type. intros [l L] [m K]. exists (l ++ m). now rewrite L, K, liftl_app. Qed.
Lemma pos_nil : pos []. Proof using Type. exists []. reflexivity. Qed.
Lemma pos_liftl l : pos (liftl l). Proof using Type. exists l. reflexivity. Qed.
Lemma ble_trans u v w : in_range n v -> ble u v -> ble v w -> ble u w.
Proof using Type.
  intros R H K. unfold ble in *. pose proof (pos_app _ _ H K) as P. rewrite <- app_assoc, (app_assoc v) in P. rewrite (be_inv_r n v R) in P. exact P.
Qed.
Lemma ble_refl u : in_range n u -> ble u u.
Proof using Type. intros R. unfold ble. rewrite be_inv_l by exact R. apply pos_nil. Qed.
Lemma ble_left c u v : in_range n c -> ble (c ++ u) (c ++ v) <-> ble u v.
Proof using Type. intros R. unfold ble. rewrite winv_app, <- app_assoc, (app_assoc (winv c) c). rewrite be_inv_l by exact R. reflexivity. Qed.
Lemma ble_pos v : ble [] v <-> pos v. Proof using Type. reflexivity. Qed.
Lemma ble_right u v : in_range n u -> pos v -> ble u (u ++ v).
Proof using Type. intros R P. rewrite <- (app_nil_r u) at 1. apply ble_left; [exact R|exact P]. Qed.
Lemma ble_ex u v : in_range n u -> ble u v <-> exists l, braid_eq n v (u ++ liftl l).
Proof using Type.
  intros R. split; intros [l L]; exists l.
  - rewrite <- L, app_assoc, be_inv_r by exact R. reflexivity.
  - rewrite L, app_assoc, be_inv_l by exact R. reflexivity.
Qed.
Lemma ble_antisym u v : in_range n u -> ble u v -> esum u = esum v -> braid_eq n u v.
Proof using lift_esum lift_range lift_mul eqd.
  intros R [l L] E. assert (Z0 : braid_eq n (liftl l) []). { apply esum_zero. rewrite <- (esum_be n _ _ L), esum_app, esum_winv. lia. }
  rewrite Z0 in L. apply (be_cancel_l n (winv u)); [now apply in_range_winv|]. rewrite L. now apply be_inv_l.
Qed.

(** ** the head of a normal list is its greatest simple divisor *)
Lemma trim_hd l : nf l -> hd one (trim G eqd l) = hd one l.
Proof using Type.
  destruct l as [|x l]; intros _; [reflexivity|]. cbn [trim]. destruct (trim G eqd l); [|reflexivity]. destruct (eqd x one) as [->|]; reflexivity.
Qed.
Lemma hd_canon l : nf l -> hd one l = let (d, m) := canon 0 l in if (0 <? d)%Z then D else hd one m.
Proof using Type.
  intros H. unfold canon. destruct l as [|x l]; [reflexivity|]. cbn [lead dropD]. destruct (eqd x D) as [->|N].
  - rewrite (proj2 (Z.ltb_lt 0 _)) by lia. reflexivity.
  - cbn [Z.of_nat Z.add]. rewrite Z.ltb_irrefl. symmetry. now apply trim_hd.
Qed.
Lemma same_hd l m : nf l -> nf m -> braid_eq n (liftl l) (liftl m) -> hd one l = hd one m.
Proof using rn_ok D_ne_one lift_range lift_mul lift_atom act_braid act_far act_lift.
  intros H K E. assert (C : canon 0 l = canon 0 m).
  { apply (word_of_inj G rn rn_ok eqd D_ne_one n lift atom lift_range lift_mul lift_atom act_braid act_far act_lift); try (apply (canon_ok G eqd); assumption).
    rewrite !(canon_word G eqd n lift lift_range lift_mul). now rewrite E. }
  rewrite (hd_canon l H), (hd_canon m K), C. reflexivity.
Qed.

Lemma head_le e l : nf l -> ble (lift e) (liftl l) -> le e (hd one l).
Proof using rn_ok D_ne_one lift_range lift_mul lift_atom act_braid act_far act_lift.
  intros H K. apply ble_ex in K; [|apply lift_range]. destruct K as [m K]. change (lift e ++ liftl m) with (liftl (e :: m)) in K.
  rewrite <- (NF_lift G rn rn_ok n lift lift_mul (e :: m)) in K. rewrite (same_hd _ _ H (NF_nf G rn rn_ok _) K). cbn [GermNF.NF fold_right]. fold (NF m). destruct (NF m) as [|x m']; cbn [lm]; [apply le_refl|].
  destruct (rn e x) as [y b] eqn:E. cbn [hd]. destruct (rn_ok2 G rn rn_ok e x y b E) as (c & R1 & <- & _). now apply le_mul.
Qed.
Lemma le_ble e x : le e x -> ble (lift e) (lift x).
Proof using lift_range lift_mul.
  intros (f & R & <-). apply ble_ex; [apply lift_range|]. exists [f]. cbn [GermBraid.liftl flat_map]. rewrite app_nil_r. now apply lift_mul.
Qed.
(** greatest common divisors of simples *)
Lemma simple_gcd x y : exists c, le c x /\ le c y /\ forall e, le e x -> le e y -> le e c.
Proof using Type.
  destruct (head_ex G (Germ.lc G x) y) as (c & d & R1 & E1 & R2 & U). exists c. split; [apply red_le_rc in R2; now rewrite rc_lc in R2|]. split; [exists d; auto|].
  intros e H (f & R & E). apply (U e f R E). apply red_le_rc. now rewrite rc_lc.
Qed.
Lemma nf_ones l : nf l -> hd one l = one -> braid_eq n (liftl l) [].
Proof using lift_range lift_mul.
  induction l as [|x l IH]; intros H E; [reflexivity|]. cbn [hd] in E. subst x. cbn [GermBraid.liftl flat_map]. fold (liftl l). rewrite lift_1. cbn [List.app]. destruct H as [H1 H2]. apply IH; [exact H2|]. destruct l as [|y l]; [reflexivity|]. cbn [hd]. now apply nrm_one_l.
Qed.
Definition glb2 (a b h : bword) : Prop := ble h a /\ ble h b.
Lemma split_head c l : nf l -> le c (hd one l) -> exists m, braid_eq n (liftl l) (lift c ++ liftl m).
Proof using lift_range lift_mul.
  intros H (f & R & E). destruct l as [|x l].
  - cbn [hd] in E. pose proof (no_unit G _ _ R E) as ->. exists []. cbn [GermBraid.liftl flat_map]. rewrite lift_1. reflexivity.
  - cbn [hd] in E. exists (f :: l). cbn [GermBraid.liftl flat_map]. fold (liftl l). rewrite <- E, (lift_mul _ _ R). now rewrite app_assoc.
Qed.
Lemma monoid_gcd N : forall a b, (esum (liftl a) + esum (liftl b) < Z.of_nat N)%Z ->
  exists h, ble (liftl h) (liftl a) /\ ble (liftl h) (liftl b) /\ forall e, ble (liftl e) (liftl a) -> ble (liftl e) (liftl b) -> ble (liftl e) (liftl h).
Proof using rn_ok D_ne_one lift_range lift_mul lift_atom act_braid act_far act_lift lift_esum.
  assert (NL := NF_lift G rn rn_ok n lift lift_mul). assert (NN := NF_nf G rn rn_ok).
  induction N as [|N IH]; intros a b HN; [pose proof (esum_liftl a); pose proof (esum_liftl b); lia|].
  destruct (simple_gcd (hd one (NF a)) (hd one (NF b))) as (c & C1 & C2 & CU).
  (* every common divisor starts with a divisor of c *)
  assert (HEAD : forall e, ble (liftl e) (liftl a) -> ble (liftl e) (liftl b) -> le (hd one (NF e)) c).
  { intros e Ea Eb. destruct (split_head (hd one (NF e)) (NF e) (NN e) (le_refl G _)) as (m & Em). rewrite NL in Em.
    assert (Q : forall z, ble (liftl e) (liftl z) -> le (hd one (NF e)) (hd one (NF z))). { intros z Hz. apply head_le; [apply NN|]. rewrite NL. apply (ble_trans _ (liftl e)); [apply liftl_in| |exact Hz]. rewrite Em. apply ble_right; [apply lift_range|apply pos_liftl]. }
    apply CU; now apply Q. }
  assert (TRIV : forall e h, hd one (NF e) = one -> ble (liftl e) (liftl h)). { intros e h E. rewrite <- (NL e), (nf_ones _ (NN e) E). apply pos_liftl. }
  destruct (eqd c one) as [->|Nc].
  { exists []. split; [apply pos_liftl|]. split; [apply pos_liftl|]. intros e Ea Eb. apply TRIV. apply (le_one_inv G). now apply HEAD. }
  destruct (split_head c (NF a) (NN a) C1) as (a' & Ea). destruct (split_head c (NF b) (NN b) C2) as (b' & Eb). rewrite NL in Ea, Eb. pose proof (lift_esum c Nc) as Pc.
  pose proof (esum_be n _ _ Ea) as Sa. pose proof (esum_be n _ _ Eb) as Sb. rewrite esum_app in Sa, Sb. destruct (IH a' b' ltac:(lia)) as (h' & H1 & H2 & HU). exists (c :: h'). change (liftl (c :: h')) with (lift c ++ liftl h'). rewrite Ea, Eb. split; [now apply ble_left|]. split; [now apply ble_left|].
  intros e Ha Hb. destruct (eqd (hd one (NF e)) one) as [E1|Nx]; [change (lift c ++ liftl h') with (liftl (c :: h')); now apply TRIV|].
  assert (LC : le (hd one (NF e)) c) by (apply HEAD; [exact Ha|exact Hb]). rewrite Ea in Ha. rewrite Eb in Hb. set (x := hd one (NF e)) in *. destruct (split_head x (NF e) (NN e) (le_refl G _)) as (e' & Ee). rewrite NL in Ee. destruct LC as (g1 & R1 & E1). pose proof (lift_esum x Nx) as Px.
  assert (EC : braid_eq n (lift c) (lift x ++ lift g1)) by (rewrite <- E1; now apply lift_mul). rewrite Ee in *. rewrite EC, <- !app_assoc in Ha, Hb |- *. apply ble_left in Ha, Hb; try apply lift_range. apply ble_left; [apply lift_range|].
  pose proof (esum_be n _ _ EC) as Sc. rewrite esum_app in Sc. change (lift g1 ++ liftl a') with (liftl (g1 :: a')) in Ha. change (lift g1 ++ liftl b') with (liftl (g1 :: b')) in Hb.
  destruct (IH (g1 :: a') (g1 :: b')) as (h2 & K1 & K2 & KU). { change (liftl (g1 :: a')) with (lift g1 ++ liftl a'). change (liftl (g1 :: b')) with (lift g1 ++ liftl b'). rewrite !esum_app. lia. }
  apply (ble_trans _ (liftl h2)); [apply liftl_in|now apply KU|].
  assert (L1 : forall z, ble (liftl [g1]) (liftl (g1 :: z))). { intros z. cbn [GermBraid.liftl flat_map]. rewrite app_nil_r. apply ble_right; [apply lift_range|apply pos_liftl]. }
  pose proof (KU [g1] (L1 a') (L1 b')) as LG. apply ble_ex in LG; [|apply liftl_in]. destruct LG as (k & Ek). cbn [GermBraid.liftl flat_map] in Ek. rewrite app_nil_r in Ek. fold (liftl k) in Ek. fold (liftl h2) in Ek. rewrite Ek. apply ble_left; [apply lift_range|]. rewrite Ek in K1, K2. change (liftl (g1 :: a')) with (lift g1 ++ liftl a') in K1. change (liftl (g1 :: b')) with (lift g1 ++ liftl b') in K2. apply ble_left in K1, K2; try apply lift_range. now apply HU.
Qed.

(** ** greatest lower bounds in the group *)
Lemma big_power w : in_range n w -> exists k, forall j, k <= j -> pos (DW (Z.of_nat j) ++ w).
Proof using rn_ok eqd lift_range lift_mul lift_atom.
  intros R. pose proof (nfw_sound G rn rn_ok eqd n lift atom lift_range lift_mul lift_atom w R) as S. destruct (nfw G rn eqd atom w) as [d l]. unfold word_of in S. cbn [fst snd] in S. exists (Z.to_nat (- d)). intros j Hj. rewrite <- S, app_assoc, <- wpow_add by apply lift_range.
  apply pos_app; [|apply pos_liftl]. replace (Z.of_nat j + d)%Z with (Z.of_nat (Z.to_nat (Z.of_nat j + d))) by lia. rewrite <- (liftl_repeat_D G lift). apply pos_liftl.
Qed.
Lemma DW_range k : in_range n (DW k). Proof using lift_range. apply in_range_wpow. apply lift_range. Qed.
Lemma glb_pair u v : in_range n u -> in_range n v -> exists h, in_range n h /\ ble h u /\ ble h v /\ forall e, in_range n e -> ble e u -> ble e v -> ble e h.
Proof using rn_ok D_ne_one lift_range lift_mul lift_atom act_braid act_far act_lift lift_esum.
  intros Ru Rv. destruct (big_power u Ru) as (ku & Ku), (big_power v Rv) as (kv & Kv). set (N := Nat.max ku kv). destruct (Ku N ltac:(lia)) as (a & Ea), (Kv N ltac:(lia)) as (b & Eb).
  destruct (monoid_gcd (S (Z.to_nat (esum (liftl a) + esum (liftl b)))) a b ltac:(pose proof (esum_liftl a); pose proof (esum_liftl b); lia)) as (h & H1 & H2 & HU). exists (winv (DW (Z.of_nat N)) ++ liftl h).
  pose proof (DW_range (Z.of_nat N)) as RD. assert (EH : braid_eq n (DW (Z.of_nat N) ++ winv (DW (Z.of_nat N)) ++ liftl h) (liftl h)) by (rewrite app_assoc, be_inv_r by exact RD; reflexivity).
  split; [apply Forall_app; split; [now apply in_range_winv|apply liftl_in]|]. split; [apply (ble_left (DW (Z.of_nat N))); [exact RD|]; now rewrite EH, Ea|]. split; [apply (ble_left (DW (Z.of_nat N))); [exact RD|]; now rewrite EH, Eb|].
  intros e Re Hu Hv. destruct (big_power e Re) as (ke & Ke). set (M := ke). destruct (Ke (M + N) ltac:(lia)) as (e0 & E0). set (dl := repeat D M).
  assert (EP : forall w l, braid_eq n (DW (Z.of_nat N) ++ w) (liftl l) -> braid_eq n (DW (Z.of_nat (M + N)) ++ w) (liftl (dl ++ l))).
  { intros w l E. rewrite Nat2Z.inj_add, wpow_add by apply lift_range. rewrite <- app_assoc, E, liftl_app. unfold dl. rewrite (liftl_repeat_D G lift). reflexivity. }
  pose proof (EP u a Ea) as Ea'. pose proof (EP v b Eb) as Eb'. pose proof (EP _ h EH) as EH'.
  apply (ble_left (DW (Z.of_nat (M + N)))) in Hu, Hv; try apply DW_range. apply (ble_left (DW (Z.of_nat (M + N)))); [apply DW_range|]. rewrite EH', E0. rewrite E0, Ea' in Hu. rewrite E0, Eb' in Hv.
  destruct (monoid_gcd (S (Z.to_nat (esum (liftl (dl ++ a)) + esum (liftl (dl ++ b))))) (dl ++ a) (dl ++ b) ltac:(pose proof (esum_liftl (dl ++ a)); pose proof (esum_liftl (dl ++ b)); lia)) as (h2 & K1 & K2 & KU).
  apply (ble_trans _ (liftl h2)); [apply liftl_in|now apply KU|].
  assert (L1 : forall z, ble (liftl dl) (liftl (dl ++ z))) by (intros z; rewrite liftl_app; apply ble_right; [apply liftl_in|apply pos_liftl]).
  pose proof (KU dl (L1 a) (L1 b)) as LG. apply ble_ex in LG; [|apply liftl_in]. destruct LG as (k & Ek). rewrite Ek in *. rewrite !liftl_app in *. apply ble_left in K1, K2; try apply liftl_in. apply ble_left; [apply liftl_in|]. now apply HU.
Qed.
Lemma glb_list u us : in_range n u -> Forall (in_range n) us -> exists h, in_range n h /\ (forall v, In v (u :: us) -> ble h v) /\ forall e, in_range n e -> (forall v, In v (u :: us) -> ble e v) -> ble e h.
Proof using rn_ok D_ne_one lift_range lift_mul lift_atom act_braid act_far act_lift lift_esum.
  intros Ru F. induction F as [|v us Rv F IH].
  - exists u. split; [exact Ru|]. split; [intros v [<-|[]]; now apply ble_refl|]. intros e Re H. apply H. now left.
  - destruct IH as (h & Rh & H1 & HU). destruct (glb_pair h v Rh Rv) as (g & Rg & G1 & G2 & GU). exists g. split; [exact Rg|]. split.
    + intros z [<-|[<-|Hz]]; [apply (ble_trans _ h); auto; apply H1; now left|exact G2|apply (ble_trans _ h); auto; apply H1; now right].
    + intros e Re H. apply GU; [exact Re| |apply H; right; now left]. apply HU; [exact Re|]. intros z [<-|Hz]; apply H; [now left|right; now right].
Qed.
(** ** no torsion *)
Theorem torsion_free w k : in_range n w -> braid_eq n (wpow w k) [] -> k = 0%Z \/ braid_eq n w [].
Proof using rn_ok D_ne_one lift_range lift_mul lift_atom act_braid act_far act_lift lift_esum.
  intros R H. destruct (Z.eq_dec k 0) as [->|Nk]; [now left|]. right.
  assert (POS : exists m, braid_eq n (wpow w (Z.of_nat (S m))) []).
  { destruct (Z.lt_ge_cases 0 k) as [Hk|Hk]; [exists (Z.to_nat (k - 1)); now replace (Z.of_nat (S (Z.to_nat (k - 1)))) with k by lia|]. exists (Z.to_nat (- k - 1)). replace (Z.of_nat (S (Z.to_nat (- k - 1)))) with (- k)%Z by lia.
    assert (Q : braid_eq n (wpow w (- k) ++ wpow w k) []) by (rewrite <- wpow_add by exact R; replace (- k + k)%Z with 0%Z by lia; rewrite wpow_0; reflexivity). rewrite H, app_nil_r in Q. exact Q. }
  destruct POS as (m & HP). set (pw := fun i => wpow w (Z.of_nat i)). assert (RP : forall i, in_range n (pw i)) by (intros i; apply in_range_wpow; exact R).
  assert (SP : forall i, braid_eq n (w ++ pw i) (pw (S i))). { intros i. unfold pw. rewrite Nat2Z.inj_succ, <- Z.add_1_r. symmetry. now apply wpow_succ. }
  destruct (glb_list (pw 0) (map pw (seq 1 m))) as (h & Rh & H1 & HU); [apply RP|apply Forall_map, Forall_forall; intros i _; apply RP|].
  assert (IN : forall v, In v (pw 0 :: map pw (seq 1 m)) <-> exists i, i <= m /\ v = pw i). { intros v. change (pw 0 :: map pw (seq 1 m)) with (map pw (seq 0 (S m))). rewrite in_map_iff. split; [intros (i & <- & Hi); apply in_seq in Hi; exists i; split; [lia|reflexivity]|intros (i & Hi & ->); exists i; split; [reflexivity|apply in_seq; lia]]. }
  assert (LE : ble (w ++ h) h).
  { apply HU; [apply Forall_app; auto|]. intros v Hv. apply IN in Hv. destruct Hv as (i & Hi & ->).
    assert (PR : exists j, j <= m /\ braid_eq n (w ++ pw j) (pw i)). { destruct i as [|i]; [exists m; split; [lia|]|exists i; split; [lia|apply SP]]. rewrite SP. unfold pw. rewrite HP. reflexivity. }
    destruct PR as (j & Hj & Ej). rewrite <- Ej. apply ble_left; [exact R|]. apply H1, IN. eauto. }
  assert (E0 : esum w = 0%Z). { pose proof (esum_be n _ _ HP) as E. unfold wpow in E. rewrite (proj2 (Z.leb_le 0 _)) in E by lia. rewrite esum_concat in E. change (esum []) with 0%Z in E. nia. }
  assert (EW : braid_eq n (w ++ h) h) by (apply ble_antisym; [apply Forall_app; auto|exact LE|rewrite esum_app; lia]).
  apply (be_cancel_r n h); [exact Rh|]. exact EW.
Qed.
End Lattice.
