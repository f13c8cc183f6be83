(** PropsLength.v – C136: how inf, sup and the canonical length behave under products,
    inverses and powers, for GNF and DGNF. *)
From Verif Require Import Base ModelPerm ModelBraid SpecBraid BraidTheory Germ GermNF GermAct GermBraid TableTheory NFApi NFGeneric PermWords PermGerm PermTable PropsGNF PropsGNF2.
From Verif Require NCGerm NCLift.
From Verif Require Import ModelNPar NParBlocks NParTable PropsNPar PropsDGNF.
From Coq Require Import Setoid.
Local Open Scope nat_scope.

Section Gen.
Context {A : Type}.
Variable tbl : nftable A.
Variable G : Germ.
Variable rn : T G -> T G -> T G * T G.
Variable eqd : forall x y : T G, {x = y} + {x <> y}.
Variable n : nat.
Variable wd : T G -> list (Z * Z).
Variable atom : nat -> T G.
Variable idx : T G -> Z.
Variable div : T G -> A.
Hypothesis TK : table_ok tbl G rn eqd n wd atom idx div.
Variable tb : nat -> res (nftable A).
Hypothesis Htb : tb n = Ok tbl.
Notation enc := (TableTheory.enc G n idx).
Notation reps := (reps G eqd n wd idx).
Notation lift := (TableTheory.lift G wd).
Notation DD k := (wpow (TableTheory.lift G wd (D G)) k).
Notation simple := (simple_product G n wd).

Lemma lr : forall x, in_range n (lift x). Proof using TK. exact (tk_range _ _ _ _ _ _ _ _ _ TK). Qed.
Lemma dd_add a b : braid_eq n (DD (a + b)) (DD a ++ DD b).
Proof using TK. apply wpow_add, lr. Qed.
Lemma dd_0 a b : (a + b = 0)%Z -> braid_eq n (DD a ++ DD b) [].
Proof using TK. intros H. rewrite <- dd_add, H. rewrite wpow_0. reflexivity. Qed.
(** passing a power of Delta *)
Lemma pass x k : simple x -> exists y, simple y /\ braid_eq n (x ++ DD k) (DD k ++ y).
Proof using TK.
  intros [l E]. exists (flat_map lift (map (taupow G k) l)). split; [eexists; reflexivity|]. rewrite E. exact (gliftl_taupow _ _ _ _ _ _ _ _ _ TK k l).
Qed.
Lemma conj_l x k : simple (x ++ DD k) -> simple (DD k ++ x).
Proof using TK.
  intros H. destruct (pass _ (- k)%Z H) as (y & Hy & E). apply (simple_mor G n wd y); [|exact Hy].
  rewrite <- app_assoc, (dd_0 k (- k)), app_nil_r in E by lia. rewrite E, app_assoc, (dd_0 k (- k)) by lia. reflexivity.
Qed.
Lemma conj_r x k : simple (DD k ++ x) -> simple (x ++ DD k).
Proof using TK.
  intros H. destruct (pass _ k H) as (y & Hy & E). apply (simple_mor G n wd y); [|exact Hy].
  rewrite <- app_assoc in E. assert (E' : braid_eq n (DD (- k) ++ DD k ++ x ++ DD k) (DD (- k) ++ DD k ++ y)) by now rewrite E.
  rewrite !(app_assoc (DD (- k))), (dd_0 (- k) k) in E' by lia. cbn [app] in E'. now symmetry.
Qed.
Lemma r_inf b w k : reps b w -> (simple (DD (- k) ++ w) <-> (k <= inf b)%Z).
Proof using TK.
  intros (s & Hs & -> & E). change (inf (enc s)) with (fst s). rewrite <- (g_inf _ _ _ _ _ _ _ _ _ TK s k Hs).
  split; apply simple_mor; now rewrite E.
Qed.
Lemma r_sup b w k : reps b w -> (simple (winv w ++ DD k) <-> (sup b <= k)%Z).
Proof using TK.
  intros (s & Hs & -> & E). assert (Q : sup (enc s) = sup_of G s) by (destruct s; unfold sup, sup_of; cbn; now rewrite map_length).
  rewrite Q, <- (g_sup _ _ _ _ _ _ _ _ _ TK s k Hs). split; apply simple_mor; apply be_app; try reflexivity; apply winv_mor; [now symmetry|exact E].
Qed.
Lemma r_inv a i u : reps a u -> reps i (winv u) -> inf i = (- sup a)%Z /\ sup i = (- inf a)%Z.
Proof using TK.
  intros Ra Ri. assert (K1 : forall k, (k <= inf i <-> sup a <= - k)%Z).
  { intros k. rewrite <- (r_inf i _ k Ri), <- (r_sup a _ (- k) Ra). split; [apply conj_r|apply conj_l]. }
  assert (K2 : forall k, (sup i <= k <-> - k <= inf a)%Z).
  { intros k. rewrite <- (r_sup i _ k Ri), winv_winv, <- (r_inf a _ (- k) Ra), Z.opp_involutive. split; [apply conj_l|apply conj_r]. }
  split.
  - pose proof (proj1 (K1 (inf i)) (Z.le_refl _)). pose proof (proj2 (K1 (- sup a)%Z)). lia.
  - pose proof (proj1 (K2 (sup i)) (Z.le_refl _)). pose proof (proj2 (K2 (- inf a)%Z)). lia.
Qed.
Lemma r_mul_inf a b c u v : reps a u -> reps b v -> reps c (u ++ v) -> (inf a + inf b <= inf c)%Z.
Proof using TK.
  intros Ra Rb Rc. apply (r_inf c _ _ Rc). pose proof (proj2 (r_inf a _ (inf a) Ra) (Z.le_refl _)) as Sa. pose proof (proj2 (r_inf b _ (inf b) Rb) (Z.le_refl _)) as Sb.
  destruct (pass _ (inf b) Sa) as (z & Hz & F). apply (simple_mor G n wd (z ++ DD (- inf b) ++ v)); [|now apply simple_app].
  assert (Fz : braid_eq n z (DD (- inf b) ++ (DD (- inf a) ++ u) ++ DD (inf b))) by (rewrite F, app_assoc, (dd_0 (- inf b) (inf b)) by lia; reflexivity).
  rewrite Fz. replace (- (inf a + inf b))%Z with (- inf b + - inf a)%Z by lia. rewrite dd_add, <- !app_assoc. do 3 (apply be_app; [reflexivity|]).
  rewrite app_assoc, (dd_0 (inf b) (- inf b)) by lia. reflexivity.
Qed.
Lemma r_mul_sup a b c u v : reps a u -> reps b v -> reps c (u ++ v) -> (sup c <= sup a + sup b)%Z.
Proof using TK Htb.
  intros Ra Rb Rc. destruct (reps_inv _ _ _ _ _ _ _ _ _ TK tb Htb a u Ra) as (ia & _ & Ia). destruct (reps_inv _ _ _ _ _ _ _ _ _ TK tb Htb b v Rb) as (ib & _ & Ib). destruct (reps_inv _ _ _ _ _ _ _ _ _ TK tb Htb c _ Rc) as (ic & _ & Ic).
  destruct (r_inv a ia u Ra Ia) as (A1 & _), (r_inv b ib v Rb Ib) as (B1 & _), (r_inv c ic _ Rc Ic) as (C1 & _). rewrite winv_app in Ic. pose proof (r_mul_inf ib ia ic _ _ Ib Ia Ic). lia.
Qed.
(** the results, for values *)
Theorem g_inverse a i : nf_value tb n a -> nf_inv tb a = Ok i -> inf i = (- sup a)%Z /\ sup i = (- inf a)%Z /\ canonical_length i = canonical_length a.
Proof using TK Htb.
  intros Va Ei. destruct (value_reps _ _ _ _ _ _ _ _ _ TK tb Htb a Va) as (u & Ra & _). destruct (reps_inv _ _ _ _ _ _ _ _ _ TK tb Htb a u Ra) as (i' & E & Ri). rewrite Ei in E. injection E as <-.
  destruct (r_inv a i u Ra Ri) as (Q1 & Q2). split; [exact Q1|]. split; [exact Q2|]. clear - Q1 Q2. unfold inf, sup, canonical_length in *. lia.
Qed.
Lemma g_mul1 a b c : nf_value tb n a -> nf_value tb n b -> nf_mul tb a b = Ok c -> nf_value tb n c /\ (inf a + inf b <= inf c)%Z /\ (sup c <= sup a + sup b)%Z.
Proof using TK Htb.
  intros Va Vb Ec. destruct (value_reps _ _ _ _ _ _ _ _ _ TK tb Htb a Va) as (u & Ra & _), (value_reps _ _ _ _ _ _ _ _ _ TK tb Htb b Vb) as (v & Rb & _).
  destruct (reps_mul _ _ _ _ _ _ _ _ _ TK tb Htb a b u v Ra Rb) as (c' & E & Rc). rewrite Ec in E. injection E as <-.
  split; [exact (reps_value _ _ _ _ _ _ _ _ _ TK tb Htb _ _ Rc)|]. split; [now apply (r_mul_inf a b c u v)|now apply (r_mul_sup a b c u v)].
Qed.
Theorem g_mul a b c : nf_value tb n a -> nf_value tb n b -> nf_mul tb a b = Ok c ->
  (inf a + inf b <= inf c <= Z.min (inf a + sup b) (sup a + inf b))%Z /\ (Z.max (inf a + sup b) (sup a + inf b) <= sup c <= sup a + sup b)%Z /\
  canonical_length c <= canonical_length a + canonical_length b /\ canonical_length a <= canonical_length c + canonical_length b /\ canonical_length b <= canonical_length a + canonical_length c.
Proof using TK Htb.
  intros Va Vb Ec. destruct (g_mul1 a b c Va Vb Ec) as (Vc & I1 & S1).
  destruct (api_inverse _ _ _ _ _ _ _ _ _ TK tb Htb a Va) as (ia & e & Ea & Via & Ee & A1 & A2). destruct (api_inverse _ _ _ _ _ _ _ _ _ TK tb Htb b Vb) as (ib & e' & Eb & Vib & Ee' & B1 & B2). rewrite Ee in Ee'. injection Ee' as <-.
  assert (Qa : nf_mul tb c ib = Ok a).
  { destruct (api_assoc _ _ _ _ _ _ _ _ _ TK tb Htb a b ib Va Vb Vib) as (x & y & z & F1 & F2 & F3 & F4). rewrite Ec in F1. injection F1 as <-. rewrite B1 in F2. injection F2 as <-. destruct (api_id_neutral _ _ _ _ _ _ _ _ _ TK tb Htb a Va) as (e' & Ee' & _ & N1 & _). rewrite Ee in Ee'. injection Ee' as <-. rewrite N1 in F4. injection F4 as <-. exact F3. }
  assert (Qb : nf_mul tb ia c = Ok b).
  { destruct (api_assoc _ _ _ _ _ _ _ _ _ TK tb Htb ia a b Via Va Vb) as (x & y & z & F1 & F2 & F3 & F4). rewrite A2 in F1. injection F1 as <-. rewrite Ec in F2. injection F2 as <-. destruct (api_id_neutral _ _ _ _ _ _ _ _ _ TK tb Htb b Vb) as (e' & Ee' & _ & _ & N2). rewrite Ee in Ee'. injection Ee' as <-. rewrite N2 in F3. injection F3 as <-. exact F4. }
  destruct (g_mul1 c ib a Vc Vib Qa) as (_ & I2 & S2). destruct (g_mul1 ia c b Via Vc Qb) as (_ & I3 & S3). destruct (g_inverse a ia Va Ea) as (P1 & P2 & _), (g_inverse b ib Vb Eb) as (P3 & P4 & _).
  rewrite P1, P2 in *. rewrite P3, P4 in *. clear - I1 S1 I2 S2 I3 S3. split; [lia|]. split; [lia|]. unfold inf, sup, canonical_length in *. lia.
Qed.
Theorem g_power a k x : nf_value tb n a -> nf_pow tb a k = Ok x ->
  (canonical_length x <= Z.abs_nat k * canonical_length a) /\ ((0 <= k)%Z -> (k * inf a <= inf x /\ sup x <= k * sup a)%Z) /\ ((k <= 0)%Z -> (k * sup a <= inf x /\ sup x <= k * inf a)%Z).
Proof using TK Htb.
  intros Va Ex. destruct (api_pow_rules _ _ _ _ _ _ _ _ _ TK tb Htb a Va) as (e & Ee & E0 & St & _).
  assert (Z0 : inf e = 0%Z /\ sup e = 0%Z).
  { pose proof (gmkE _ _ _ _ _ _ _ _ _ TK tb Htb 0%Z [] (GermAct.ok_nil G eqd 0)) as M. cbn [map] in M. unfold nf_identity in Ee. rewrite M in Ee. injection Ee as <-. now split. }
  assert (UP : forall m x, nf_pow tb a (Z.of_nat m) = Ok x -> (Z.of_nat m * inf a <= inf x /\ sup x <= Z.of_nat m * sup a)%Z).
  { induction m as [|m IH]; intros y Ey; [change (Z.of_nat 0) with 0%Z in Ey; rewrite E0 in Ey; injection Ey as <-; lia|]. destruct (St (Z.of_nat m)) as (z & Ez & Vz & y' & Ey' & M & _). replace (Z.of_nat m + 1)%Z with (Z.of_nat (S m)) in Ey' by lia. rewrite Ey in Ey'. injection Ey' as <-.
    specialize (IH z Ez). destruct (g_mul1 z a y Vz Va M) as (_ & I & S). rewrite Nat2Z.inj_succ. lia. }
  assert (DN : forall m x, nf_pow tb a (- Z.of_nat m) = Ok x -> (- Z.of_nat m * sup a <= inf x /\ sup x <= - Z.of_nat m * inf a)%Z).
  { induction m as [|m IH]; intros y Ey; [change (- Z.of_nat 0)%Z with 0%Z in Ey; rewrite E0 in Ey; injection Ey as <-; lia|]. destruct (St (- Z.of_nat (S m))%Z) as (z & Ez & Vz & y' & Ey' & M & _). rewrite Ey in Ez. injection Ez as <-. replace (- Z.of_nat (S m) + 1)%Z with (- Z.of_nat m)%Z in Ey' by lia.
    specialize (IH y' Ey'). destruct (g_mul y a y' Vz Va M) as (I & S & _). rewrite Nat2Z.inj_succ. lia. }
  assert (HU : (0 <= k)%Z -> (k * inf a <= inf x /\ sup x <= k * sup a)%Z) by (intros Hk; specialize (UP (Z.to_nat k) x); rewrite Z2Nat.id in UP by exact Hk; auto).
  assert (HD : (k <= 0)%Z -> (k * sup a <= inf x /\ sup x <= k * inf a)%Z) by (intros Hk; specialize (DN (Z.to_nat (- k)) x); rewrite Z2Nat.id, Z.opp_involutive in DN by lia; auto).
  split; [|auto]. clear - HU HD. unfold inf, sup, canonical_length in *. set (la := length (o_factors a)) in *. set (lx := length (o_factors x)) in *. clearbody la lx. destruct (Z.le_gt_cases 0 k) as [Hk|Hk].
  - destruct (HU Hk). assert ((Z.of_nat lx <= k * Z.of_nat la)%Z) by nia. nia.
  - destruct (HD ltac:(lia)). assert ((Z.of_nat lx <= (- k) * Z.of_nat la)%Z) by nia. nia.
Qed.
End Gen.

(** C136.  For a product c = a * b of GNF braids: inf and sup of c lie within these
    bounds, and the canonical lengths satisfy the three triangle inequalities. *)
Definition product_bounds (a b c : nfobj) : Prop :=
  (inf a + inf b <= inf c <= Z.min (inf a + sup b) (sup a + inf b))%Z /\
  (Z.max (inf a + sup b) (sup a + inf b) <= sup c <= sup a + sup b)%Z /\
  canonical_length c <= canonical_length a + canonical_length b /\
  canonical_length a <= canonical_length c + canonical_length b /\
  canonical_length b <= canonical_length a + canonical_length c.
Definition power_bounds (a : nfobj) (k : Z) (x : nfobj) : Prop :=
  canonical_length x <= Z.abs_nat k * canonical_length a /\
  ((0 <= k)%Z -> (k * inf a <= inf x /\ sup x <= k * sup a)%Z) /\
  ((k <= 0)%Z -> (k * sup a <= inf x /\ sup x <= k * inf a)%Z).

Theorem C136_gnf_mul n tb a b c : 2 <= n -> gnf_table n tb -> nf_value tb n a -> nf_value tb n b -> nf_mul tb a b = Ok c -> product_bounds a b c.
Proof. intros n2 Ht. exact (g_mul _ _ _ _ _ _ _ _ _ (ptab_ok n n2) tb (gnf_table_ptab n tb Ht) a b c). Qed.
Theorem C136_dgnf_mul n tab a b c : 2 <= n -> npar_tables n tab -> nf_value (dtb tab) n a -> nf_value (dtb tab) n b -> nf_mul (dtb tab) a b = Ok c -> product_bounds a b c.
Proof. intros n2 Ht. exact (g_mul _ _ _ _ _ _ _ _ _ (ntab_ok n n2) (dtb tab) (dtb_ok n tab n2 Ht) a b c). Qed.
Theorem C136_dgnf_inverse n tab a i : 2 <= n -> npar_tables n tab -> nf_value (dtb tab) n a -> nf_inv (dtb tab) a = Ok i ->
  inf i = (- sup a)%Z /\ sup i = (- inf a)%Z /\ canonical_length i = canonical_length a.
Proof. intros n2 Ht. exact (g_inverse _ _ _ _ _ _ _ _ _ (ntab_ok n n2) (dtb tab) (dtb_ok n tab n2 Ht) a i). Qed.
Theorem C136_gnf_pow n tb a k x : 2 <= n -> gnf_table n tb -> nf_value tb n a -> nf_pow tb a k = Ok x -> power_bounds a k x.
Proof. intros n2 Ht. exact (g_power _ _ _ _ _ _ _ _ _ (ptab_ok n n2) tb (gnf_table_ptab n tb Ht) a k x). Qed.
Theorem C136_dgnf_pow n tab a k x : 2 <= n -> npar_tables n tab -> nf_value (dtb tab) n a -> nf_pow (dtb tab) a k = Ok x -> power_bounds a k x.
Proof. intros n2 Ht. exact (g_power _ _ _ _ _ _ _ _ _ (ntab_ok n n2) (dtb tab) (dtb_ok n tab n2 Ht) a k x). Qed.

(** ** examples: in both classes, a = s0^2 s1^-1 and b = s1 s0^-1 s2 in B_4; a * b and
    a^-2 exist and the bounds are not attained by all of inf, sup and the length *)
Definition ex_tab := npar_table (fun _ _ _ l => hd (0, 0) l).
Example C136_case : exists a b c x, nf_value (gtb hdpick) 4 a /\ nf_value (gtb hdpick) 4 b /\ nf_mul (gtb hdpick) a b = Ok c /\ nf_pow (gtb hdpick) a (-2) = Ok x /\
  product_bounds a b c /\ power_bounds a (-2) x /\ canonical_length c < canonical_length a + canonical_length b /\ 1 < canonical_length x.
Proof.
  assert (G : gnf_table 4 (gtb hdpick)) by (apply gtb_is_table; [apply hdpick_ok|lia]).
  set (wa := [(0, 2); (1, -1)]%Z). set (wb := [(1, 1); (0, -1); (2, 1)]%Z). assert (Ha : word_ok 4 wa) by (repeat constructor; cbn; lia). assert (Hb : word_ok 4 wb) by (repeat constructor; cbn; lia).
  destruct (api_from_word _ _ _ _ _ _ _ _ _ (ptab_ok 4 ltac:(lia)) (gtb hdpick) (gnf_table_ptab 4 _ G) wa Ha) as (a & Ea & (Va & _)).
  destruct (api_from_word _ _ _ _ _ _ _ _ _ (ptab_ok 4 ltac:(lia)) (gtb hdpick) (gnf_table_ptab 4 _ G) wb Hb) as (b & Eb & (Vb & _)).
  destruct (C45_gnf_mul 4 _ a b ltac:(lia) G Va Vb) as (c & _ & _ & _ & Ec & _). destruct (C46_gnf_pow 4 _ a ltac:(lia) G Va) as (_ & _ & _ & St & _). destruct (St (-2)%Z) as (x & Ex & _).
  assert (Q : match from_artin_word (gtb hdpick) 4 wa, from_artin_word (gtb hdpick) 4 wb with Ok a, Ok b => match nf_mul (gtb hdpick) a b, nf_pow (gtb hdpick) a (-2) with Ok c, Ok x => (canonical_length c <? canonical_length a + canonical_length b) && (1 <? canonical_length x) = true | _, _ => False end | _, _ => False end) by (vm_compute; reflexivity).
  rewrite Ea, Eb, Ec, Ex in Q. apply andb_prop in Q as [Q1 Q2]. apply Nat.ltb_lt in Q1, Q2.
  exists a, b, c, x. split; [exact Va|]. split; [exact Vb|]. split; [exact Ec|]. split; [exact Ex|]. split; [exact (C136_gnf_mul 4 _ a b c ltac:(lia) G Va Vb Ec)|]. split; [exact (C136_gnf_pow 4 _ a (-2)%Z x ltac:(lia) G Va Ex)|]. auto.
Qed.
Example C136_case_dgnf : npar_tables 4 ex_tab /\ exists a b c i, nf_value (dtb ex_tab) 4 a /\ nf_value (dtb ex_tab) 4 b /\ nf_mul (dtb ex_tab) a b = Ok c /\ nf_inv (dtb ex_tab) a = Ok i /\
  product_bounds a b c /\ inf i = (- sup a)%Z /\ sup i = (- inf a)%Z /\ canonical_length c < canonical_length a + canonical_length b /\ sup a <> (- inf a)%Z.
Proof.
  assert (Ht : npar_tables 4 ex_tab) by (apply C55_table_domain; [|lia]; intros x y k [|e l] N; [contradiction|now left]).
  split; [exact Ht|].
  set (wa := [(0, 2); (1, -1)]%Z). set (wb := [(1, 1); (0, -1); (2, 1)]%Z). assert (Ha : word_ok 4 wa) by (repeat constructor; cbn; lia). assert (Hb : word_ok 4 wb) by (repeat constructor; cbn; lia).
  destruct (api_from_word _ _ _ _ _ _ _ _ _ (ntab_ok 4 ltac:(lia)) (dtb ex_tab) (dtb_ok 4 ex_tab ltac:(lia) Ht) wa Ha) as (a & Ea & (Va & _)).
  destruct (api_from_word _ _ _ _ _ _ _ _ _ (ntab_ok 4 ltac:(lia)) (dtb ex_tab) (dtb_ok 4 ex_tab ltac:(lia) Ht) wb Hb) as (b & Eb & (Vb & _)).
  destruct (C55_dgnf_mul 4 ex_tab ltac:(lia) Ht a b Va Vb) as (c & _ & _ & _ & Ec & _). destruct (C55_dgnf_inverse 4 ex_tab ltac:(lia) Ht a Va) as (i & _ & Ei & _).
  assert (Q : match from_artin_word (dtb ex_tab) 4 wa, from_artin_word (dtb ex_tab) 4 wb with Ok a, Ok b => match nf_mul (dtb ex_tab) a b with Ok c => (canonical_length c <? canonical_length a + canonical_length b) && negb (sup a =? - inf a)%Z = true | _ => False end | _, _ => False end) by (vm_compute; reflexivity).
  rewrite Ea, Eb, Ec in Q. apply andb_prop in Q as [Q1 Q2]. apply Nat.ltb_lt in Q1. apply negb_true_iff, Z.eqb_neq in Q2. destruct (C136_dgnf_inverse 4 ex_tab a i ltac:(lia) Ht Va Ei) as (I1 & I2 & _).
  exists a, b, c, i. split; [exact Va|]. split; [exact Vb|]. split; [exact Ec|]. split; [exact Ei|]. split; [exact (C136_dgnf_mul 4 ex_tab a b c ltac:(lia) Ht Va Vb Ec)|]. auto.
Qed.
