(** PropsGeodesic.v – C137: max(sup, 0) - min(inf, 0) is the least number of simple braids
    and inverses of simple braids whose product is the given braid (GNF and DGNF). *)
From Verif Require Import Base ModelPerm ModelBraid SpecBraid BraidTheory Germ GermNF GermAct GermBraid TableTheory NFApi NFGeneric PermWords PermGerm PermTable PropsGNF PropsGNF2.
From Verif Require NCGerm NCLift.
From Verif Require Import ModelNPar NParBlocks NParTable PropsNPar PropsDGNF PropsTree PropsLength.
From Coq Require Import Setoid.
Local Open Scope nat_scope.

(** a simple braid: positive and dividing Delta, that is (C54, C99) 0 <= inf and sup <= 1 *)
Definition nf_simple (x : nfobj) : Prop := (0 <= inf x)%Z /\ (sup x <= 1)%Z.
Definition nf_simple_inv (x : nfobj) : Prop := (-1 <= inf x)%Z /\ (sup x <= 0)%Z.
Definition nf_unit (x : nfobj) : Prop := nf_simple x \/ nf_simple_inv x.
Definition geolen (b : nfobj) : Z := (Z.max (sup b) 0 - Z.min (inf b) 0)%Z.

Section Gen.
Context {A : Type}.
Variable tbl : nftable A.
Variable G : Germ.
Variable rn : T G -> T G -> T G * T G.
Variable eqd : forall x y : T G, {x = y} + {x <> y}.
Variable n : nat.
Variable wd : T G -> list (Z * Z).
Variable atom : nat -> T G.
Variable idx : T G -> Z.
Variable div : T G -> A.
Hypothesis TK : table_ok tbl G rn eqd n wd atom idx div.
Variable tb : nat -> res (nftable A).
Hypothesis Htb : tb n = Ok tbl.
Notation enc := (TableTheory.enc G n idx).
Notation reps := (reps G eqd n wd idx).
Notation lift := (TableTheory.lift G wd).

Lemma reps_nil b : reps b [] -> inf b = 0%Z /\ sup b = 0%Z.
Proof using TK.
  intros R. pose proof (reps_word G eqd n wd idx (0%Z, []) (GermAct.ok_nil G eqd 0)) as R0. assert (Q : b = enc (0%Z, [])) by (apply (reps_eq _ _ _ _ _ _ _ _ _ TK b _ [] _ R R0); reflexivity). subst b. now split.
Qed.
Lemma reps_lower xs ws : Forall2 reps xs ws -> Forall nf_unit xs -> forall b, reps b (concat ws) -> exists p q, p + q = length xs /\ (- Z.of_nat q <= inf b)%Z /\ (sup b <= Z.of_nat p)%Z.
Proof using TK Htb.
  induction 1 as [|x w xs ws Rx F IH]; intros U b Rb; cbn [concat] in Rb.
  - destruct (reps_nil b Rb). exists 0, 0. cbn [length]. repeat split; lia.
  - inversion U as [|? ? Ux U']; subst. assert (Rr : in_range n (concat ws)) by (clear IH U U' Rb; induction F as [|y v ys vs Ry F IH]; [constructor|cbn [concat]; apply Forall_app; split; [exact (reps_range _ _ _ _ _ _ _ _ _ TK y v Ry)|exact IH]]).
    pose proof (reps_nfw _ _ _ _ _ _ _ _ _ TK (concat ws) Rr) as R'. destruct (IH U' _ R') as (p & q & L & HI & HS). pose proof (r_mul_inf _ _ _ _ _ _ _ _ _ TK x _ b _ _ Rx R' Rb) as MI. pose proof (r_mul_sup _ _ _ _ _ _ _ _ _ TK tb Htb x _ b _ _ Rx R' Rb) as MS.
    cbn [length]. destruct Ux as [[U1 U2]|[U1 U2]]; [exists (S p), q|exists p, (S q)]; rewrite ?Nat2Z.inj_succ; clear - U1 U2 L HI HS MI MS; repeat split; lia.
Qed.
Lemma reps_peel b w : reps b w -> (0 < sup b)%Z -> exists b' x u v, reps b' u /\ reps x v /\ nf_simple x /\ braid_eq n w (u ++ v) /\ geolen b = (geolen b' + 1)%Z.
Proof using TK.
  intros ([d l] & Ho & -> & E) Hs. destruct l as [|y l] using rev_ind.
  - exists (enc ((d - 1)%Z, [])), (enc (1%Z, [])). do 2 eexists. split; [apply reps_word, GermAct.ok_nil|]. split; [apply reps_word, GermAct.ok_nil|]. split; [split; cbn; lia|]. split.
    + rewrite <- E. unfold word_of. cbn [fst snd liftl flat_map]. rewrite !app_nil_r. rewrite <- wpow_add by apply (tk_range _ _ _ _ _ _ _ _ _ TK). replace (d - 1 + 1)%Z with d by lia. reflexivity.
    + unfold geolen, sup, inf in *. cbn in *. lia.
  - clear IHl. exists (enc (d, l)), (enc (0%Z, [y])). do 2 eexists. split; [apply reps_word; exact (prefix_ok _ _ _ _ _ _ _ _ _ TK d l [y] Ho)|].
    split; [apply reps_word, (ok_any G eqd d 0%Z); exact (suffix_ok _ _ _ _ _ _ _ _ _ TK d l [y] Ho)|]. split; [split; cbn; lia|]. split.
    + rewrite <- E. unfold word_of. cbn [fst snd]. unfold liftl. rewrite flat_map_app, app_assoc. reflexivity.
    + unfold geolen, sup, inf in *. cbn [TableTheory.enc o_pow o_factors fst snd] in *. rewrite !map_length in *. rewrite !app_length in *. cbn [length] in *. clear - Hs. lia.
Qed.
Lemma reps_upper m : forall b w, reps b w -> geolen b = Z.of_nat m -> exists xs ws, Forall2 reps xs ws /\ Forall nf_unit xs /\ length xs = m /\ braid_eq n w (concat ws).
Proof using TK Htb.
  induction m as [|m IH]; intros b w R L.
  - exists [], []. split; [constructor|]. split; [constructor|]. split; [reflexivity|]. cbn [concat]. apply (reps_eq _ _ _ _ _ _ _ _ _ TK b b w [] R); [|reflexivity].
    destruct R as ([d l] & Ho & -> & _). assert (Q : d = 0%Z /\ l = []) by (unfold geolen, sup, inf in L; cbn [TableTheory.enc o_pow o_factors fst snd] in L; rewrite map_length in L; destruct l; [split; [cbn [length] in L; lia|reflexivity]|cbn [length] in L; lia]). destruct Q as [-> ->].
    eapply reps_mor; [|apply reps_word; exact Ho]. reflexivity.
  - destruct (Z_lt_dec 0 (sup b)) as [P|P].
    + destruct (reps_peel b w R P) as (b' & x & u & v & Rb & Rx & Sx & E & Lb). destruct (IH b' u Rb ltac:(lia)) as (xs & ws & F & U & Lx & Eu). exists (xs ++ [x]), (ws ++ [v]). split; [apply Forall2_app; auto|]. split; [apply Forall_app; split; [exact U|constructor; [left; exact Sx|constructor]]|]. split; [rewrite app_length; cbn [length]; lia|].
      rewrite concat_app. cbn [concat]. rewrite app_nil_r, E, Eu. reflexivity.
    + destruct (reps_inv _ _ _ _ _ _ _ _ _ TK tb Htb b w R) as (i & _ & Ri). destruct (r_inv _ _ _ _ _ _ _ _ _ TK b i w R Ri) as (I1 & I2). assert (P' : (0 < sup i)%Z) by (unfold geolen in L; lia).
      destruct (reps_peel i _ Ri P') as (b' & x & u & v & Rb & Rx & Sx & E & Lb). destruct (reps_inv _ _ _ _ _ _ _ _ _ TK tb Htb b' u Rb) as (j & _ & Rj). destruct (r_inv _ _ _ _ _ _ _ _ _ TK b' j u Rb Rj) as (J1 & J2). destruct (reps_inv _ _ _ _ _ _ _ _ _ TK tb Htb x v Rx) as (y & _ & Ry). destruct (r_inv _ _ _ _ _ _ _ _ _ TK x y v Rx Ry) as (Y1 & Y2).
      destruct (IH j (winv u) Rj) as (xs & ws & F & U & Lx & Eu); [unfold geolen in *; lia|]. exists (y :: xs), (winv v :: ws). split; [constructor; auto|]. split; [constructor; [right; destruct Sx; split; lia|exact U]|]. split; [cbn [length]; lia|].
      cbn [concat]. rewrite <- Eu, <- winv_app, <- (winv_mor n _ _ E), winv_winv. reflexivity.
Qed.
(** a braid is denoted by [concat ws] and xs are braids denoting the words of ws, i.e. b is
    the product of xs *)
Definition product_is (xs : list nfobj) (b : nfobj) : Prop := exists ws, Forall2 (denotes tb n) xs ws /\ denotes tb n b (concat ws).
Theorem g_geodesic b : nf_value tb n b -> (exists xs, product_is xs b /\ Forall nf_unit xs /\ Z.of_nat (length xs) = geolen b) /\
  forall xs, product_is xs b -> Forall nf_unit xs -> (geolen b <= Z.of_nat (length xs))%Z.
Proof using TK Htb.
  intros V. assert (DI : forall xs ws, Forall2 (denotes tb n) xs ws <-> Forall2 reps xs ws) by (intros xs ws; split; induction 1; constructor; auto; now apply (denotes_iff _ _ _ _ _ _ _ _ _ TK tb Htb)).
  split.
  - destruct (value_reps _ _ _ _ _ _ _ _ _ TK tb Htb b V) as (w & R & _). assert (N : (0 <= geolen b)%Z) by (unfold geolen; lia).
    destruct (reps_upper (Z.to_nat (geolen b)) b w R) as (xs & ws & F & U & L & E); [lia|]. exists xs. split; [|split; [exact U|lia]]. exists ws. split; [now apply DI|]. apply (denotes_iff _ _ _ _ _ _ _ _ _ TK tb Htb). eapply reps_mor; [exact E|exact R].
  - intros xs (ws & F & D) U. apply DI in F. apply (denotes_iff _ _ _ _ _ _ _ _ _ TK tb Htb) in D. destruct (reps_lower xs ws F U b D) as (p & q & L & I & S). unfold geolen. lia.
Qed.
End Gen.

(** C137.  For every GNF / DGNF braid b: b is a product of geolen b = max(sup b, 0) -
    min(inf b, 0) simple braids and inverses of simple braids, and of no fewer. *)
Theorem C137_gnf n tb b : 2 <= n -> gnf_table n tb -> nf_value tb n b ->
  (exists xs, product_is n tb xs b /\ Forall nf_unit xs /\ Z.of_nat (length xs) = geolen b) /\
  forall xs, product_is n tb xs b -> Forall nf_unit xs -> (geolen b <= Z.of_nat (length xs))%Z.
Proof. intros n2 Ht. exact (g_geodesic _ _ _ _ _ _ _ _ _ (ptab_ok n n2) tb (gnf_table_ptab n tb Ht) b). Qed.
Theorem C137_dgnf n tab b : 2 <= n -> npar_tables n tab -> nf_value (dtb tab) n b ->
  (exists xs, product_is n (dtb tab) xs b /\ Forall nf_unit xs /\ Z.of_nat (length xs) = geolen b) /\
  forall xs, product_is n (dtb tab) xs b -> Forall nf_unit xs -> (geolen b <= Z.of_nat (length xs))%Z.
Proof. intros n2 Ht. exact (g_geodesic _ _ _ _ _ _ _ _ _ (ntab_ok n n2) (dtb tab) (dtb_ok n tab n2 Ht) b). Qed.

(** s0^2 s1^-1 in B_4: inf < 0 < sup, so factors of both kinds are needed *)
Example C137_case : exists b, nf_value (gtb hdpick) 4 b /\ (inf b < 0)%Z /\ (0 < sup b)%Z /\ exists xs, product_is 4 (gtb hdpick) xs b /\ Forall nf_unit xs /\ Z.of_nat (length xs) = geolen b.
Proof.
  assert (G : gnf_table 4 (gtb hdpick)) by (apply gtb_is_table; [apply hdpick_ok|lia]).
  set (wa := [(0, 2); (1, -1)]%Z). assert (Ha : word_ok 4 wa) by (repeat constructor; cbn; lia).
  destruct (api_from_word _ _ _ _ _ _ _ _ _ (ptab_ok 4 ltac:(lia)) (gtb hdpick) (gnf_table_ptab 4 _ G) wa Ha) as (a & Ea & (Va & _)).
  assert (Q : match from_artin_word (gtb hdpick) 4 wa with Ok a => (inf a <? 0)%Z && (0 <? sup a)%Z = true | _ => False end) by (vm_compute; reflexivity).
  rewrite Ea in Q. apply andb_prop in Q as [Q1 Q2]. apply Z.ltb_lt in Q1, Q2. exists a. repeat (split; [assumption|]). exact (proj1 (C137_gnf 4 _ a ltac:(lia) G Va)).
Qed.
Example C137_case_dgnf : npar_tables 4 PropsLength.ex_tab /\ exists b, nf_value (dtb PropsLength.ex_tab) 4 b /\ (inf b < 0)%Z /\ (0 < sup b)%Z /\ exists xs, product_is 4 (dtb PropsLength.ex_tab) xs b /\ Forall nf_unit xs /\ Z.of_nat (length xs) = geolen b.
Proof.
  pose proof (proj1 C136_case_dgnf) as Ht. split; [exact Ht|].
  set (wa := [(0, 2); (1, -1)]%Z). assert (Ha : word_ok 4 wa) by (repeat constructor; cbn; lia).
  destruct (api_from_word _ _ _ _ _ _ _ _ _ (ntab_ok 4 ltac:(lia)) (dtb PropsLength.ex_tab) (dtb_ok 4 _ ltac:(lia) Ht) wa Ha) as (a & Ea & (Va & _)).
  assert (Q : match from_artin_word (dtb PropsLength.ex_tab) 4 wa with Ok a => (inf a <? 0)%Z && (0 <? sup a)%Z = true | _ => False end) by (vm_compute; reflexivity).
  rewrite Ea in Q. apply andb_prop in Q as [Q1 Q2]. apply Z.ltb_lt in Q1, Q2. exists a. repeat (split; [assumption|]). exact (proj1 (C137_dgnf 4 _ a ltac:(lia) Ht Va)).
Qed.
