(** PropsTree.v – C135: the tree of normal forms, for both classes of braids; the
    constructor of BraidGroup; the degree of a polynomial. *)
From Verif Require Import Base ModelPerm ModelBraid ModelTL ModelTLMor ModelRep SpecRep PermTheory SpecPerm SpecBraid BraidTheory
  Germ GermNF GermAct GermBraid TableTheory NFApi NFGeneric PermWords PermGerm PermTable PropsGNF PropsGNF2.
From Verif Require NCGerm NCLift.
From Verif Require Import ModelNPar NParBlocks NParTable PropsNPar PropsDGNF.
From Verif Require ModelPoly PropsPoly PolyDiv.
From Coq Require Import FinFun.
Local Open Scope nat_scope.

Lemma NoDup_app_iff' {B} (a b : list B) : NoDup a -> NoDup b -> (forall x, In x a -> ~ In x b) -> NoDup (a ++ b).
Proof.
  induction 1 as [|x a Hx Ha IH]; intros Hb H; [exact Hb|]. cbn [app]. constructor; [|apply IH; auto; intros y Hy; apply H; now right].
  rewrite in_app_iff. intros [K|K]; [contradiction|]. exact (H x (or_introl eq_refl) K).
Qed.
Section Gen.
Context {A : Type}.
Variable tbl : nftable A.
Variable G : Germ.
Variable rn : T G -> T G -> T G * T G.
Variable eqd : forall x y : T G, {x = y} + {x <> y}.
Variable n : nat.
Variable wd : T G -> list (Z * Z).
Variable atom : nat -> T G.
Variable idx : T G -> Z.
Variable div : T G -> A.
Hypothesis TK : table_ok tbl G rn eqd n wd atom idx div.
Variable tb : nat -> res (nftable A).
Hypothesis Htb : tb n = Ok tbl.
Notation enc := (TableTheory.enc G n idx).
Notation ok := (ok G eqd).

Lemma gtau0 z : taupow G 0 z = z. Proof using. reflexivity. Qed.
Lemma prefix_ok d l m : ok (d, l ++ m) -> ok (d, l).
Proof using TK.
  rewrite !(ok_proper _ _ _ _ _ _ _ _ _ TK), Forall_app. intros (N & P & _). split; [|exact P]. clear P. revert N. induction l as [|x l IH]; [intros; exact I|]. destruct l as [|y l]; [intros; exact (Logic.conj I I)|]. intros [N1 N2]. exact (Logic.conj N1 (IH N2)).
Qed.
Lemma suffix_ok d l m : ok (d, l ++ m) -> ok (d, m).
Proof using TK.
  rewrite !(ok_proper _ _ _ _ _ _ _ _ _ TK), Forall_app. intros (N & _ & P). split; [|exact P]. clear P. revert N. induction l as [|x l IH]; [auto|]. intros [_ N]. exact (IH N).
Qed.
Lemma ok_any d d' l : ok (d, l) <-> ok (d', l).
Proof using. unfold GermAct.ok. cbn [snd]. tauto. Qed.
Theorem g_descendants b : nf_value tb n b -> exists xs, nf_descendants tb b = Ok xs /\ NoDup xs /\
  (forall c, In c xs <-> nf_value tb n c /\ o_pow c = o_pow b /\ exists s, o_factors c = o_factors b ++ [s]) /\
  (forall c, In c xs -> exists x, nf_value tb n x /\ o_pow x = 0%Z /\ length (o_factors x) = 1 /\ nf_mul tb b x = Ok c) /\
  (forall x c, nf_value tb n x -> nf_mul tb b x = Ok c -> o_pow c = o_pow b -> (exists s, o_factors c = o_factors b ++ [s]) -> In c xs).
Proof using TK Htb.
  intros V. destruct (gval_enc _ _ _ _ _ _ _ _ _ TK tb Htb b V) as [[d l] [Ho ->]].
  unfold nf_descendants. cbn [o_n TableTheory.enc]. rewrite Htb. cbn [bind].
  destruct (gsuffixes _ _ _ _ _ _ _ _ _ TK d l 1 ltac:(lia) Ho) as [ls [E [ND H]]].
  unfold TableTheory.enc in E at 1. cbn [fst snd] in *. unfold TableTheory.enc. cbn [fst snd o_pow o_factors]. rewrite E. cbn [bind].
  change (NFObj n d (map idx l)) with (enc (d, l)).
  assert (HI : forall c, In c (map (fun m => enc (d, l ++ m)) ls) <-> nf_value tb n c /\ o_pow c = d /\ exists s, o_factors c = map idx l ++ [s]).
  { intros c. rewrite in_map_iff. split.
    - intros (m & <- & Hm). apply H in Hm. destruct Hm as (L & _ & O). split; [apply (genc_val _ _ _ _ _ _ _ _ _ TK tb Htb); now apply (ok_any 0%Z)|]. split; [reflexivity|]. destruct m as [|s [|]]; [discriminate| |discriminate]. exists (idx s). cbn [TableTheory.enc o_factors snd]. now rewrite map_app.
    - intros (Vc & Pc & s & Fc). destruct (gval_enc _ _ _ _ _ _ _ _ _ TK tb Htb c Vc) as [[d' l'] [Ho' ->]]. cbn [TableTheory.enc o_pow o_factors fst snd] in Pc, Fc. subst d'.
      assert (Q : exists z, l' = l ++ [z]).
      { clear -Fc TK. revert l' Fc. induction l as [|x l IH]; intros [|y l'] K; try discriminate.
        - destruct l'; [|discriminate]. now exists y.
        - injection K as K1 K2. destruct (IH l' K2) as [z ->]. exists z. cbn [app]. f_equal. now apply (tk_inj _ _ _ _ _ _ _ _ _ TK). }
      destruct Q as [z ->]. exists [z]. split; [reflexivity|]. apply H. split; [reflexivity|]. split; [now apply (ok_any d), (suffix_ok d l)|now apply (ok_any d)]. }
  exists (map (fun m => enc (d, l ++ m)) ls). split; [|split; [|split; [exact HI|split]]].
  - rewrite (mapM_ok _ (fun f => NFObj n d (map idx l ++ f))); [rewrite map_map; f_equal; apply map_ext; intros m; unfold TableTheory.enc; cbn [fst snd]; now rewrite map_app|].
    intros f Hf. apply in_map_iff in Hf. destruct Hf as [m [<- Hm]]. apply H in Hm. destruct Hm as [_ [_ Om]]. rewrite <- map_app. apply (gmkE _ _ _ _ _ _ _ _ _ TK tb Htb d (l ++ m)). now apply (ok_any 0%Z).
  - apply Injective_map_NoDup; [|exact ND]. intros a b' K. apply (enc_inj _ _ _ _ _ _ _ _ _ TK) in K. injection K as K. now apply app_inv_head in K.
  - intros c Hc. apply in_map_iff in Hc as (m & <- & Hm). apply H in Hm. destruct Hm as (L & Om & O). exists (enc (0%Z, m)). split; [now apply (genc_val _ _ _ _ _ _ _ _ _ TK tb Htb)|]. split; [reflexivity|]. split; [cbn; now rewrite map_length|].
    rewrite (gmul_ok _ _ _ _ _ _ _ _ _ TK tb Htb (d, l) (0%Z, m)); auto; cbn [fst snd]; [now rewrite Z.add_0_r|]. rewrite <- (map_id l) at 2. apply map_ext. apply gtau0.
  - intros x c Vx Ec Pc Fc. apply HI. split; [|split; [exact Pc|exact Fc]].
    destruct (value_reps _ _ _ _ _ _ _ _ _ TK tb Htb x Vx) as [w [Rx _]]. destruct (reps_mul _ _ _ _ _ _ _ _ _ TK tb Htb _ _ _ _ (reps_word G eqd n wd idx (d, l) Ho) Rx) as [c' [Ec' Rc]].
    rewrite Ec in Ec'. injection Ec' as <-. exact (reps_value _ _ _ _ _ _ _ _ _ TK tb Htb _ _ Rc).
Qed.
Theorem g_parent c : nf_value tb n c -> o_factors c <> [] -> exists b, (nf_value tb n b /\ exists xs, nf_descendants tb b = Ok xs /\ In c xs) /\
  forall b', nf_value tb n b' -> (exists xs, nf_descendants tb b' = Ok xs /\ In c xs) -> b' = b.
Proof using TK Htb.
  intros Vc Nc. destruct (gval_enc _ _ _ _ _ _ _ _ _ TK tb Htb c Vc) as [[d l] [Ho ->]]. destruct (exists_last (l:=l)) as (q & s & ->); [intros ->; apply Nc; reflexivity|].
  pose proof (prefix_ok d q [s] Ho) as Oq. pose proof (genc_val _ _ _ _ _ _ _ _ _ TK tb Htb (d, q) Oq) as Vb. exists (enc (d, q)). split.
  - split; [exact Vb|]. destruct (g_descendants _ Vb) as (xs & E & _ & H & _). exists xs. split; [exact E|]. apply H. split; [exact Vc|]. split; [reflexivity|]. exists (idx s). cbn [TableTheory.enc o_factors snd]. now rewrite map_app.
  - intros b' Vb' (xs & E & I). destruct (g_descendants _ Vb') as (xs' & E' & _ & H & _). rewrite E in E'. injection E' as <-. apply H in I as (_ & P & z & F). destruct (gval_enc _ _ _ _ _ _ _ _ _ TK tb Htb b' Vb') as [[d' q'] [_ ->]].
    cbn [TableTheory.enc o_factors o_pow fst snd] in P, F. subst d'. rewrite map_app in F. cbn [map] in F. apply app_inj_tail in F as [F _]. unfold TableTheory.enc. cbn [fst snd]. now rewrite F.
Qed.
(** level k + 1 of the tree: the lists of descendants of the braids of level k,
    concatenated, are a list of the braids of level k + 1 without repetition *)
Theorem g_level len power bs bs' : (0 <= len)%Z -> all_of_length tb n len power = Ok bs -> all_of_length tb n (len + 1) power = Ok bs' ->
  exists ds, mapM (nf_descendants tb) bs = Ok ds /\ NoDup (concat ds) /\ forall c, In c (concat ds) <-> In c bs'.
Proof using TK Htb.
  intros Hl E1 E2. destruct (g_all_of_length _ _ _ _ _ _ _ _ _ TK tb Htb len power Hl) as (x1 & F1 & N1 & I1 & _). rewrite E1 in F1. injection F1 as <-.
  destruct (g_all_of_length _ _ _ _ _ _ _ _ _ TK tb Htb (len + 1) power ltac:(lia)) as (x2 & F2 & N2 & I2 & _). rewrite E2 in F2. injection F2 as <-.
  assert (V1 : forall b, In b bs -> nf_value tb n b) by (intros b Hb; now apply I1).
  assert (X : exists ds, mapM (nf_descendants tb) bs = Ok ds /\ NoDup (concat ds) /\ forall c, In c (concat ds) <-> exists b xs, In b bs /\ nf_descendants tb b = Ok xs /\ In c xs).
  { clear E1 I1. induction bs as [|b bs IH]; [exists []; repeat split; [constructor|intros []|intros (? & ? & [] & _)]|].
    inversion N1 as [|? ? Nb N1']; subst. destruct (IH N1') as (ds & E & ND & I); [intros; apply V1; now right|]. destruct (g_descendants b (V1 b (or_introl eq_refl))) as (xs & Ex & NX & HX & _).
    exists (xs :: ds). split; [cbn [mapM]; rewrite Ex; cbn [bind]; rewrite E; reflexivity|]. cbn [concat]. split.
    - apply NoDup_app_iff'; auto. intros c Hc Hc'. apply I in Hc' as (b' & xs' & Hb' & Ex' & Hc'). assert (Q : b = b'); [|subst b'; contradiction].
      pose proof (proj1 (HX c) Hc) as (Vc & _ & s & Fc). destruct (g_parent c Vc) as (b0 & _ & U); [rewrite Fc; now destruct (o_factors b)|].
      rewrite (U b (V1 b (or_introl eq_refl)) (ex_intro _ xs (Logic.conj Ex Hc))). symmetry. apply (U b' (V1 b' (or_intror Hb'))). eauto.
    - intros c. rewrite in_app_iff, I. split.
      + intros [Hc|(b' & xs' & Hb' & Q)]; [exists b, xs; split; [now left|auto]|exists b', xs'; split; [now right|exact Q]].
      + intros (b' & xs' & [<-|Hb'] & Ex' & Hc); [left; rewrite Ex in Ex'; now injection Ex' as ->|right; eauto]. }
  destruct X as (ds & E & ND & I). exists ds. split; [exact E|]. split; [exact ND|]. intros c. rewrite I, I2. split.
  - intros (b & xs & Hb & Ex & Hc). destruct (g_descendants b (V1 b Hb)) as (xs' & Ex' & _ & HX & _). rewrite Ex in Ex'. injection Ex' as <-. apply HX in Hc as (Vc & Pc & s & Fc). apply I1 in Hb as (_ & Pb & Lb). split; [exact Vc|]. split; [congruence|]. rewrite Fc, app_length, Lb. cbn [length]. lia.
  - intros (Vc & Pc & Lc). destruct (g_parent c Vc) as (b & (Vb & xs & Ex & Hc) & _); [intros Q; rewrite Q in Lc; cbn [length] in Lc; lia|]. exists b, xs. split; [|auto]. apply I1. destruct (g_descendants b Vb) as (xs' & Ex' & _ & HX & _). rewrite Ex in Ex'. injection Ex' as <-. apply HX in Hc as (_ & P & s & F).
    split; [exact Vb|]. split; [congruence|]. rewrite F, app_length in Lc. cbn [length] in Lc. lia.
Qed.
End Gen.

(** C135.  b.nf_descendants(), for GNF and DGNF and any power: it never raises, repeats
    nothing, and lists exactly the braids whose normal form is that of b with one factor
    appended; each of them is b times a braid with power 0 and one factor, and every
    product of that shape is listed. *)
Definition lists_children {T} (tb : nat -> res (nftable T)) (n : nat) (b : nfobj) (xs : list nfobj) : Prop :=
  nf_descendants tb b = Ok xs /\ NoDup xs /\
  (forall c, In c xs <-> nf_value tb n c /\ o_pow c = o_pow b /\ exists s, o_factors c = o_factors b ++ [s]) /\
  (forall c, In c xs -> exists x, nf_value tb n x /\ o_pow x = 0%Z /\ length (o_factors x) = 1 /\ nf_mul tb b x = Ok c) /\
  (forall x c, nf_value tb n x -> nf_mul tb b x = Ok c -> o_pow c = o_pow b -> (exists s, o_factors c = o_factors b ++ [s]) -> In c xs).
Definition child {T} (tb : nat -> res (nftable T)) (b c : nfobj) : Prop := exists xs, nf_descendants tb b = Ok xs /\ In c xs.

Theorem C135_gnf n tb b : 2 <= n -> gnf_table n tb -> nf_value tb n b -> exists xs, lists_children tb n b xs.
Proof. intros n2 Ht V. exact (g_descendants _ _ _ _ _ _ _ _ _ (ptab_ok n n2) tb (gnf_table_ptab n tb Ht) b V). Qed.
Theorem C135_dgnf n tab b : 2 <= n -> npar_tables n tab -> nf_value (dtb tab) n b -> exists xs, lists_children (dtb tab) n b xs.
Proof. intros n2 Ht V. exact (g_descendants _ _ _ _ _ _ _ _ _ (ntab_ok n n2) (dtb tab) (dtb_ok n tab n2 Ht) b V). Qed.
(** it is a tree: a braid with at least one factor has exactly one parent *)
Theorem C135_gnf_parent n tb c : 2 <= n -> gnf_table n tb -> nf_value tb n c -> o_factors c <> [] ->
  exists b, (nf_value tb n b /\ child tb b c) /\ forall b', nf_value tb n b' -> child tb b' c -> b' = b.
Proof. intros n2 Ht. exact (g_parent _ _ _ _ _ _ _ _ _ (ptab_ok n n2) tb (gnf_table_ptab n tb Ht) c). Qed.
Theorem C135_dgnf_parent n tab c : 2 <= n -> npar_tables n tab -> nf_value (dtb tab) n c -> o_factors c <> [] ->
  exists b, (nf_value (dtb tab) n b /\ child (dtb tab) b c) /\ forall b', nf_value (dtb tab) n b' -> child (dtb tab) b' c -> b' = b.
Proof. intros n2 Ht. exact (g_parent _ _ _ _ _ _ _ _ _ (ntab_ok n n2) (dtb tab) (dtb_ok n tab n2 Ht) c). Qed.
(** its levels are all_of_length *)
Theorem C135_gnf_level n tb len power bs bs' : 2 <= n -> gnf_table n tb -> (0 <= len)%Z -> all_of_length tb n len power = Ok bs -> all_of_length tb n (len + 1) power = Ok bs' ->
  exists ds, mapM (nf_descendants tb) bs = Ok ds /\ NoDup (concat ds) /\ forall c, In c (concat ds) <-> In c bs'.
Proof. intros n2 Ht. exact (g_level _ _ _ _ _ _ _ _ _ (ptab_ok n n2) tb (gnf_table_ptab n tb Ht) len power bs bs'). Qed.
Theorem C135_dgnf_level n tab len power bs bs' : 2 <= n -> npar_tables n tab -> (0 <= len)%Z -> all_of_length (dtb tab) n len power = Ok bs -> all_of_length (dtb tab) n (len + 1) power = Ok bs' ->
  exists ds, mapM (nf_descendants (dtb tab)) bs = Ok ds /\ NoDup (concat ds) /\ forall c, In c (concat ds) <-> In c bs'.
Proof. intros n2 Ht. exact (g_level _ _ _ _ _ _ _ _ _ (ntab_ok n n2) (dtb tab) (dtb_ok n tab n2 Ht) len power bs bs'). Qed.

(** C135.  canonical_factor(i) accepts exactly the indices Python allows and reads the
    list of canonical factors. *)
Lemma pyget_mapM {X Y} (f : X -> res Y) (l : list X) ys i : mapM f l = Ok ys -> (x <- pyget l i ;; f x) = pyget ys i.
Proof.
  intros E. assert (L : length l = length ys). { revert ys E. induction l as [|x l IH]; intros ys E; cbn [mapM] in E; [now injection E as <-|]. destruct (f x); cbn [bind] in E; [|discriminate]. destruct (mapM f l) as [zs|]; cbn [bind] in E; [|discriminate]. injection E as <-. cbn [length]. now rewrite (IH zs eq_refl). }
  assert (G : forall k, (x <- get l k ;; f x) = get ys k).
  { clear L. revert ys E. induction l as [|x l IH]; intros ys E k; cbn [mapM] in E; [injection E as <-; destruct k; reflexivity|]. destruct (f x) as [y|] eqn:Fx; cbn [bind] in E; [|discriminate]. destruct (mapM f l) as [zs|]; cbn [bind] in E; [|discriminate]. injection E as <-.
    destruct k as [|k]; [unfold get; cbn [nth_error bind]; exact Fx|]. exact (IH zs eq_refl k). }
  unfold pyget. rewrite L. destruct (0 <=? i)%Z; [apply G|]. destruct (0 <=? i + Z.of_nat (length ys))%Z; [apply G|reflexivity].
Qed.

Theorem C135_canonical_factor {T} (tb : nat -> res (nftable T)) b fs i : canonical_factors tb b = Ok fs -> length fs = canonical_length b /\
  canonical_factor tb b i =
    (if (0 <=? i)%Z && (i <? Z.of_nat (length fs))%Z then match nth_error fs (Z.to_nat i) with Some f => Ok f | None => Err IndexError end
     else if (- Z.of_nat (length fs) <=? i)%Z && (i <? 0)%Z then match nth_error fs (Z.to_nat (Z.of_nat (length fs) + i)) with Some f => Ok f | None => Err IndexError end
     else Err IndexError).
Proof.
  unfold canonical_factors, canonical_factor, canonical_length. destruct (tb (o_n b)) as [t|]; cbn [bind]; [|discriminate]. intros E.
  assert (L : length (o_factors b) = length fs). { clear i. revert fs E. induction (o_factors b) as [|x l IH]; intros ys E; cbn [mapM] in E; [now injection E as <-|]. destruct (pyget (t_divs t) x); cbn [bind] in E; [|discriminate]. destruct (mapM _ l) as [zs|]; cbn [bind] in E; [|discriminate]. injection E as <-. cbn [length]. now rewrite (IH zs eq_refl). }
  split; [now symmetry|]. rewrite (pyget_mapM _ _ fs i E). unfold pyget. destruct (Z.leb_spec 0 i) as [P|P]; cbn [andb].
  - destruct (Z.ltb_spec i (Z.of_nat (length fs))) as [Q|Q]; [unfold get; reflexivity|]. destruct (Z.ltb_spec i 0); [lia|]. rewrite andb_false_r. unfold get. rewrite (proj2 (nth_error_None fs (Z.to_nat i))) by lia. reflexivity.
  - destruct (Z.ltb_spec i 0); [|lia]. rewrite andb_true_r. destruct (Z.leb_spec 0 (i + Z.of_nat (length fs))), (Z.leb_spec (- Z.of_nat (length fs)) i); try lia; [|reflexivity]. unfold get. now rewrite (Z.add_comm i).
Qed.

(** C53.  BraidGroup(n) accepts exactly n >= 1. *)
Theorem C53_constructor z : (forall n, braid_group z = Ok n <-> (1 <= z)%Z /\ Z.of_nat n = z) /\ ((z < 1)%Z -> braid_group z = Err AssertionError).
Proof.
  unfold braid_group, assert_. destruct (Z.leb_spec 1 z); cbn [bind]; (split; [intros n; split|]).
  - intros [= <-]. split; [assumption|]. apply Z2Nat.id. lia.
  - intros [_ <-]. now rewrite Nat2Z.id.
  - lia.
  - discriminate.
  - lia.
  - reflexivity.
Qed.

(** C16.  Poly.degree: -1 for the zero polynomial, else the exponent of the last non-zero
    coefficient; additive under multiplication. *)
Theorem C16_degree p : PropsPoly.is_poly p -> (-1 <= ModelPoly.pdeg p)%Z /\ (ModelPoly.pdeg p = (-1)%Z <-> forall k, nth k p 0%Z = 0%Z) /\
  ((0 <= ModelPoly.pdeg p)%Z -> nth (Z.to_nat (ModelPoly.pdeg p)) p 0%Z <> 0%Z) /\ (forall k, (ModelPoly.pdeg p < Z.of_nat k)%Z -> nth k p 0%Z = 0%Z) /\
  (forall q, PropsPoly.is_poly q -> (0 <= ModelPoly.pdeg p)%Z -> (0 <= ModelPoly.pdeg q)%Z -> ModelPoly.pdeg (ModelPoly.pmul p q) = (ModelPoly.pdeg p + ModelPoly.pdeg q)%Z).
Proof.
  intros Hp. apply PropsPoly.is_poly_canon in Hp. unfold ModelPoly.pdeg.
  assert (LP : p <> [] -> nth (length p - 1) p 0%Z <> 0%Z).
  { intros N. destruct Hp as [->|K]; [contradiction|]. intros Q. apply K. destruct (exists_last N) as (l & x & ->). rewrite last_last. rewrite app_length, app_nth2 in Q by (cbn [length]; lia). cbn [length] in Q. replace (length l + 1 - 1 - length l) with 0 in Q by lia. exact Q. }
  split; [lia|]. split; [|split; [|split]].
  - split; [intros E k; apply nth_overflow; lia|]. intros H. destruct p as [|x p]; [reflexivity|]. exfalso. now apply LP.
  - intros H. replace (Z.to_nat (Z.of_nat (length p) - 1)) with (length p - 1) by lia. apply LP. intros ->. cbn in H. lia.
  - intros k H. apply nth_overflow. lia.
  - intros q Hq H1 H2. apply PropsPoly.is_poly_canon in Hq. rewrite (PolyDiv.pmul_len p q Hp Hq); [lia|intros ->; cbn in H1; lia|intros ->; cbn in H2; lia].
Qed.

(** ** examples *)
Example C16_degree_case : ModelPoly.pdeg [1; 0; 3]%Z = 2%Z /\ ModelPoly.pdeg [] = (-1)%Z /\ PropsPoly.is_poly [1; 0; 3]%Z.
Proof. split; [reflexivity|]. split; [reflexivity|]. exists [1; 0; 3; 0]%Z. reflexivity. Qed.
(** Delta s_0 in B_3, an odd power (where nf_suffixes, C50, does not multiply correctly):
    two children; dually delta^2 in B_3 has its four proper divisors as children *)
Definition two (l : list nfobj) : bool := match l with [x; y] => negb (forallb (fun p => Z.eqb (fst p) (snd p)) (combine (o_factors x) (o_factors y))) | _ => false end.
Example C135_case : exists b xs, nf_value (gtb hdpick) 3 b /\ o_pow b = 1%Z /\ lists_children (gtb hdpick) 3 b xs /\ two xs = true.
Proof.
  assert (G : gnf_table 3 (gtb hdpick)) by (apply gtb_is_table; [apply hdpick_ok|lia]).
  set (w := [(0, 1); (1, 1); (0, 1); (0, 1)]%Z). assert (Hw : word_ok 3 w) by (repeat constructor; cbn; lia).
  destruct (api_from_word _ _ _ _ _ _ _ _ _ (ptab_ok 3 ltac:(lia)) (gtb hdpick) (gnf_table_ptab 3 _ G) w Hw) as (b & Eb & (Vb & _)). destruct (C135_gnf 3 _ b ltac:(lia) G Vb) as (xs & L). exists b, xs.
  assert (Q : match from_artin_word (gtb hdpick) 3 w with Ok b => match nf_descendants (gtb hdpick) b with Ok xs => o_pow b = 1%Z /\ two xs = true | Err _ => False end | Err _ => False end) by (vm_compute; auto).
  rewrite Eb, (proj1 L) in Q. tauto.
Qed.

Definition ex_tab := npar_table (fun _ _ _ l => hd (0, 0) l).
Example C135_case_dgnf : npar_tables 4 ex_tab /\ exists b xs, nf_value (dtb ex_tab) 4 b /\ o_pow b = (-1)%Z /\ o_factors b <> [] /\ lists_children (dtb ex_tab) 4 b xs /\ 5 <= length xs.
Proof.
  assert (Ht : npar_tables 4 ex_tab) by (apply C55_table_domain; [|lia]; intros x y k [|e l] N; [contradiction|now left]).
  split; [exact Ht|].
  set (w := [(0, 1); (1, -1)]%Z). assert (Hw : word_ok 4 w) by (repeat constructor; cbn; lia).
  destruct (api_from_word _ _ _ _ _ _ _ _ _ (ntab_ok 4 ltac:(lia)) (dtb ex_tab) (dtb_ok 4 ex_tab ltac:(lia) Ht) w Hw) as (b & Eb & (Vb & _)). destruct (C135_dgnf 4 ex_tab b ltac:(lia) Ht Vb) as (xs & L). exists b, xs.
  assert (Q : match from_artin_word (dtb ex_tab) 4 w with Ok b => match nf_descendants (dtb ex_tab) b with Ok xs => (o_pow b =? -1)%Z && match o_factors b with [] => false | _ => true end && (5 <=? length xs) = true | Err _ => False end | Err _ => False end) by (vm_compute; auto).
  rewrite Eb, (proj1 L) in Q. apply andb_prop in Q as [Q Q3]. apply andb_prop in Q as [Q1 Q2]. apply Z.eqb_eq in Q1. apply Nat.leb_le in Q3. split; [exact Vb|]. split; [exact Q1|]. split; [intros N; now rewrite N in Q2|]. auto.
Qed.
