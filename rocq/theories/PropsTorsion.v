(** PropsTorsion.v – C117: no braid except the identity has finite order; powers of
    braids, roots, and the fibres of the representations. *)
From Verif Require Import Base ModelPoly SpecPoly ModelMatrix SpecMatrix MatrixTheory NumTheory.
From Verif Require Import ModelPerm Germ GermNF GermAct GermBraid PermTheory WeakOrder PermWords SpecBraid BraidTheory ModelBraid ModelRep SpecRep RepTheory RepCanon PropsRep TableTheory NFApi SpecPerm PermGerm PermTable PropsGNF PropsGNF2 PolyRepTheory TorsionFree NCTheory NCGerm ModelNPar NParTable PropsDGNF PropsKernel.
From Coq Require Import Setoid Morphisms.
Local Open Scope nat_scope.
#[local] Existing Instance neqp_equiv.
#[local] Existing Instance pmeq_equiv.

Lemma esum_pword u : esum (pword u) = Z.of_nat (length u).
Proof. induction u as [|i u IH]; [reflexivity|]. cbn [pword map length esum fold_right snd]. fold (pword u) (esum (pword u)). rewrite IH. lia. Qed.
Lemma lift_esum_ n x : x <> pone n -> (0 < esum (lift (PG n) (pwd n) x))%Z.
Proof.
  intros N. destruct (plift n x) as (u & _ & R & ->). rewrite esum_pword. destruct u as [|i u]; [|cbn [length]; lia]. exfalso. apply N. apply val_inj. rewrite val_one. now inversion R.
Qed.
(** ** words: the braid group has no torsion *)
Theorem C117_words n w k : in_range n w -> (braid_eq n (wpow w k) [] <-> k = 0%Z \/ braid_eq n w []).
Proof.
  intros R. split.
  - intros H. destruct (Nat.lt_ge_cases n 2) as [Hn|n2].
    + right. destruct w as [|[i e] w]; [apply be_refl|]. inversion R as [|? ? Hi]. cbn [fst] in Hi. lia.
    + exact (torsion_free (PG n) (prn n) (prn_ok n) (peqd n) (pD_ne_one n n2) n (lift (PG n) (pwd n)) (PermGerm.atom n) (lift_range_ n) (lift_mul_ n) (lift_atom_ n) (act_braid_ n n2) (act_far_ n n2) (act_lift_ n n2) (lift_esum_ n) w k R H).
  - intros [->|H]; [rewrite wpow_0; apply be_refl|]. eapply be_trans; [apply wpow_mor; exact H|].
    assert (E : wpow [] k = []); [|rewrite E; apply be_refl]. unfold wpow. cbn [winv map rev]. assert (Q : forall m, concat (repeat (@nil (nat * bool)) m) = []) by (intros m; induction m as [|m IH]; [reflexivity|exact IH]). destruct (0 <=? k)%Z; apply Q.
Qed.

(** different exponents give different powers *)
Theorem C117_words_powers n w j k : in_range n w -> (braid_eq n (wpow w j) (wpow w k) <-> j = k \/ braid_eq n w []).
Proof.
  intros R. assert (Q : braid_eq n (wpow w j) (wpow w k) <-> braid_eq n (wpow w (j - k)) []).
  { split; intros H.
    - apply (be_cancel_r n (wpow w k)); [now apply in_range_wpow|]. eapply be_trans; [apply be_sym, wpow_add; exact R|]. replace (j - k + k)%Z with j by lia. exact H.
    - replace j with (j - k + k)%Z by lia. eapply be_trans; [apply wpow_add; exact R|]. change (wpow w k) with ([] ++ wpow w k) at 2. apply be_app; [exact H|apply be_refl]. }
  rewrite Q, C117_words by exact R. split; intros [H|H]; auto; left; lia.
Qed.

(** ** the API, for any of the two normal forms *)
Section Api.
Context {A : Type} {tbl : nftable A} {G : Germ} {rn : T G -> T G -> T G * T G} {eqd : forall x y : T G, {x = y} + {x <> y}} {n : nat} {wd : T G -> list (Z * Z)} {atom : nat -> T G} {idx : T G -> Z} {dv : T G -> A}.
Variable (TK : table_ok tbl G rn eqd n wd atom idx dv).
Variable tb : nat -> res (nftable A).
Variable (Etb : tb n = Ok tbl).
Lemma range_of a u : denotes tb n a u -> in_range n u.
Proof using TK. intros (_ & v & _ & Hv & Q). apply (be_in_range n (expand v) u Q). exact (word_ok_range n v Hv). Qed.
Lemma api_torsion a k : nf_value tb n a -> exists e c, nf_identity tb n = Ok e /\ nf_pow tb a k = Ok c /\ nf_value tb n c /\ (c = e <-> k = 0%Z \/ a = e).
Proof using TK Etb.
  intros V. destruct (api_word _ _ _ _ _ _ _ _ _ TK tb Etb a V) as (u & _ & Hu & _ & Da). destruct (api_id _ _ _ _ _ _ _ _ _ TK tb Etb) as (e & Ee & De). destruct (api_pow _ _ _ _ _ _ _ _ _ TK tb Etb a _ k Da) as (c & Ec & Dc).
  exists e, c. split; [exact Ee|]. split; [exact Ec|]. split; [now destruct Dc|]. rewrite (api_eq _ _ _ _ _ _ _ _ _ TK tb Etb c e _ _ Dc De), (api_eq _ _ _ _ _ _ _ _ _ TK tb Etb a e _ _ Da De). apply C117_words. now apply word_ok_range.
Qed.
Lemma api_powers a j k : nf_value tb n a -> exists e x y, nf_identity tb n = Ok e /\ nf_pow tb a j = Ok x /\ nf_pow tb a k = Ok y /\ (x = y <-> j = k \/ a = e).
Proof using TK Etb.
  intros V. destruct (api_word _ _ _ _ _ _ _ _ _ TK tb Etb a V) as (u & _ & Hu & _ & Da). destruct (api_id _ _ _ _ _ _ _ _ _ TK tb Etb) as (e & Ee & De). destruct (api_pow _ _ _ _ _ _ _ _ _ TK tb Etb a _ j Da) as (x & Ex & Dx). destruct (api_pow _ _ _ _ _ _ _ _ _ TK tb Etb a _ k Da) as (y & Ey & Dy).
  exists e, x, y. split; [exact Ee|]. split; [exact Ex|]. split; [exact Ey|]. rewrite (api_eq _ _ _ _ _ _ _ _ _ TK tb Etb x y _ _ Dx Dy), (api_eq _ _ _ _ _ _ _ _ _ TK tb Etb a e _ _ Da De). apply C117_words_powers. now apply word_ok_range.
Qed.

(** commuting braids *)
#[local] Existing Instance be_equiv.
#[local] Existing Instance be_app_mor.
#[local] Existing Instance winv_proper.
Local Notation commute u v := (braid_eq n (u ++ v) (v ++ u)).
Lemma commute_sym u v : commute u v -> commute v u. Proof using Type. intros H. now symmetry. Qed.
Lemma commute_app u v w : commute u v -> commute u w -> commute u (v ++ w).
Proof using Type. intros H K. now rewrite app_assoc, H, <- app_assoc, K, app_assoc. Qed.
Lemma commute_inv u v : in_range n v -> commute u v -> commute u (winv v).
Proof using Type.
  intros R H. apply (be_cancel_l n v); [exact R|]. apply (be_cancel_r n v); [exact R|]. rewrite !app_assoc, be_inv_r by exact R. cbn [List.app]. rewrite <- !app_assoc, be_inv_l by exact R. now rewrite app_nil_r, H.
Qed.
Lemma commute_pow u v k : in_range n v -> commute u v -> commute u (wpow v k).
Proof using Type.
  intros R H. induction k as [|k IH|k IH] using GermAct.Z_ind2.
  - rewrite wpow_0. now rewrite app_nil_r.
  - pose proof (wpow_succ n v k R) as E. rewrite E. now apply commute_app.
  - pose proof (wpow_pred n v k R) as E. rewrite E. apply commute_app; [now apply commute_inv|exact IH].
Qed.
Lemma wpow_product u v k : in_range n u -> in_range n v -> commute u v -> braid_eq n (wpow (u ++ v) k) (wpow u k ++ wpow v k).
Proof using Type.
  intros Ru Rv C. assert (Ruv : in_range n (u ++ v)) by (apply Forall_app; auto). induction k as [|k IH|k IH] using GermAct.Z_ind2.
  - rewrite !wpow_0. reflexivity.
  - rewrite !wpow_succ by assumption. rewrite IH, <- !app_assoc. f_equiv. rewrite !app_assoc. f_equiv. apply commute_pow; [exact Ru|now apply commute_sym].
  - rewrite !wpow_pred by assumption. rewrite IH, winv_app. assert (C2 : commute (winv v) (winv u)) by (apply commute_inv; [exact Ru|]; apply commute_sym, commute_inv; auto).
    rewrite C2, <- !app_assoc. f_equiv. rewrite !app_assoc. f_equiv. apply commute_pow; [exact Ru|]. apply commute_sym, commute_inv; auto.
Qed.
Lemma api_roots a b k : nf_value tb n a -> nf_value tb n b -> k <> 0%Z -> nf_mul tb a b = nf_mul tb b a -> nf_pow tb a k = nf_pow tb b k -> a = b.
Proof using TK Etb.
  intros Va Vb Nk EM EP. destruct (api_word _ _ _ _ _ _ _ _ _ TK tb Etb a Va) as (u & _ & Hu & _ & Da). destruct (api_word _ _ _ _ _ _ _ _ _ TK tb Etb b Vb) as (v & _ & Hv & _ & Db). pose proof (word_ok_range n u Hu) as Ru. pose proof (word_ok_range n v Hv) as Rv.
  destruct (api_mul _ _ _ _ _ _ _ _ _ TK tb Etb a b _ _ Da Db) as (x & Ex & Dx). destruct (api_mul _ _ _ _ _ _ _ _ _ TK tb Etb b a _ _ Db Da) as (y & Ey & Dy). rewrite Ex, Ey in EM. injection EM as <-. pose proof (proj1 (api_eq _ _ _ _ _ _ _ _ _ TK tb Etb x x _ _ Dx Dy) eq_refl) as C. clear Ex Ey Dx Dy x.
  destruct (api_pow _ _ _ _ _ _ _ _ _ TK tb Etb a _ k Da) as (x & Ex & Dx). destruct (api_pow _ _ _ _ _ _ _ _ _ TK tb Etb b _ k Db) as (y & Ey & Dy). rewrite Ex, Ey in EP. injection EP as <-. pose proof (proj1 (api_eq _ _ _ _ _ _ _ _ _ TK tb Etb x x _ _ Dx Dy) eq_refl) as P.
  apply (api_eq _ _ _ _ _ _ _ _ _ TK tb Etb a b _ _ Da Db). assert (CI : commute (expand u) (winv (expand v))) by now apply commute_inv.
  assert (RI : in_range n (winv (expand v))) by now apply in_range_winv. assert (Q : braid_eq n (wpow (expand u ++ winv (expand v)) k) []).
  { rewrite (wpow_product _ _ k Ru RI CI), P. rewrite <- wpow_product; [|exact Rv|exact RI|apply commute_inv; [exact Rv|reflexivity]]. rewrite (wpow_mor n _ [] k (be_inv_r n _ Rv)). apply C117_words; [constructor|]. right. reflexivity. }
  apply C117_words in Q; [|apply Forall_app; auto]. destruct Q as [Q|Q]; [contradiction|]. apply (be_cancel_r n (winv (expand v))); [exact RI|]. rewrite Q. symmetry. now apply be_inv_r.
Qed.
End Api.

(** ** Garside normal forms *)
Theorem C117_gnf_order n tb a k : 2 <= n -> gnf_table n tb -> nf_value tb n a ->
  exists e c, nf_identity tb n = Ok e /\ nf_pow tb a k = Ok c /\ nf_value tb n c /\ (c = e <-> k = 0%Z \/ a = e).
Proof. intros n2 Ht. exact (api_torsion (ptab_ok n n2) tb (gnf_table_ptab n tb Ht) a k). Qed.
Theorem C117_gnf_powers n tb a j k : 2 <= n -> gnf_table n tb -> nf_value tb n a ->
  exists e x y, nf_identity tb n = Ok e /\ nf_pow tb a j = Ok x /\ nf_pow tb a k = Ok y /\ (x = y <-> j = k \/ a = e).
Proof. intros n2 Ht. exact (api_powers (ptab_ok n n2) tb (gnf_table_ptab n tb Ht) a j k). Qed.
Theorem C117_gnf_roots n tb a b k : 2 <= n -> gnf_table n tb -> nf_value tb n a -> nf_value tb n b -> k <> 0%Z ->
  nf_mul tb a b = nf_mul tb b a -> nf_pow tb a k = nf_pow tb b k -> a = b.
Proof. intros n2 Ht. exact (api_roots (ptab_ok n n2) tb (gnf_table_ptab n tb Ht) a b k). Qed.
(** ** dual Garside normal forms *)
Theorem C117_dgnf_order n tab a k : 2 <= n -> npar_tables n tab -> nf_value (dtb tab) n a ->
  exists e c, nf_identity (dtb tab) n = Ok e /\ nf_pow (dtb tab) a k = Ok c /\ nf_value (dtb tab) n c /\ (c = e <-> k = 0%Z \/ a = e).
Proof. intros n2 Ht. exact (api_torsion (ntab_ok n n2) (dtb tab) (dtb_ok n tab n2 Ht) a k). Qed.
Theorem C117_dgnf_powers n tab a j k : 2 <= n -> npar_tables n tab -> nf_value (dtb tab) n a ->
  exists e x y, nf_identity (dtb tab) n = Ok e /\ nf_pow (dtb tab) a j = Ok x /\ nf_pow (dtb tab) a k = Ok y /\ (x = y <-> j = k \/ a = e).
Proof. intros n2 Ht. exact (api_powers (ntab_ok n n2) (dtb tab) (dtb_ok n tab n2 Ht) a j k). Qed.
Theorem C117_dgnf_roots n tab a b k : 2 <= n -> npar_tables n tab -> nf_value (dtb tab) n a -> nf_value (dtb tab) n b -> k <> 0%Z ->
  nf_mul (dtb tab) a b = nf_mul (dtb tab) b a -> nf_pow (dtb tab) a k = nf_pow (dtb tab) b k -> a = b.
Proof. intros n2 Ht. exact (api_roots (ntab_ok n n2) (dtb tab) (dtb_ok n tab n2 Ht) a b k). Qed.

(** ** the fibres of the representations *)
Lemma eval_word n r p R tb b w : 2 <= n -> gnf_table n tb -> jones_rep n r p = Ok R -> denotes tb n b w ->
  exists d gens invs E X, rep_dimension R = Ok (Z.of_nat d) /\ rep_artin_gens_invs R = Ok (gens, invs) /\ rep_id R = Ok E /\ rep_evaluate_nf tb R b = Ok X /\ sq d X /\ pmeq p X (M gens invs E w).
Proof.
  intros n2 Ht EJ (_ & u & Eu & Hu & BU). destruct (eval_ok n r p R u EJ Hu) as (d & gens & invs & E & X & ED & EG & EI & HE & _ & EX & SX & PX & _).
  destruct (Mfacts n r p R d gens invs E EJ ED EG EI) as (_ & _ & _ & _ & _ & SM & BM & PM). exists d, gens, invs, E, X. repeat (split; [assumption|]). split; [unfold rep_evaluate_nf; rewrite Eu; exact EX|]. split; [exact SX|]. rewrite PX. now apply BM.
Qed.
(** if two different braids have the same image, then every image is the image of
    infinitely many braids: one for each integer *)
Theorem C117_infinite_fibres n r p R tb a b A : 2 <= n -> gnf_table n tb -> jones_rep n r p = Ok R -> nf_value tb n a -> nf_value tb n b -> a <> b ->
  rep_evaluate_nf tb R a = Ok A -> (forall B, rep_evaluate_nf tb R b = Ok B -> mat_congr p A B) ->
  forall c C, nf_value tb n c -> rep_evaluate_nf tb R c = Ok C ->
  exists f : Z -> nfobj, f 0%Z = c /\ (forall j k, f j = f k -> j = k) /\ forall k, nf_value tb n (f k) /\ exists X, rep_evaluate_nf tb R (f k) = Ok X /\ mat_congr p C X.
Proof.
  intros n2 Ht EJ Va Vb NE EA HB c C Vc EC. pose proof (ptab_ok n n2) as TK. pose proof (gnf_table_ptab n tb Ht) as Etb.
  destruct (api_word _ _ _ _ _ _ _ _ _ TK tb Etb a Va) as (u & _ & Hu & _ & Da). destruct (api_word _ _ _ _ _ _ _ _ _ TK tb Etb b Vb) as (v & _ & Hv & _ & Db). destruct (api_word _ _ _ _ _ _ _ _ _ TK tb Etb c Vc) as (z & _ & Hz & _ & Dc).
  pose proof (word_ok_range n u Hu) as Ru. pose proof (word_ok_range n v Hv) as Rv. pose proof (word_ok_range n z Hz) as Rz.
  destruct (eval_word n r p R tb a _ n2 Ht EJ Da) as (d & gens & invs & E & A' & ED & EG & EI & EA' & SA & PA). rewrite EA in EA'. injection EA' as <-.
  assert (EV : forall x w, denotes tb n x w -> exists X, rep_evaluate_nf tb R x = Ok X /\ sq d X /\ pmeq p X (M gens invs E w)).
  { intros x w Dx. destruct (eval_word n r p R tb x w n2 Ht EJ Dx) as (d' & gens' & invs' & E' & X & ED' & EG' & EI' & EX & SX & PX). rewrite ED in ED'. injection ED' as ED'. apply Nat2Z.inj in ED'. subst d'. rewrite EG in EG'. injection EG' as <- <-. rewrite EI in EI'. injection EI' as <-. eauto. }
  destruct (EV b _ Db) as (B & EB & SB & PB). specialize (HB B EB). apply pmeq_congr in HB. destruct (EV c _ Dc) as (C' & EC' & SC & PC). rewrite EC in EC'. injection EC' as <-.
  destruct (Mfacts n r p R d gens invs E EJ ED EG EI) as (_ & _ & _ & _ & HE & SM & BM & PM). pose proof (isid_sq d E HE) as SE.
  set (g := winv (expand u) ++ expand v). assert (Rg : in_range n g) by (apply Forall_app; split; [now apply in_range_winv|exact Rv]).
  assert (Mg : pmeq p (M gens invs E g) E).
  { unfold g. rewrite (PM _ _). transitivity (prod (NI 0) nadd ModelPoly.nmul (M gens invs E (winv (expand u))) (M gens invs E (expand u))).
    - apply (pr_meq p d); auto; [reflexivity|]. rewrite <- PA, <- PB. now symmetry.
    - rewrite <- (PM _ _). rewrite (BM _ [] (be_inv_l n _ Ru)). reflexivity. }
  assert (Mi : pmeq p (M gens invs E (winv g)) E).
  { transitivity (prod (NI 0) nadd ModelPoly.nmul (M gens invs E (winv g)) (M gens invs E g)); [|rewrite <- (PM _ _); rewrite (BM _ [] (be_inv_l n _ Rg)); reflexivity]. symmetry. etransitivity; [apply (pr_meq p d); [auto|auto|auto|exact SE|reflexivity|exact Mg]|]. apply (pr_id_r p d); auto. }
  assert (Mp : forall k, pmeq p (M gens invs E (wpow g k)) E).
  { intros k. induction k as [|k IH|k IH] using GermAct.Z_ind2.
    - rewrite wpow_0. reflexivity.
    - rewrite (BM _ _ (wpow_succ n g k Rg)), (PM _ _). etransitivity; [apply (pr_meq p d); [auto|exact SE|auto|exact SE|exact Mg|exact IH]|]. apply (pr_id_r p d); auto.
    - rewrite (BM _ _ (wpow_pred n g k Rg)), (PM _ _). etransitivity; [apply (pr_meq p d); [auto|exact SE|auto|exact SE|exact Mi|exact IH]|]. apply (pr_id_r p d); auto. }
  destruct (api_inv _ _ _ _ _ _ _ _ _ TK tb Etb a _ Da) as (ai & _ & Dai). destruct (api_mul _ _ _ _ _ _ _ _ _ TK tb Etb ai b _ _ Dai Db) as (gb & _ & Dg). fold g in Dg.
  assert (FK : forall k, exists x, denotes tb n x (expand z ++ wpow g k)). { intros k. destruct (api_pow _ _ _ _ _ _ _ _ _ TK tb Etb gb _ k Dg) as (x & _ & Dx). destruct (api_mul _ _ _ _ _ _ _ _ _ TK tb Etb c x _ _ Dc Dx) as (y & _ & Dy). eauto. }
  set (f := fun k => match (p <- nf_pow tb gb k ;; nf_mul tb c p) with Ok x => x | Err _ => c end).
  assert (DF : forall k, denotes tb n (f k) (expand z ++ wpow g k)). { intros k. unfold f. destruct (api_pow _ _ _ _ _ _ _ _ _ TK tb Etb gb _ k Dg) as (x & Ex & Dx). destruct (api_mul _ _ _ _ _ _ _ _ _ TK tb Etb c x _ _ Dc Dx) as (y & Ey & Dy). rewrite Ex. cbn [bind]. now rewrite Ey. }
  exists f. split; [|split].
  - apply (api_eq _ _ _ _ _ _ _ _ _ TK tb Etb (f 0%Z) c _ _ (DF 0%Z) Dc). rewrite wpow_0, app_nil_r. apply be_refl.
  - intros j k Q. apply (api_eq _ _ _ _ _ _ _ _ _ TK tb Etb _ _ _ _ (DF j) (DF k)) in Q. apply be_cancel_l in Q; [|exact Rz]. apply C117_words_powers in Q; [|exact Rg]. destruct Q as [Q|Q]; [exact Q|]. exfalso. apply NE. apply (api_eq _ _ _ _ _ _ _ _ _ TK tb Etb a b _ _ Da Db).
    apply (be_cancel_l n (winv (expand u))); [now apply in_range_winv|]. eapply be_trans; [apply be_inv_l; exact Ru|]. apply be_sym. exact Q.
  - intros k. split; [apply DF|]. destruct (EV _ _ (DF k)) as (X & EX & SX & PX). exists X. split; [exact EX|]. apply pmeq_congr. rewrite PX, PC, (PM _ _). symmetry. etransitivity; [apply (pr_meq p d); [auto|auto|auto|exact SE|reflexivity|apply Mp]|]. apply (pr_id_r p d); auto.
Qed.
(** with the kernel elements of C116: in these representations every image is the
    image of infinitely many braids *)
Theorem C117_published_fibres n p tb R c C : (n = 6 \/ n = 4 /\ (p = 2 \/ p = 5)%Z) -> gnf_table n tb -> jones_rep n 1 p = Ok R -> nf_value tb n c -> rep_evaluate_nf tb R c = Ok C ->
  exists f : Z -> nfobj, f 0%Z = c /\ (forall j k, f j = f k -> j = k) /\ forall k, nf_value tb n (f k) /\ exists X, rep_evaluate_nf tb R (f k) = Ok X /\ mat_congr p C X.
Proof.
  intros HN Ht EJ Vc EC. destruct (C116_unfaithful n p tb R c HN Ht EJ Vc) as (a & A & A' & Va & NE & EA & EA' & K). rewrite EC in EA. injection EA as <-.
  apply (C117_infinite_fibres n 1 p R tb c a C ltac:(lia) Ht EJ Vc Va (not_eq_sym NE) EC); auto. intros B EB. rewrite EA' in EB. injection EB as <-. exact K.
Qed.
(** a braid of infinite order with trivial permutation and exponent sum 0: the
    commutator of sigma_0^2 and sigma_1^2 is not the identity, so neither are its powers *)
Example C117_example : exists a c, from_artin_word (gtb hdpick) 3 [(0, 2); (1, 2); (0, -2); (1, -2)]%Z = Ok a /\ nf_value (gtb hdpick) 3 a /\ nf_pow (gtb hdpick) a 12345 = Ok c /\ nf_identity (gtb hdpick) 3 <> Ok c.
Proof.
  assert (Ht := gtb_is_table hdpick 3 hdpick_ok ltac:(lia)). pose proof (ptab_ok 3 ltac:(lia)) as TK. pose proof (gnf_table_ptab 3 _ Ht) as Etb.
  destruct (api_from_word _ _ _ _ _ _ _ _ _ TK _ Etb [(0, 2); (1, 2); (0, -2); (1, -2)]%Z ltac:(repeat constructor; cbn; lia)) as (a & Ea & Va & _). exists a.
  destruct (C117_gnf_order 3 _ a 12345 ltac:(lia) Ht Va) as (e & c & Ee & Ec & _ & K). exists c. split; [exact Ea|]. split; [exact Va|]. split; [exact Ec|]. rewrite Ee. intros Q. injection Q as <-. destruct (proj1 K eq_refl) as [X|X]; [discriminate|]. subst a. vm_compute in Ea, Ee. congruence.
Qed.
