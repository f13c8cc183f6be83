(** PropsKernel.v – C116: the published kernel elements are in the kernels. *)
From Verif Require Import Base ModelPoly SpecPoly PolyTheory PropsPoly ModelMatrix SpecMatrix MatrixTheory NumTheory PropsPolymat3.
From Verif Require Import ModelPerm Germ GermNF GermAct GermBraid PermTheory WeakOrder PermWords SpecBraid BraidTheory ModelBraid ModelTL ModelTLMor ModelRep SpecRep RepTheory RepCanon PropsRep TableTheory NFApi SpecPerm SpecPermTheory PermGerm PermTable PropsPerm2 PropsGNF PropsGNF2 PolyRepTheory BurauThree PropsBurau BurauWords BurauKernel KernelData.
From Coq Require Import Permutation.
Local Open Scope nat_scope.
#[local] Existing Instance neqp_equiv.
#[local] Existing Instance pmeq_equiv.

(** ** the canonical decomposition of a pair already in normal form *)
Theorem C116_round_trip n tb k xs : 2 <= n -> gnf_table n tb -> normal_seq n xs ->
  exists g, from_gnf_pair tb n k xs = Ok g /\ nf_value tb n g /\ canonical_decomposition tb g = Ok (k, xs) /\ canonical_length g = length xs.
Proof.
  intros n2 Ht Hx. pose proof (gnf_table_ptab n tb Ht) as Etb. pose proof (ptab_ok n n2) as TK.
  assert (F : Forall (isperm n) xs) by (destruct Hx as [H _]; eapply Forall_impl; [|exact H]; now intros x [A _]).
  destruct (mk_perms n n2 k xs Hx) as [_ OK]. set (l := map (mkT n) xs) in *. destruct (from_gnf_pair_ok n tb n2 Ht k xs F) as (g & Eg & RG). fold l in RG.
  pose proof (reps_word (PG n) (peqd n) n (pwd n) (idx n) (k, l) OK) as RW.
  assert (Q : g = TableTheory.enc (PG n) n (idx n) (k, l)) by (apply (reps_eq _ _ _ _ _ _ _ _ _ TK _ _ _ _ RG RW); apply be_refl).
  exists g. subst g. split; [exact Eg|]. split; [now apply (enc_val n tb n2 Ht)|]. split.
  - unfold canonical_decomposition, canonical_factors. cbn [o_n TableTheory.enc]. rewrite Etb. cbn [bind o_factors snd].
    change (bind (bind (Ok (ptab n)) (fun t => mapM (pyget (t_divs t)) (map (idx n) l))) (fun fs => Ok (k, fs)) = Ok (k, xs)).
    cbn [bind]. rewrite divs_perms by exact n2. cbn [bind]. unfold l. now rewrite val_surj.
  - unfold canonical_length, TableTheory.enc. cbn [o_factors snd]. unfold l. now rewrite !map_length.
Qed.

(** ** deciding that a list of permutations is in normal form *)
Definition permb (n : nat) (w : list nat) : bool := (length w =? n) && forallb (fun i => existsb (Nat.eqb i) w) (seq 0 n).
Fixpoint nats_eqb (a b : list nat) : bool := match a, b with [], [] => true | x :: a', y :: b' => (x =? y) && nats_eqb a' b' | _, _ => false end.
Definition properb (n : nat) (w : list nat) : bool := permb n w && negb (nats_eqb w (seq 0 n)) && negb (nats_eqb w (rev (seq 0 n))).
Definition weightedb (n : nat) (x y : list nat) : bool :=
  forallb (fun i => negb (existsb (fun p => (nth p y 0 =? i + 1) && existsb (fun q => (p <? q) && (nth q y 0 =? i)) (seq 0 n)) (seq 0 n)) || (nth (i + 1) x 0 <? nth i x 0)) (seq 0 (n - 1)).
Fixpoint chainb {A} (R : A -> A -> bool) (l : list A) : bool := match l with x :: ((y :: _) as r) => R x y && chainb R r | _ => true end.
Definition normalb (n : nat) (l : list (list nat)) : bool := forallb (properb n) l && chainb (weightedb n) l.
Lemma nats_eqb_refl a : nats_eqb a a = true.
Proof. induction a as [|x a IH]; [reflexivity|]. cbn [nats_eqb]. now rewrite Nat.eqb_refl, IH. Qed.
Lemma permb_ok n w : permb n w = true -> is_perm_word n w.
Proof.
  intros [H1 H2]%andb_prop. apply Nat.eqb_eq in H1. rewrite forallb_forall in H2. apply Permutation_sym. apply NoDup_Permutation_bis; [apply seq_NoDup|rewrite seq_length; lia|]. intros x Hx. specialize (H2 x Hx). apply existsb_exists in H2. destruct H2 as (y & Hy & E). apply Nat.eqb_eq in E. now subst y.
Qed.
Lemma properb_ok n w : properb n w = true -> proper_perm n w.
Proof.
  intros [[H1 H2]%andb_prop H3]%andb_prop. split; [now apply permb_ok|]. split; intros ->; rewrite nats_eqb_refl in *; discriminate.
Qed.
Lemma weightedb_ok n x y : is_perm_word n x -> is_perm_word n y -> weightedb n x y = true -> weighted n x y.
Proof.
  intros Px Py H i Hi (p & q & Hpq & Ep & Eq). unfold weightedb in H. rewrite forallb_forall in H. specialize (H i ltac:(apply in_seq; lia)). apply Permutation_length in Px, Py. rewrite seq_length in Px, Py.
  assert (Lp : p < length y) by (apply nth_error_Some; congruence). assert (Lq : q < length y) by (apply nth_error_Some; congruence).
  apply orb_prop in H. destruct H as [H|H]; [|apply Nat.ltb_lt in H; split; [lia|]; split; [lia|exact H]]. exfalso. apply negb_true_iff in H.
  rewrite <- not_true_iff_false in H. apply H. apply existsb_exists. exists p. split; [apply in_seq; lia|]. rewrite (nth_error_nth _ _ 0 Ep), Nat.eqb_refl. cbn [andb]. apply existsb_exists. exists q. split; [apply in_seq; lia|]. rewrite (nth_error_nth _ _ 0 Eq), Nat.eqb_refl. rewrite andb_true_r. now apply Nat.ltb_lt.
Qed.
Lemma chainb_ok {A} (R : A -> A -> bool) (S : A -> A -> Prop) (P : A -> Prop) l : (forall x y, P x -> P y -> R x y = true -> S x y) -> Forall P l -> chainb R l = true -> chain S l.
Proof.
  intros H F. induction F as [|x l Px F IH]; intros C; [exact Logic.I|]. destruct l as [|y l]; [exact Logic.I|]. cbn [chainb] in C. apply andb_prop in C. destruct C as [C1 C2]. split; [|now apply IH]. apply H; auto. now inversion F.
Qed.
Lemma normalb_ok n l : normalb n l = true -> normal_seq n l.
Proof.
  intros [H1 H2]%andb_prop. rewrite forallb_forall in H1. assert (F : Forall (proper_perm n) l) by (apply Forall_forall; intros x Hx; now apply properb_ok, H1). split; [exact F|].
  apply (chainb_ok (weightedb n) (weighted n) (proper_perm n)); auto. intros x y [Px _] [Py _]. now apply weightedb_ok.
Qed.

(** ** elements of the kernel *)
Definition sword (x : list nat) : list nat := match shortlex x with Ok u => u | Err _ => [] end.
Lemma sword_lifts n x : is_perm_word n x -> lifts n x (pword (sword x)) /\ Forall (fun s => s + 1 < n) (sword x).
Proof.
  intros Hx. destruct (shortlex_sl n x Hx) as [u [Eu Su]]. pose proof (sl_redw n u x Su) as Ru. unfold sword. rewrite Eu. split; [exists u; split; [now apply shortest_redw|reflexivity]|]. exact (redw_inr n u x Ru).
Qed.
Definition spell (xs : list (list nat)) : list nat := flat_map sword xs.
Lemma pword_app u v : pword (u ++ v) = pword u ++ pword v. Proof. apply map_app. Qed.
Lemma spell_pword xs : pword (spell xs) = concat (map (fun x => pword (sword x)) xs).
Proof. induction xs as [|x xs IH]; [reflexivity|]. cbn [spell flat_map map concat]. fold (spell xs). now rewrite pword_app, IH. Qed.
Lemma spell_range n xs : Forall (is_perm_word n) xs -> Forall (fun s => s + 1 < n) (spell xs).
Proof. induction 1 as [|x xs Hx _ IH]; [constructor|]. apply Forall_app. split; [now apply sword_lifts|exact IH]. Qed.
Definition kernel_check (q : Z) (n k : nat) (xs : list (list nat)) : bool := normalb n xs && same_image q n (spell xs) (spell (repeat (rev (seq 0 n)) k)).
Lemma pword_in_range n us : Forall (fun s => s + 1 < n) us -> in_range n (pword us).
Proof. intros F. apply Forall_map. eapply Forall_impl; [|exact F]. intros s Hs. exact Hs. Qed.
Lemma longest_perm n : is_perm_word n (rev (seq 0 n)).
Proof. apply Permutation_sym, Permutation_rev. Qed.
Lemma wpow_spell n k : wpow (pword (sword (rev (seq 0 n)))) (Z.of_nat k) = pword (spell (repeat (rev (seq 0 n)) k)).
Proof.
  unfold wpow. rewrite (proj2 (Z.leb_le 0 (Z.of_nat k))) by lia. rewrite Nat2Z.id, spell_pword. f_equal. induction k as [|k IH]; [reflexivity|]. cbn [repeat map]. now rewrite IH.
Qed.
Definition in_kernel {A} (tb : nat -> res (nftable A)) (n : nat) (p : Z) (g : nfobj) : Prop :=
  exists R X, jones_rep n 1 p = Ok R /\ rep_evaluate_nf tb R g = Ok X /\ is_unit_matrix p (n - 1) X.
Lemma kernel_pair n tb p k xs : 2 <= n -> gnf_table n tb -> (0 <= p)%Z -> normal_seq n xs ->
  (forall R gens invs E, jones_rep n 1 p = Ok R -> rep_artin_gens_invs R = Ok (gens, invs) -> rep_id R = Ok E -> pmeq p (M gens invs E (pword (spell xs))) (M gens invs E (pword (spell (repeat (rev (seq 0 n)) k))))) ->
  exists g, from_gnf_pair tb n (- Z.of_nat k) xs = Ok g /\ canonical_decomposition tb g = Ok (- Z.of_nat k, xs)%Z /\ canonical_length g = length xs /\ nf_value tb n g /\ in_kernel tb n p g.
Proof.
  intros n2 Ht Hp NS HM. destruct (C116_round_trip n tb (- Z.of_nat k) xs n2 Ht NS) as (g & Eg & Vg & CD & CL). exists g. repeat (split; [assumption|]).
  destruct (proj1 (proj1 (C58_constructor n 1 p)) ltac:(lia)) as [R EJ]. assert (F : Forall (is_perm_word n) xs) by (destruct NS as [H _]; eapply Forall_impl; [|exact H]; now intros x [A _]).
  assert (FL : Forall2 (lifts n) xs (map (fun x => pword (sword x)) xs)). { clear - F. induction F as [|x xs Hx _ IH]; constructor; [now apply sword_lifts|exact IH]. }
  destruct (sword_lifts n _ (longest_perm n)) as [LD RD]. destruct (C48_from_gnf_pair n tb (- Z.of_nat k) xs _ _ n2 Ht F FL LD) as (g' & Eg' & (_ & u & Eu & Hu & BU)). rewrite Eg in Eg'. injection Eg' as <-. rewrite <- spell_pword in BU.
  destruct (eval_ok n 1 p R u EJ Hu) as (d & gens & invs & E & X & ED & EG & EI & HE & _ & EX & SX & PX & _). pose proof (burau_dim n p R EJ) as ED'. rewrite ED in ED'. injection ED' as ED'. apply Nat2Z.inj in ED'. subst d.
  exists R, X. split; [exact EJ|]. split; [unfold rep_evaluate_nf; rewrite Eu; exact EX|]. apply (unit_of_pmeq p (n - 1) X E HE SX). rewrite PX.
  destruct (Mfacts n 1 p R (n - 1) gens invs E EJ ED EG EI) as (_ & _ & _ & _ & _ & SM & BM & PM). rewrite (BM _ _ BU). rewrite (PM _ _).
  set (Dw := pword (sword (rev (seq 0 n)))) in *. assert (ID : in_range n Dw) by now apply pword_in_range.
  assert (K : pmeq p (prod (NI 0) nadd nmul (M gens invs E (wpow Dw (- Z.of_nat k))) (M gens invs E (pword (spell xs)))) (prod (NI 0) nadd nmul (M gens invs E (wpow Dw (- Z.of_nat k))) (M gens invs E (wpow Dw (Z.of_nat k))))).
  { apply (pr_meq p (n - 1)); auto; [reflexivity|]. unfold Dw. rewrite wpow_spell. now apply (HM R). }
  rewrite K, <- (PM _ _). rewrite (BM _ []); [reflexivity|]. eapply be_trans; [apply be_sym, wpow_add; exact ID|]. replace (- Z.of_nat k + Z.of_nat k)%Z with 0%Z by lia. rewrite wpow_0. apply be_refl.
Qed.
Lemma kernel_ok n tb p q k xs : 2 <= n -> gnf_table n tb -> (0 <= p)%Z -> (p | q)%Z -> kernel_check q n k xs = true ->
  exists g, from_gnf_pair tb n (- Z.of_nat k) xs = Ok g /\ canonical_decomposition tb g = Ok (- Z.of_nat k, xs)%Z /\ canonical_length g = length xs /\ nf_value tb n g /\ in_kernel tb n p g.
Proof.
  intros n2 Ht Hp Hq [H1 H2]%andb_prop. apply normalb_ok in H1. apply kernel_pair; auto. intros R gens invs E EJ EG EI. apply (same_image_ok n p q R gens invs E EJ EG EI Hq); [|apply spell_range|exact H2].
  - apply spell_range. destruct H1 as [H _]; eapply Forall_impl; [|exact H]; now intros x [A _].
  - apply Forall_forall. intros x Hx. apply repeat_spec in Hx. subst x. apply longest_perm.
Qed.

(** ** the published elements *)
(** what the notebook and the README claim of (-k, xs): it is a normal form, its
    braid object has this very canonical decomposition, and its image is the identity *)
Definition published (n : nat) (p : Z) (k : nat) (xs : list (list nat)) : Prop :=
  forall tb, gnf_table n tb -> exists g, from_gnf_pair tb n (- Z.of_nat k) xs = Ok g /\ canonical_decomposition tb g = Ok (- Z.of_nat k, xs)%Z /\
    canonical_length g = length xs /\ nf_value tb n g /\ in_kernel tb n p g.
Theorem C116_notebook_a : published 4 5 27 a_seq /\ length a_seq = 54.
Proof. split; [|reflexivity]. intros tb Ht. apply (kernel_ok 4 tb 5 5); [lia|exact Ht|lia|apply Z.divide_refl|]. vm_compute. reflexivity. Qed.
Theorem C116_notebook_b : published 4 5 29 b_seq /\ length b_seq = 59.
Proof. split; [|reflexivity]. intros tb Ht. apply (kernel_ok 4 tb 5 5); [lia|exact Ht|lia|apply Z.divide_refl|]. vm_compute. reflexivity. Qed.
Theorem C116_notebook_c : published 4 5 33 c_seq /\ length c_seq = 65.
Proof. split; [|reflexivity]. intros tb Ht. apply (kernel_ok 4 tb 5 5); [lia|exact Ht|lia|apply Z.divide_refl|]. vm_compute. reflexivity. Qed.
Theorem C116_readme : published 4 5 33 readme_89 /\ published 4 5 33 readme_90.
Proof. split; intros tb Ht; (apply (kernel_ok 4 tb 5 5); [lia|exact Ht|lia|apply Z.divide_refl|]); vm_compute; reflexivity. Qed.
(** the element of B_6 is in the kernel over the integers and modulo every p *)
Theorem C116_notebook_d p : (0 <= p)%Z -> published 6 p 14 d_seq /\ length d_seq = 28.
Proof. intros Hp. split; [|reflexivity]. intros tb Ht. apply (kernel_ok 6 tb p 0); [lia|exact Ht|exact Hp|apply Z.divide_0_r|]. vm_compute. reflexivity. Qed.

(** ** README.md:43 and its powers *)
Lemma chain_pairs {A} (R : A -> A -> Prop) x y k : R x y -> R y x -> chain R (concat (repeat [x; y] k)).
Proof.
  intros H1 H2. induction k as [|k IH]; [exact Logic.I|]. cbn [repeat concat List.app]. destruct k as [|k]; [split; [exact H1|exact Logic.I]|]. cbn [repeat concat List.app] in *. split; [exact H1|]. split; [exact H2|exact IH].
Qed.
Lemma spell_app a b : spell (a ++ b) = spell a ++ spell b. Proof. apply flat_map_app. Qed.
Lemma spell_blocks l k : spell (concat (repeat l k)) = concat (repeat (spell l) k).
Proof. induction k as [|k IH]; [reflexivity|]. cbn [repeat concat]. now rewrite spell_app, IH. Qed.
Lemma repeat_blocks {A} (l : list A) c m : concat (repeat l (c * m)) = concat (repeat (concat (repeat l c)) m).
Proof.
  induction m as [|m IH]; [now rewrite Nat.mul_0_r|]. rewrite Nat.mul_succ_r, Nat.add_comm, repeat_app, concat_app, IH. reflexivity.
Qed.
Lemma repeat_singles {A} (x : A) k : repeat x k = concat (repeat [x] k).
Proof. induction k as [|k IH]; [reflexivity|]. cbn [repeat concat List.app]. now rewrite <- IH. Qed.
Lemma pword_concat k u : pword (concat (repeat u k)) = concat (repeat (pword u) k).
Proof. induction k as [|k IH]; [reflexivity|]. cbn [repeat concat]. now rewrite pword_app, IH. Qed.
Theorem C116_readme_powers m : published 4 2 (4 * m) (concat (repeat readme_pair (4 * m))).
Proof.
  intros tb Ht. apply kernel_pair; [lia|exact Ht|lia| |].
  - assert (N : normalb 4 (readme_pair ++ readme_pair) = true) by reflexivity. apply normalb_ok in N. destruct N as [F C]. cbn in C. split; [|apply chain_pairs; tauto]. apply Forall_app in F. destruct F as [F _]. apply Forall_concat. apply Forall_forall. intros l Hl. apply repeat_spec in Hl. now subst l.
  - intros R gens invs E EJ EG EI. rewrite (repeat_singles (rev (seq 0 4))), (repeat_blocks readme_pair), (repeat_blocks [rev (seq 0 4)]), !spell_blocks, !pword_concat.
    destruct (Mfacts 4 1 2 R (4 - 1) gens invs E EJ (burau_dim 4 2 R EJ) EG EI) as (_ & _ & _ & _ & _ & SM & BM & PM).
    assert (B : pmeq 2 (M gens invs E (pword (concat (repeat (spell readme_pair) 4)))) (M gens invs E (pword (concat (repeat (spell [rev (seq 0 4)]) 4))))).
    { apply (same_image_ok 4 2 2 R gens invs E EJ EG EI (Z.divide_refl 2)); [| |vm_compute; reflexivity].
      - rewrite <- spell_blocks. apply spell_range. apply Forall_concat, Forall_forall. intros l Hl. apply repeat_spec in Hl. subst l. repeat constructor; apply permb_ok; reflexivity.
      - rewrite <- spell_blocks. apply spell_range. apply Forall_concat, Forall_forall. intros l Hl. apply repeat_spec in Hl. subst l. repeat constructor. apply longest_perm. }
    rewrite !pword_concat in B. revert B. generalize (concat (repeat (pword (spell readme_pair)) 4)) (concat (repeat (pword (spell [rev (seq 0 4)])) 4)). intros u v B. clear - SM PM B. induction m as [|m IH]; [reflexivity|]. cbn [repeat concat].
    etransitivity; [apply PM|]. etransitivity; [|symmetry; apply PM]. apply (pr_meq 2 (4 - 1)); auto.
Qed.

(** ** so these representations are not faithful *)
Lemma eval_denotes n tb p R b w : 2 <= n -> gnf_table n tb -> jones_rep n 1 p = Ok R -> denotes tb n b w ->
  exists gens invs E X, rep_artin_gens_invs R = Ok (gens, invs) /\ rep_id R = Ok E /\ rep_evaluate_nf tb R b = Ok X /\ sq (n - 1) X /\ pmeq p X (M gens invs E w).
Proof.
  intros n2 Ht EJ (_ & u & Eu & Hu & BU). destruct (eval_ok n 1 p R u EJ Hu) as (d & gens & invs & E & X & ED & EG & EI & HE & _ & EX & SX & PX & _). pose proof (burau_dim n p R EJ) as ED'. rewrite ED in ED'. injection ED' as ED'. apply Nat2Z.inj in ED'. subst d.
  destruct (Mfacts n 1 p R (n - 1) gens invs E EJ ED EG EI) as (_ & _ & _ & _ & _ & SM & BM & PM). exists gens, invs, E, X. split; [exact EG|]. split; [exact EI|]. split; [unfold rep_evaluate_nf; rewrite Eu; exact EX|]. split; [exact SX|]. rewrite PX. now apply BM.
Qed.
Theorem C116_kernel_translates n tb p R g b : 2 <= n -> gnf_table n tb -> jones_rep n 1 p = Ok R -> nf_value tb n g -> in_kernel tb n p g -> nf_value tb n b ->
  exists c B C, nf_mul tb b g = Ok c /\ nf_value tb n c /\ rep_evaluate_nf tb R b = Ok B /\ rep_evaluate_nf tb R c = Ok C /\ mat_congr p B C /\ (c = b <-> nf_identity tb n = Ok g).
Proof.
  intros n2 Ht EJ Vg (R' & X & EJ' & EX & UX) Vb. rewrite EJ in EJ'. injection EJ' as <-. pose proof (gnf_table_ptab n tb Ht) as Etb. pose proof (ptab_ok n n2) as TK.
  destruct (api_word _ _ _ _ _ _ _ _ _ TK tb Etb b Vb) as (u & _ & Hu & _ & Db), (api_word _ _ _ _ _ _ _ _ _ TK tb Etb g Vg) as (w & Ew & Hw & _ & Dg). destruct (api_mul _ _ _ _ _ _ _ _ _ TK tb Etb b g _ _ Db Dg) as (c & Ec & Dc).
  destruct (eval_denotes n tb p R b _ n2 Ht EJ Db) as (gens & invs & E & B & EG & EI & EB & SB & PB). destruct (eval_denotes n tb p R c _ n2 Ht EJ Dc) as (gens' & invs' & E' & C & EG' & EI' & EC & SC & PC). rewrite EG in EG'. injection EG' as <- <-. rewrite EI in EI'. injection EI' as <-.
  destruct (eval_denotes n tb p R g _ n2 Ht EJ Dg) as (gens' & invs' & E' & X' & EG' & EI' & EX' & SX & PX). rewrite EG in EG'. injection EG' as <- <-. rewrite EI in EI'. injection EI' as <-. rewrite EX in EX'. injection EX' as <-.
  destruct (Mfacts n 1 p R (n - 1) gens invs E EJ (burau_dim n p R EJ) EG EI) as (_ & _ & _ & _ & HE & SM & BM & PM).
  exists c, B, C. split; [exact Ec|]. split; [now destruct Dc|]. split; [exact EB|]. split; [exact EC|]. split.
  - apply pmeq_congr. rewrite PB, PC, (PM _ _).
    assert (XE : pmeq p (M gens invs E (expand w)) E).
    { rewrite <- PX. destruct HE as (WE & RE & CE & HE'). destruct SX as (WX & RX & CX). apply (meq_ent (NI 0) (neqp p)); auto. split; [congruence|]. split; [congruence|]. intros i j Hi Hj. rewrite HE' by lia. destruct UX as (_ & UX). specialize (UX i j ltac:(lia) ltac:(lia)). apply neqp_congr. unfold ent, entry. rewrite CX. exact UX. }
    symmetry. etransitivity; [apply (pr_meq p (n - 1)); [auto|auto|auto|apply isid_sq; exact HE|reflexivity|exact XE]|]. apply (pr_id_r p (n - 1)); auto.
  - destruct (api_id _ _ _ _ _ _ _ _ _ TK tb Etb) as (e & Ee & De). rewrite Ee. rewrite (api_eq _ _ _ _ _ _ _ _ _ TK tb Etb c b _ _ Dc Db).
    assert (Q : Ok e = Ok g <-> g = e) by (split; congruence). rewrite Q, (api_eq _ _ _ _ _ _ _ _ _ TK tb Etb g e _ _ Dg De). split; intros K.
    + apply (be_cancel_l n (expand u)); [now apply word_ok_range|]. now rewrite app_nil_r.
    + rewrite <- (app_nil_r (expand u)) at 2. apply be_app; [apply be_refl|exact K].
Qed.
Lemma published_nontrivial n tb g (xs : list (list nat)) : 2 <= n -> gnf_table n tb -> xs <> [] -> canonical_length g = length xs -> nf_identity tb n <> Ok g.
Proof.
  intros n2 Ht NX CL E. pose proof (mkE n tb n2 Ht 0 [] (ok_nil n 0)) as ME. unfold nf_identity in E. change (map (idx n) []) with (@nil Z) in ME. rewrite ME in E. injection E as <-. unfold canonical_length in CL. cbn [TableTheory.enc o_factors snd map length] in CL. destruct xs; [congruence|discriminate].
Qed.
(** hence several braids - every braid, together with another one - have the same image *)
Theorem C116_unfaithful n p tb R b : (n = 6 \/ n = 4 /\ (p = 2 \/ p = 5)%Z) -> gnf_table n tb -> jones_rep n 1 p = Ok R -> nf_value tb n b ->
  exists c B C, nf_value tb n c /\ c <> b /\ rep_evaluate_nf tb R b = Ok B /\ rep_evaluate_nf tb R c = Ok C /\ mat_congr p B C.
Proof.
  intros HN Ht EJ Vb. destruct (jones_rep_ok n 1 p R EJ) as (_ & Hr & Hp & _).
  assert (K : exists k xs, xs <> [] /\ published n p k xs).
  { destruct HN as [-> | (-> & [-> | ->])].
    - exists 14, d_seq. split; [discriminate|]. apply (C116_notebook_d p Hp).
    - exists (4 * 1), (concat (repeat readme_pair (4 * 1))). split; [discriminate|]. exact (C116_readme_powers 1).
    - exists 27, a_seq. split; [discriminate|]. apply C116_notebook_a. }
  destruct K as (k & xs & NX & PB). destruct (PB tb Ht) as (g & _ & _ & CL & Vg & KG). destruct (C116_kernel_translates n tb p R g b ltac:(lia) Ht EJ Vg KG Vb) as (c & B & C & _ & Vc & EB & EC & Q & NE). exists c, B, C. split; [exact Vc|]. split; [|auto]. intros ->. apply (published_nontrivial n tb g xs ltac:(lia) Ht NX CL). now apply NE.
Qed.
