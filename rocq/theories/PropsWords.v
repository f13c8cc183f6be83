(** PropsWords.v – C113: Artin words with any integer indices. *)
From Coq Require Import Permutation.
From Verif Require Import Base ModelPoly SpecPoly PolyTheory PropsPoly ModelMatrix SpecMatrix MatrixTheory NumTheory ModelPerm Germ GermNF GermBraid PermTheory WeakOrder PermWords SpecBraid BraidTheory ModelBraid ModelTL ModelTLMor ModelRep SpecRep RepTheory RepCanon PropsRep TableTheory NFApi NFGeneric PermGerm PermTable PropsGNF PropsGNF2 ModelNPar NParTable PropsNPar PropsDGNF.

(** the generator a letter refers to: negative indices count from the end *)
Definition from_end (n : nat) (l : Z * Z) : Z * Z := (if fst l <? 0 then fst l + (Z.of_nat n - 1) else fst l, snd l)%Z.
(** the indices that name a generator *)
Definition names (n : nat) (l : Z * Z) : Prop := (- (Z.of_nat n - 1) <= fst l < Z.of_nat n - 1)%Z.
Lemma from_end_ok n w : Forall (names n) w -> word_ok n (map (from_end n) w).
Proof. intros F. unfold word_ok. apply Forall_map. eapply Forall_impl; [|exact F]. intros [i e] H. unfold names, from_end in *. cbn [fst snd] in *. destruct (Z.ltb_spec i 0); lia. Qed.
Lemma pyget_from_end {A} (l : list A) n i e : 1 <= n -> length l = n - 1 -> names n (i, e) -> pyget l i = pyget l (fst (from_end n (i, e))).
Proof.
  intros Hn L H. unfold names, from_end in *. cbn [fst snd] in *. destruct (Z.ltb_spec i 0); [|reflexivity]. rewrite pyget_neg by lia. rewrite L. replace (Z.of_nat (n - 1)) with (Z.of_nat n - 1)%Z by lia.
  unfold pyget. destruct (Z.leb_spec 0 (i + (Z.of_nat n - 1))); [reflexivity|lia].
Qed.
Lemma pyget_out {A} (l : list A) n i e : length l = n - 1 -> ~ names n (i, e) -> pyget l i = Err IndexError.
Proof.
  intros L H. unfold names in H. cbn [fst] in H. unfold pyget. destruct (Z.leb_spec 0 i).
  - unfold get. destruct (nth_error l (Z.to_nat i)) eqn:Q; [|reflexivity]. assert (Z.to_nat i < length l) by (apply nth_error_Some; congruence). lia.
  - destruct (Z.leb_spec 0 (i + Z.of_nat (length l))); [lia|reflexivity].
Qed.
Lemma foldM_ext_in {A B} (f g : B -> A -> res B) l : (forall b a, In a l -> f b a = g b a) -> forall b, foldM f l b = foldM g l b.
Proof. induction l as [|a l IH]; intros H b; [reflexivity|]. cbn [foldM]. rewrite (H b a (or_introl eq_refl)). destruct (g b a); [|reflexivity]. cbn [bind]. apply IH. intros; apply H; now right. Qed.
Lemma foldM_map {A B C} (f : B -> C -> res B) (h : A -> C) l : forall b, foldM f (map h l) b = foldM (fun b a => f b (h a)) l b.
Proof. induction l as [|a l IH]; intros b; [reflexivity|]. cbn [map foldM]. destruct (f b (h a)); [|reflexivity]. cbn [bind]. apply IH. Qed.
Lemma first_bad n (w : list (Z * Z)) : ~ Forall (names n) w -> exists u l v, w = u ++ l :: v /\ Forall (names n) u /\ ~ names n l.
Proof.
  induction w as [|l w IH]; intros H; [exfalso; apply H; constructor|]. assert (D : names n l \/ ~ names n l) by (unfold names; lia). destruct D as [D|D].
  - destruct IH as (u & l' & v & -> & F & N); [intros F; apply H; now constructor|]. exists (l :: u), l', v. split; [reflexivity|]. split; [now constructor|exact N].
  - exists [], l, w. auto.
Qed.
Section Gen.
Context {A : Type} {tbl : nftable A} {G rn eqd} {n : nat} {wd atom idx lift} (TK : table_ok tbl G rn eqd n wd atom idx lift) (tb : nat -> res (nftable A)) (Htb : tb n = Ok tbl) (n1 : 1 <= n).
Lemma gen_wrap w : Forall (names n) w -> from_artin_word tb n w = from_artin_word tb n (map (from_end n) w).
Proof using TK Htb n1.
  intros F. unfold from_artin_word. rewrite Htb. cbn [bind]. rewrite foldM_map. rewrite Forall_forall in F.
  match goal with |- bind ?a ?k = bind ?b ?k => assert (E : a = b); [|now rewrite E] end. apply foldM_ext_in. intros [fs ds] [i e] Hl. rewrite (pyget_from_end (t_gens tbl) n i e n1 (tk_gens_len _ _ _ _ _ _ _ _ _ TK) (F _ Hl)). reflexivity.
Qed.
Lemma gen_out w : ~ Forall (names n) w -> from_artin_word tb n w = Err IndexError.
Proof using TK Htb n1.
  intros N. destruct (first_bad n w N) as (u & [i e] & v & -> & F & H). unfold from_artin_word. rewrite Htb. cbn [bind]. rewrite foldM_app.
  assert (Q : exists st, foldM (fun '(factors, dps) '(i, e) =>
      g <- pyget (t_gens tbl) i ;;
      if (0 <=? e)%Z
      then Ok (factors ++ repeat g (Z.to_nat e), dps ++ repeat 0%Z (Z.to_nat e))
      else
        c <- pyget (t_lc tbl) g ;;
        Ok (factors ++ repeat c (Z.abs_nat e), dps ++ repeat (-1)%Z (Z.abs_nat e))) u ([], []) = Ok st).
  { eexists. rewrite (foldM_ext_in _ (fun b a => (fun '(factors, dps) '(i, e) =>
      g <- pyget (t_gens tbl) i ;;
      if (0 <=? e)%Z
      then Ok (factors ++ repeat g (Z.to_nat e), dps ++ repeat 0%Z (Z.to_nat e))
      else
        c <- pyget (t_lc tbl) g ;;
        Ok (factors ++ repeat c (Z.abs_nat e), dps ++ repeat (-1)%Z (Z.abs_nat e))) b (from_end n a))).
    - rewrite <- foldM_map. apply (queue_ok _ _ _ _ _ _ _ _ _ TK). now apply from_end_ok.
    - intros [fs ds] [i' e'] Hl. rewrite Forall_forall in F. rewrite (pyget_from_end (t_gens tbl) n i' e' n1 (tk_gens_len _ _ _ _ _ _ _ _ _ TK) (F _ Hl)). reflexivity. }
  destruct Q as [[fs ds] Q]. rewrite Q. cbn [bind foldM]. rewrite (pyget_out _ n i e (tk_gens_len _ _ _ _ _ _ _ _ _ TK) H). reflexivity.
Qed.
End Gen.
(** GNF.from_artin_word *)
Theorem C113_gnf n tb w : 2 <= n -> gnf_table n tb ->
  (Forall (names n) w -> word_ok n (map (from_end n) w) /\ exists b, from_artin_word tb n w = Ok b /\ denotes tb n b (expand (map (from_end n) w))) /\
  (~ Forall (names n) w -> from_artin_word tb n w = Err IndexError).
Proof.
  intros n2 Ht. pose proof (gnf_table_ptab n tb Ht) as Etb. split; intros F.
  - split; [now apply from_end_ok|]. rewrite (gen_wrap (ptab_ok n n2) tb Etb ltac:(lia) w F). apply (api_from_word _ _ _ _ _ _ _ _ _ (ptab_ok n n2) tb Etb). now apply from_end_ok.
  - apply (gen_out (ptab_ok n n2) tb Etb ltac:(lia) w F).
Qed.
(** DGNF.from_artin_word *)
Theorem C113_dgnf n tab w : 2 <= n -> npar_tables n tab ->
  (Forall (names n) w -> word_ok n (map (from_end n) w) /\ exists b, from_artin_word (dtb tab) n w = Ok b /\ denotes (dtb tab) n b (expand (map (from_end n) w))) /\
  (~ Forall (names n) w -> from_artin_word (dtb tab) n w = Err IndexError).
Proof.
  intros n2 Ht. pose proof (dtb_ok n tab n2 Ht) as Etb. split; intros F.
  - split; [now apply from_end_ok|]. rewrite (gen_wrap (ntab_ok n n2) (dtb tab) Etb ltac:(lia) w F). apply (api_from_word _ _ _ _ _ _ _ _ _ (ntab_ok n n2) (dtb tab) Etb). now apply from_end_ok.
  - apply (gen_out (ntab_ok n n2) (dtb tab) Etb ltac:(lia) w F).
Qed.
(** JonesCellRep.evaluate_artin_word *)
Theorem C113_evaluate n r p R w : jones_rep n r p = Ok R ->
  (Forall (names n) w -> rep_evaluate_artin_word R w = rep_evaluate_artin_word R (map (from_end n) w) /\ exists A, rep_evaluate_artin_word R w = Ok A) /\
  (~ Forall (names n) w -> rep_evaluate_artin_word R w = Err IndexError).
Proof.
  intros EJ. destruct (jones_rep_ok n r p R EJ) as (Hn & _). destruct (jones_all n r p R EJ) as (d & gens & invs & E & EN & EP & Hp & Hd & ED & EG & EI & HE & L1 & L2 & S1 & S2 & R1 & R2 & K1 & K2 & K3).
  assert (LE : forall l, names n l -> rep_letter gens invs l = rep_letter gens invs (from_end n l)).
  { intros [i e] H. unfold rep_letter. change (from_end n (i, e)) with (fst (from_end n (i, e)), e). cbn beta iota. rewrite <- (pyget_from_end gens n i e Hn L1 H), <- (pyget_from_end invs n i e Hn L2 H). reflexivity. }
  assert (LM : forall w, Forall (names n) w -> mapM (rep_letter gens invs) w = mapM (rep_letter gens invs) (map (from_end n) w)).
  { induction 1 as [|l u Hl _ IH]; [reflexivity|]. cbn [map mapM]. rewrite <- (LE l Hl), IH. reflexivity. }
  split; intros F.
  - assert (Q : rep_evaluate_artin_word R w = rep_evaluate_artin_word R (map (from_end n) w)) by (unfold rep_evaluate_artin_word; rewrite EG; cbn [bind]; now rewrite (LM w F)). split; [exact Q|].
    destruct (eval_ok n r p R _ EJ (from_end_ok n w F)) as (d' & gens' & invs' & E' & A & _ & _ & _ & _ & _ & EA & _). exists A. congruence.
  - destruct (first_bad n w F) as (u & [i e] & v & -> & Fu & H). unfold rep_evaluate_artin_word. rewrite EG. cbn [bind].
    destruct (letters_ok p n d gens invs E HE L1 L2 S1 S2 _ (from_end_ok n u Fu)) as (ms & Ems & _). rewrite <- (LM u Fu) in Ems.
    assert (MA : mapM (rep_letter gens invs) (u ++ (i, e) :: v) = Err IndexError).
    { clear Fu F. revert ms Ems. induction u as [|l u IH]; intros ms Ems.
      - cbn [app mapM]. unfold rep_letter. destruct (0 <=? e)%Z; [rewrite (pyget_out gens n i e L1 H)|rewrite (pyget_out invs n i e L2 H)]; reflexivity.
      - cbn [app mapM] in *. destruct (rep_letter gens invs l) as [m|]; [|discriminate]. cbn [bind] in *. destruct (mapM (rep_letter gens invs) u) as [ms'|]; [|discriminate]. rewrite (IH ms' eq_refl). reflexivity. }
    now rewrite MA.
Qed.
(** so a word and the braid made of it have the same image *)
Theorem C113_same n r p R tb w b : jones_rep n r p = Ok R -> 2 <= n -> gnf_table n tb -> from_artin_word tb n w = Ok b ->
  exists A B, rep_evaluate_nf tb R b = Ok A /\ rep_evaluate_artin_word R w = Ok B /\ mat_congr p A B.
Proof.
  intros EJ n2 Ht Eb. assert (D : Forall (names n) w \/ ~ Forall (names n) w).
  { clear. induction w as [|l w [IH|IH]]; [left; constructor| |right; intros Q; inversion Q; contradiction]. assert (D : names n l \/ ~ names n l) by (unfold names; lia). destruct D; [left; now constructor|right; intros Q; inversion Q; contradiction]. }
  destruct D as [F|F]; [|rewrite (proj2 (C113_gnf n tb w n2 Ht) F) in Eb; discriminate].
  rewrite (gen_wrap (ptab_ok n n2) tb (gnf_table_ptab n tb Ht) ltac:(lia) w F) in Eb. rewrite (proj1 (proj1 (C113_evaluate n r p R w EJ) F)). apply (C59_gnf_word n r p R tb b _ EJ n2 Ht (from_end_ok n w F) Eb).
Qed.
Example C113_case : Forall (names 3) [(-1, 2); (0, 1); (-2, -1)]%Z /\ map (from_end 3) [(-1, 2); (0, 1); (-2, -1)]%Z = [(1, 2); (0, 1); (0, -1)]%Z /\ ~ names 3 (2, 1)%Z /\ ~ names 3 (-3, 0)%Z /\
  from_artin_word (gtb hdpick) 3 [(-1, 2); (0, 1); (-2, -1)]%Z = from_artin_word (gtb hdpick) 3 [(1, 2)]%Z /\ from_artin_word (gtb hdpick) 3 [(0, 1); (2, 1)]%Z = Err IndexError.
Proof. split; [repeat constructor; unfold names; cbn; lia|]. split; [reflexivity|]. split; [unfold names; cbn; lia|]. split; [unfold names; cbn; lia|]. split; vm_compute; reflexivity. Qed.
